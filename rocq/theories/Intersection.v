(** * Intersections with half edges

    Model of /repo/libflatsurf/src/half_edge_intersection.cc (HEI). *)
From Coq Require Import ZArith List Arith Bool.
From Verif Require Import Base HalfEdge ExactReal Vector FlatTri.
Import ListNotations.

Section intersection.
Context {K : ExactReal}.

(** HEI:89-91 and impl/half_edge_intersection.impl.hpp:30-47: the line [ibase] + λ [idirection], relative to the start of
    [ihalf_edge]. *)
Record intersection := mkIntersection { isurface : flat K; ibase : vec K; ihalf_edge : halfedge; idirection : vec K }.

(** HEI:62-73, [projective]. *)
Definition projective (i : intersection) : outcome (K * K * K) :=
  do h <- from_he (isurface i) (ihalf_edge i);
  let d := idirection i in
  let b := ibase i in
  let l0 := (- vy d)%X in
  let l1 := vx d in
  let l2 := (vy d * vx b - vx d * vy b)%X in
  let m0 := (- vy h)%X in
  let m1 := vx h in
  let m2 := rofZ 0 in
  Ok ((m2 * l1 - l2 * m1)%X, (l2 * m0 - m2 * l0)%X, (m1 * l0 - m0 * l1)%X).

(** HEI:75-87, [relative]: a numerator and a denominator. *)
Definition relative (i : intersection) : outcome (K * K) :=
  do (x, y, w) <- projective i;
  do h <- from_he (isurface i) (ihalf_edge i);
  if negb (x =? rofZ 0)%X then Ok (x, (w * vx h)%X) else Ok (y, (w * vy h)%X).

(** HEI:38-44, [operator<]. *)
Definition intersection_ltb (i j : intersection) : outcome bool :=
  do (a, b) <- relative i;
  do (c, d) <- relative j;
  Ok (a * d <? c * b)%X.
End intersection.
Arguments intersection : clear implicits.
