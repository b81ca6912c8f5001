(** * What a point of a surface is *)
From Coq Require Import Reals List Arith Relations.
From Verif Require Import Base HalfEdge Combinatorial CombinatorialSpec ExactReal Vector PlaneSpec FlatTri FlatSpec Point.
Import ListNotations.
Local Open Scope R_scope.

(** Weights of the corners of a triangle. *)
Definition weights (w : R * R * R) : Prop :=
  let '(a, b, c) := w in 0 <= a /\ 0 <= b /\ 0 <= c /\ 0 < a + b + c.

(** A point of the triangle at the half edge [h] from A to B: the centre of mass of the corners A, B, C with
    the given weights. *)
Definition rep : Type := (nat * (R * R * R))%type.

(** The surface consists of triangles that are glued along their sides. *)
Inductive identified {K : ExactReal} (n : nat) (s : flat K) : rep -> rep -> Prop :=
| id_scale h a b c r : (h < n)%nat -> weights (a, b, c) -> 0 < r -> identified n s (h, (a, b, c)) (h, (r * a, r * b, r * c))
| id_rotate h a b c : (h < n)%nat -> weights (a, b, c) -> identified n s (h, (a, b, c)) (fF s h, (b, c, a))
| id_glue h a b : (h < n)%nat -> weights (a, b, 0) -> identified n s (h, (a, b, 0)) (neg h, (b, a, 0)).
(** The points of the surface are the classes of this relation. *)
Definition same_point {K : ExactReal} (n : nat) (s : flat K) : rep -> rep -> Prop :=
  clos_refl_sym_trans rep (identified n s).

(** What a [Point] describes. *)
Definition location {K : ExactReal} (p : point K) : rep := (pface p, (den (pa p), den (pb p), den (pc p))).

(** The coordinates of an existing [Point]: (a, 0, 0) for a vertex, (a, b, 0) on an edge, positive in a face. *)
Definition normal {K : ExactReal} (n : nat) (p : point K) : Prop :=
  (pface p < n)%nat /\ 0 < den (pa p) /\ 0 <= den (pb p) /\ 0 <= den (pc p) /\ (0 < den (pc p) -> 0 < den (pb p)).

Definition tden {K : ExactReal} (w : K * K * K) : R * R * R := let '(a, b, c) := w in (den a, den b, den c).

(** The centre of mass, in the plane where [h] starts at the origin. *)
Definition place {K : ExactReal} (s : flat K) (h : nat) (w : R * R * R) : pt :=
  let '(a, b, c) := w in
  pscale (1 / (a + b + c)) (padd (pscale b (vv s h)) (pscale c (padd (vv s h) (vv s (fF s h))))).

(** [truediv] finds the quotient if there is one. *)
Definition exact_division {K : ExactReal} (truediv : K -> K -> option K) : Prop :=
  forall x y, den y <> 0 ->
    match truediv x y with
    | Some z => den z * den y = den x
    | None => forall z : K, den z * den y <> den x
    end.

(** [quot x y] only depends on the quotient of [x] and [y]. *)
Definition depends_on_ratio {K : ExactReal} {A} (quot : K -> K -> A) : Prop :=
  forall x y x' y', 0 <= den x <= den y -> 0 < den y -> 0 <= den x' <= den y' -> 0 < den y' ->
    den x * den y' = den x' * den y -> quot x y = quot x' y'.

(** ** Flips *)
(** The six half edges of the two triangles at [e]. *)
Definition around_edge {K : ExactReal} (s : flat K) (e : nat) : list nat :=
  [e; fF s e; fF s (fF s e); neg e; fF s (neg e); fF s (fF s (neg e))].
(** Where these half edges start, in the plane where [e] starts at the origin, ... *)
Inductive corner_before {K : ExactReal} (s : flat K) (e : nat) : nat -> pt -> Prop :=
| cb_e : corner_before s e e (0, 0)
| cb_a : corner_before s e (fF s e) (vv s e)
| cb_b : corner_before s e (fF s (fF s e)) (padd (vv s e) (vv s (fF s e)))
| cb_ne : corner_before s e (neg e) (vv s e)
| cb_c : corner_before s e (fF s (neg e)) (0, 0)
| cb_d : corner_before s e (fF s (fF s (neg e))) (vv s (fF s (neg e))).
(** ... and where they start after the flip of [e], in the same plane. *)
Inductive corner_after {K : ExactReal} (s : flat K) (e : nat) : nat -> pt -> Prop :=
| ca_a : corner_after s e (fF s e) (vv s e)
| ca_ne : corner_after s e (neg e) (padd (vv s e) (vv s (fF s e)))
| ca_d : corner_after s e (fF s (fF s (neg e))) (vv s (fF s (neg e)))
| ca_c : corner_after s e (fF s (neg e)) (0, 0)
| ca_e : corner_after s e e (vv s (fF s (neg e)))
| ca_b : corner_after s e (fF s (fF s e)) (padd (vv s e) (vv s (fF s e))).
(** A point of [s] and a point of the surface [s'] after the flip of [e] that are the same point of the plane. *)
Inductive flip_image {K : ExactReal} (n : nat) (s s' : flat K) (e : nat) : rep -> rep -> Prop :=
| fi_outside k w : (k < n)%nat -> ~ In k (around_edge s e) -> weights w -> flip_image n s s' e (k, w) (k, w)
| fi_inside k x w k' x' w' : corner_before s e k x -> corner_after s e k' x' -> weights w -> weights w' ->
    padd x (place s k w) = padd x' (place s' k' w') -> flip_image n s s' e (k, w) (k', w').
