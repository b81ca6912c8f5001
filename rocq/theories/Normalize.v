(** * Normalization matrices

    Model of the matrices in /repo/libflatsurf/src/linear_equivalence.cc (LE). *)
From Coq Require Import ZArith List Arith Bool.
From Verif Require Import Base HalfEdge Combinatorial ExactReal Vector FlatTri.
Import ListNotations.

Section normalize.
Context {K : ExactReal}.
Notation matrix := (K * K * K * K)%type.
(** The exact division of the coordinates, see [exact_division] in PointSpec.v. *)
Variable truediv : K -> K -> option K.

(** LE:40-55, [div]. *)
Definition ndiv (x y : K) : outcome K := match truediv x y with Some z => Ok z | None => Throw end.

(** LE:161-171, [orthonormalize]. *)
Definition orthonormalize (s : flat K) (e f : halfedge) : outcome matrix :=
  do v <- from_he s e;
  do w <- from_he s f;
  let det := (vx v * vy w - vy v * vx w)%X in
  do a <- ndiv (vy w) det;
  do b <- ndiv (vx w) det;
  do c <- ndiv (vy v) det;
  do d <- ndiv (vx v) det;
  Ok (a, (- b)%X, (- c)%X, d).

(** LE:146-159, [orthogonalize]. *)
Definition orthogonalize (s : flat K) (e f : halfedge) : outcome matrix :=
  do (a, b, c, d) <- orthonormalize s e f;
  let det := (a * d - b * c)%X in
  let det := if (det <? 0)%X then (- det)%X else det in
  do c <- ndiv c det;
  do d <- ndiv d det;
  Ok (a, b, c, d).

(** LE:128-144, [normalize], without custom functions. *)
Inductive group := TRIVIAL | SL | GL.
Definition normalization (g : group) (s : flat K) (e f : halfedge) : outcome matrix :=
  match g with
  | TRIVIAL => Ok (rofZ 1, rofZ 0, rofZ 0, rofZ 1)
  | GL => orthonormalize s e f
  | SL => orthogonalize s e f
  end.

(** LE:110-122, the matrices of the walkers in [code]. *)
Definition walker_matrices (g : group) (oriented : bool) (s : flat K) : outcome (list (halfedge * matrix)) :=
  do l <- omap (fun start =>
    do next <- nextAtVertex (fT s) start;
    do m <- normalization g s start next;
    if oriented then Ok [(start, m)]
    else
      do previous <- previousAtVertex (fT s) start;
      do m' <- normalization g s start previous;
      Ok [(start, m); (start, m')]) (seq 0 (tsize (fT s)));
  Ok (concat l).
End normalize.
