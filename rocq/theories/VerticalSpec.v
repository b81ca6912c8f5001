(** * Specification of vertical directions *)
From Coq Require Import Reals List Arith Lra.
From Verif Require Import Base HalfEdge ExactReal Vector PlaneSpec FlatTri FlatSpec Vertical.
Import ListNotations.
Local Open Scope R_scope.

(** How far a half edge goes to the right when [v] points up. *)
Definition rightwards {K : ExactReal} (s : flat K) (v : pt) (h : nat) : R := pdet (vv s h) v.
(** The half edge is at least as wide as the other sides of the triangles at its edge. *)
Definition wide {K : ExactReal} (s : flat K) (v : pt) (h : nat) : Prop :=
  forall x, In x [fF s h; fF s (fF s h); fF s (neg h); fF s (fF s (neg h))] -> Rabs (rightwards s v x) <= Rabs (rightwards s v h).

(** ** Faces *)
Definition in_face {K : ExactReal} (s : flat K) (h x : nat) : Prop := x = h \/ x = fF s h \/ x = fF s (fF s h).
(** The shape of the triangle to the left of [h] when [v] points up. *)
Definition face_kind {K : ExactReal} (s : flat K) (v : pt) (h : nat) (c : TRIANGLE) : Prop :=
  let r := rightwards s v in
  match c with
  | BACKWARD => exists x, in_face s h x /\ 0 < r x /\ r (fF s x) < 0 /\ r (fF s (fF s x)) < 0
  | FORWARD => exists x, in_face s h x /\ r x < 0 /\ 0 < r (fF s x) /\ 0 < r (fF s (fF s x))
  | RIGHT_VERTICAL => exists x c, in_face s h x /\ 0 < c /\ vv s x = pscale c v
  | LEFT_VERTICAL => exists x c, in_face s h x /\ c < 0 /\ vv s x = pscale c v
  | COLLAPSED_TO_TWO_FACES => False
  end.

(** ** Components *)
(** Half edges that can be joined without crossing a half edge that is parallel to [v]. *)
Inductive joined {K : ExactReal} (n : nat) (s : flat K) (v : pt) : nat -> nat -> Prop :=
| jo_same h : (h < n)%nat -> joined n s v h h
| jo_face h : (h < n)%nat -> joined n s v h (fF s h)
| jo_across h : (h < n)%nat -> rightwards s v h <> 0 -> joined n s v h (neg h)
| jo_sym h x : joined n s v h x -> joined n s v x h
| jo_trans h x y : joined n s v h x -> joined n s v x y -> joined n s v h y.

(** ** Histories *)
(** All verticals that are made from [s] and [v] by queries and flips of the surface, and the half edges that were flipped. *)
Inductive history {K : ExactReal} (n : nat) (s : flat K) (v : vec K) : list nat -> vertical K -> Prop :=
| hi_made m : make_vertical s v = Ok m -> history n s v [] m
| hi_project l m h x m' : history n s v l m -> (h < n)%nat -> project m h = Ok (x, m') -> history n s v l m'
| hi_perpendicular l m h x m' : history n s v l m -> (h < n)%nat -> project_perpendicular m h = Ok (x, m') -> history n s v l m'
| hi_ccw l m h x m' : history n s v l m -> (h < n)%nat -> vertical_ccw m h = Ok (x, m') -> history n s v l m'
| hi_orientation l m h x m' : history n s v l m -> (h < n)%nat -> vertical_orientation m h = Ok (x, m') -> history n s v l m'
| hi_large l m h x m' : history n s v l m -> (h < n)%nat -> large m h = Ok (x, m') -> history n s v l m'
| hi_classify l m fuel h x m' : history n s v l m -> (h < n)%nat -> classify_face fuel m h = Ok (x, m') -> history n s v l m'
| hi_components l m fuel x m' : history n s v l m -> components fuel m = Ok (x, m') -> history n s v l m'
| hi_flip l m e m' : history n s v l m -> (e < n)%nat -> vertical_flip m e = Ok m' -> history n s v (l ++ [e]) m'.
