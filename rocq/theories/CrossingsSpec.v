(** * Which half edges a segment crosses *)
From Coq Require Import ZArith Reals List Arith.
From Verif Require Import Base HalfEdge Combinatorial CombinatorialSpec ExactReal Vector PlaneSpec FlatTri FlatSpec SearchSpec Intersection.
Import ListNotations.
Local Open Scope R_scope.

Section crossings.
Context {K : ExactReal}.
Variable s : flat K.

(** The start of the segment is at the origin, and the surface is unfolded into the plane.  The segment to [v] enters the triangle on the
    other side of [h], which starts at [p].  From there to its end it crosses the half edges [l], given with where they start. *)
Inductive through : pt -> nat -> pt -> list (pt * nat) -> Prop :=
| through_last p h : through p h (padd p (vv s (fF s (neg h)))) []
| through_right p h v l : crosses s p (fF s (neg h)) v -> through p (fF s (neg h)) v l -> through p h v ((p, fF s (neg h)) :: l)
| through_left p h v l : let q := padd p (vv s (fF s (neg h))) in let b := fF s (fF s (neg h)) in
    crosses s q b v -> through q b v l -> through p h v ((q, b) :: l).
(** The half edges that the saddle connection [v] in the sector at [h] crosses. *)
Definition crossed (h : nat) (v : pt) (l : list (pt * nat)) : Prop :=
  (v = vv s h /\ l = []) \/
  exists l', l = (vv s h, fF s h) :: l' /\ crosses s (vv s h) (fF s h) v /\ through (vv s h) (fF s h) v l'.
(** The intersection of the segment to [v] with the half edge [snd x] which starts at [fst x]: it is given relative to the start of that half edge. *)
Definition shows (v : pt) (i : intersection K) (x : pt * nat) : Prop :=
  isurface i = s /\ ihalf_edge i = snd x /\ vden (ibase i) = pneg (fst x) /\ vden (idirection i) = v.
(** The line meets the half edge at [fst m] of its length; this is at [snd m] of the length of the segment. *)
Definition meets_at (i : intersection K) (m : R * R) : Prop :=
  0 < fst m < 1 /\ 0 < snd m < 1 /\ 0 < pdet (vden (idirection i)) (vv s (ihalf_edge i)) /\
  padd (vden (ibase i)) (pscale (snd m) (vden (idirection i))) = pscale (fst m) (vv s (ihalf_edge i)).
Fixpoint increasing (l : list R) : Prop := match l with x :: ((y :: _) as r) => x < y /\ increasing r | _ => True end.
End crossings.
