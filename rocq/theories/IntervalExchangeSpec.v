(** * What an interval exchange transformation of a surface is *)
From Coq Require Import Reals List Arith.
From Verif Require Import Base HalfEdge Combinatorial CombinatorialSpec PlaneSpec ExactReal Vector FlatTri FlatSpec Vertical VerticalSpec.
Import ListNotations.
Local Open Scope R_scope.

Section spec.
Context {K : ExactReal}.
Implicit Types s : flat K.

(** ** The flow *)
(** A point of a half edge is given by the fraction of the half edge that is before it.  Moving from a point of [h] in direction [v], through the
    triangle to the left of [h], to a point of another side of this triangle; the other side is then crossed. *)
Inductive flow_step s (v : pt) : nat * R -> nat * R -> Prop :=
| flow_next h t u c : 0 < t < 1 -> 0 < u < 1 -> 0 < c ->
    padd (vv s h) (pscale u (vv s (fF s h))) = padd (pscale t (vv s h)) (pscale c v) -> flow_step s v (h, t) (neg (fF s h), 1 - u)
| flow_previous h t u c : 0 < t < 1 -> 0 < u < 1 -> 0 < c ->
    padd (padd (vv s h) (vv s (fF s h))) (pscale u (vv s (fF s (fF s h)))) = padd (pscale t (vv s h)) (pscale c v) -> flow_step s v (h, t) (neg (fF s (fF s h)), 1 - u).
(** The flow from a point crosses [h] for the first time at the fraction [u] of [h]. *)
Inductive first_hit s (v : pt) (h : nat) : nat * R -> R -> Prop :=
| hit_now p u : flow_step s v p (h, u) -> first_hit s v h p u
| hit_later p q u : flow_step s v p q -> fst q <> h -> first_hit s v h q u -> first_hit s v h p u.

(** ** Contours *)
(** One of the other sides is wider, in both triangles at the half edge. *)
Definition narrow s (v : pt) (h : nat) : Prop :=
  let r := rightwards s v in
  (exists x, In x [fF s h; fF s (fF s h)] /\ Rabs (r h) < Rabs (r x)) /\ (exists x, In x [fF s (neg h); fF s (fF s (neg h))] /\ Rabs (r h) < Rabs (r x)).
(** The half edge is the only wide half edge in its component and no half edge of the component is vertical. *)
Definition unique_large (n : nat) s (v : pt) (h : nat) : Prop :=
  wide s v h /\ (forall x, joined n s v h x -> rightwards s v x <> 0) /\ (forall x, joined n s v h x -> wide s v x -> x = h \/ x = neg h).
(** The total width of the half edges that are in [l] before [e]. *)
Fixpoint before (r : nat -> R) (l : list nat) (e : nat) : R :=
  match l with
  | [] => 0
  | x :: l => if x =? e then 0 else r x + before r l e
  end.
(** The half edges of [l] follow each other from the vertex at the start of [a] to the vertex at the start of [b]. *)
Fixpoint vertex_path s (a : nat) (l : list nat) (b : nat) : Prop :=
  match l with [] => same_vertex (fT s) a b | x :: l => same_vertex (fT s) a x /\ vertex_path s (neg x) l b end.
End spec.
