(** * Specification of unique large edges *)
From Coq Require Import Reals List Arith.
From Verif Require Import Base HalfEdge Combinatorial PlaneSpec ExactReal Vector FlatTri FlatSpec Vertical VerticalSpec IntervalExchangeSpec.
Import ListNotations.
Local Open Scope R_scope.

Section spec.
Context {K : ExactReal}.
Implicit Types s : flat K.

(** The half edge, or the other half edge of the same edge, goes to the right when [v] points up. *)
Definition to_the_right s (v : pt) (u u' : nat) : Prop := (u' = u \/ u' = neg u) /\ 0 < rightwards s v u'.
(** The edge is wide and no other edge in its component is wide. *)
Definition only_wide (n : nat) s (v : pt) (u : nat) : Prop :=
  wide s v u /\ forall x, joined n s v u x -> wide s v x -> x = u \/ x = neg u.

(** The line in direction [v] from the vertex at the start of [x] through the triangle to the left of [x] crosses the opposite side. *)
Inductive separatrix s (v : pt) (x : nat) : nat * R -> Prop :=
| separatrix_crosses u c : 0 < u < 1 -> 0 < c -> padd (vv s x) (pscale u (vv s (fF s x))) = pscale c v -> separatrix s v x (neg (fF s x), 1 - u).
(** Each line in direction [v] from a vertex crosses [h] at some time, and no half edge is vertical, in the component of [h]. *)
Definition flows_into (n : nat) s (v : pt) (h : nat) : Prop :=
  (forall x, joined n s v h x -> rightwards s v x <> 0) /\
  forall x p, joined n s v h x -> separatrix s v x p -> fst p = h \/ exists u, first_hit s v h p u.
End spec.

(** The first intervals at the top and at the bottom are different and so are the last intervals, or there is only one interval. *)
Definition ends_differ (top bottom : list nat) : Prop :=
  length top = 1%nat \/ (hd_error top <> hd_error bottom /\ hd_error (rev top) <> hd_error (rev bottom)).
