(** * What eliminating marked points means *)
From Coq Require Import Reals List Arith Permutation.
From Verif Require Import Base HalfEdge Perm IndexedSet Combinatorial CombinatorialSpec ExactReal Vector PlaneSpec FlatTri FlatSpec ShiftSpec CollapseSpec CollapseMotionSpec.
Import ListNotations.
Local Open Scope R_scope.

Section eliminate.
Context {K : ExactReal}.

(** The source of [e] is a marked point that can be moved along [e] into another vertex. *)
Definition removable (n : nat) (s : flat K) (e : nat) : Prop := (e < n)%nat /\ angle_at s e 1 /\ ~ same_vertex (fT s) e (neg e).
(** The squared length of [h]. *)
Definition size2 (s : flat K) (h : nat) : R := pdot (vv s h) (vv s h).
(** No other edge along which the source of [e] can be moved is shorter. *)
Definition shortest (n : nat) (s : flat K) (e : nat) : Prop := removable n s e /\ forall g, same_vertex (fT s) e g -> removable n s g -> size2 s e <= size2 s g.
(** An end of [h] is the source of [e]. *)
Definition touching (s : flat K) (e h : nat) : Prop := same_vertex (fT s) e h \/ same_vertex (fT s) e (neg h).
(** There is a marked point that could be removed but all edges end there: the program has no half edge to orient itself by. *)
Definition stuck (n : nat) (s : flat K) : Prop := exists e, removable n s e /\ forall h, (h < n)%nat -> touching s e h.

(** 1 at the half edges that start at [v]. *)
Definition starts (v : bits) (h : nat) : R := if scontains v h then 1 else 0.
(** The shift moves the source of [e], a marked point, along [e] into the target of [e], and no other vertex. *)
Definition moves_into (n : nat) (s : flat K) (d : list (vec K)) (e : nat) : Prop :=
  (e < n)%nat /\ exists v, In v (tverts (fT s)) /\ scontains v e = true /\ scontains v (neg e) = false /\ angle s v = Ok 1%nat /\
  forall h, (h < n)%nat -> dd d h = pscale (starts v (neg h) - starts v h) (vv s e).

(** The positive half edge of an edge. *)
Definition edge_at (e : nat) : nat := if Nat.even e then e else neg e.
(** [u] is [s] without the source of [e]: it is moved into the target of [e] while the triangulation changes by flips of other edges,
    and then [e] is collapsed. *)
Definition removed (n : nat) (s : flat K) (e : nat) (u : flat K) : Prop :=
  removable n s e /\ exists d s' d', shift_of n s d /\ moves_into n s d e /\ deforms_without n (edge_at e) s d s' d' /\ moves_into n s' d' e /\ collapsed_to n s' d' (edge_at e) u.

(** [k] marked points have been removed from [s], which has [n] half edges. *)
Inductive eliminated (n : nat) (s : flat K) : nat -> flat K -> Prop :=
| eliminated_none : eliminated n s 0 s
| eliminated_one k u e u' : eliminated n s k u -> removed (n - 6 * k) u e u' -> eliminated n s (S k) u'.
End eliminate.
