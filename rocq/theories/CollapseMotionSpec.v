(** * Motions of the vertices at the end of which an edge is a point *)
From Coq Require Import Reals List Arith.
From Verif Require Import Base HalfEdge Perm IndexedSet Combinatorial CombinatorialSpec ExactReal Vector PlaneSpec FlatTri FlatSpec ShiftSpec CollapseSpec.
Import ListNotations.
Local Open Scope R_scope.

(** During the motion of the vertices of [s] by [d], no edge shrinks to a point before time 1, and [e] is the only edge to do so at time 1.
    The triangles at [e] have at most one other side in common; they are nondegenerate before time 1. *)
Definition ends_in_point {K : ExactReal} (n : nat) (s : flat K) (d : list (vec K)) (e : nat) : Prop :=
  (e < n)%nat /\ Nat.even e = true /\ collapsible (fT s) e /\ moving s d 1 e = (0, 0) /\
  (forall u h, 0 <= u <= 1 -> (h < n)%nat -> h <> e -> h <> neg e -> moving s d u h <> (0, 0)) /\
  (forall u, 0 <= u < 1 -> 0 < pdet (moving s d u e) (moving s d u (fF s e)) /\ 0 < pdet (moving s d u (neg e)) (moving s d u (fF s (neg e)))).

(** The surface [s] with the shift [d] is deformed to [s'], where the shift [d'] remains, by motions and by flips of edges other than [e]. *)
Inductive deforms_without {K : ExactReal} (n e : nat) (s : flat K) (d : list (vec K)) : flat K -> list (vec K) -> Prop :=
| without_start : deforms_without n e s d s d
| without_move s1 d1 c s2 d2 : deforms_without n e s d s1 d1 -> 0 < c <= 1 -> positive_until n s1 d1 c -> moved_to n s1 d1 c s2 d2 -> deforms_without n e s d s2 d2
| without_flip s1 d1 f s2 d2 : deforms_without n e s d s1 d1 -> f <> e -> f <> neg e -> flipped_to n s1 d1 f s2 d2 -> deforms_without n e s d s2 d2.

(** [u] is the surface [s] after the motion, with the edge [e] collapsed.  During the motion, the triangles other than those at [e] are nondegenerate. *)
Definition collapsed_to {K : ExactReal} (n : nat) (s : flat K) (d : list (vec K)) (e : nat) (u : flat K) : Prop :=
  (forall r h, 0 <= r <= 1 -> (h < n)%nat -> ~ vanishes (fT s) e h -> 0 < pdet (moving s d r h) (moving s d r (fF s h))) /\
  flat_surface (n - 6) u /\ closed_surface (n - 6) u /\ exists label, collapsed n (fT s) e (fT u) label /\
  forall h, (h < n)%nat -> ~ dropped (fT s) e h -> vv u (label h) = moving s d 1 h.

(** The total angle at the source of [h] is 2π [k]. *)
Definition angle_at {K : ExactReal} (s : flat K) (h k : nat) : Prop := exists v, In v (tverts (fT s)) /\ scontains v h = true /\ angle s v = Ok k.
(** All total angles. *)
Definition angle_list {K : ExactReal} (s : flat K) : list (outcome nat) := map (angle s) (tverts (fT s)).
