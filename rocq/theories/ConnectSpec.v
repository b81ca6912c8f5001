(** * What straight paths are *)
From Coq Require Import ZArith Reals List Arith.
From Verif Require Import Base HalfEdge Combinatorial CombinatorialSpec ExactReal Vector PlaneSpec FlatTri FlatSpec ChainSpec Saddle SaddleSpec Search SearchSpec.
Import ListNotations.
Local Open Scope R_scope.

Section straight.
Context {K : ExactReal} (s : flat K) (d : pt).
(** The total angle at the vertex from which [g] leaves is [2 pi]. *)
Definition marked (g : nat) : Prop := exists x, vertex_source (fT s) g = Ok x /\ angle s x = Ok 1%nat.
(** Saddle connections in direction [d], the first of them in the sector at [h], such that each continues the previous one through a marked point; each is given by
    the sector where it starts, its vector, and the sector in which it is seen from its end. *)
Inductive runs_along : nat -> list (nat * pt * nat) -> Prop :=
| runs_last h v g : connection s h v g -> same_direction d v -> runs_along h [(h, v, g)]
| runs_more h v g h' l : connection s h v g -> same_direction d v -> marked g -> same_vertex (fT s) g h' -> sector_contains s h' d -> runs_along h' l ->
    runs_along h ((h, v, g) :: l).
(** The sum of the vectors. *)
Definition reach (l : list (nat * pt * nat)) : pt := psum (map (fun x => snd (fst x)) l).
End straight.
