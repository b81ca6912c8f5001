(** * What it means to glue triangles *)
From Coq Require Import List Arith Bool Relations.
From Verif Require Import HalfEdge Combinatorial CombinatorialSpec.
Import ListNotations.

(** The sides of a triangle. *)
Definition sides (f : nat * nat * nat) : list nat := let '(a, b, c) := f in [a; b; c].

(** The triangles [fs] can be glued to a surface with half edges 0..n-1: no half
    edge is used twice and each edge is the side of some triangle. *)
Definition gluable (n : nat) (fs : list (nat * nat * nat)) : Prop :=
  (exists m, n = 2 * m) /\ NoDup (flat_map sides fs) /\
  (forall e, In e (flat_map sides fs) -> e < n) /\
  (forall e, e < n -> In e (flat_map sides fs) \/ In (neg e) (flat_map sides fs)).

(** The half edges [x] and [y] leave the same corner of one of the triangles:
    [y] is the next one counterclockwise. *)
Definition corner (fs : list (nat * nat * nat)) (x y : nat) : Prop :=
  exists a b c, In (a, b, c) fs /\
    (x = a /\ y = neg c \/ x = b /\ y = neg a \/ x = c /\ y = neg b).

(** The vertices of the glued surface: corners are identified only as far as the triangles force it. *)
Definition glued (fs : list (nat * nat * nat)) : nat -> nat -> Prop := clos_refl_sym_trans nat (corner fs).
