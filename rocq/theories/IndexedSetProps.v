(** * Property C06: sets of edges and half edges *)
From Coq Require Import List Arith Bool Sorted.
From Verif Require Import Base IndexedSet IndexedSetSpec IndexedSetFacts.
Import ListNotations.

(** After every history [os] of operations on a family of sets, every further
    operation gives the answer that the mathematical sets give. *)
Theorem C06_history : forall os o, correct o (mrun os minit) (snd (sstep o (srun os sinit))).
Proof. exact C06_history_lemma. Qed.
Print Assumptions C06_history.

Example C06_ex :
  let st := srun [OpNew 0 [5; 1]; OpCopy 1 0; OpErase 1 5; OpErase 1 9; OpInsert 0 2; OpDisjoint 0 2] sinit in
  snd (sstep (OpElements 0) st) = AList (Ok [1; 2; 5]) /\ snd (sstep (OpSize 1) st) = ANat 1 /\
  snd (sstep (OpEq 0 1) st) = ABool false.
Proof. repeat split. Qed.

(** EdgeSet::operator== does not compare the members: two EdgeSet objects with
    the same members (held at different addresses) are reported unequal. *)
Theorem C06_edge_set_equality_refuted : exists a b : edge_set,
  ref a <> ref b /\ (forall x, scontains (impl a) x = scontains (impl b) x) /\ edge_set_eq a b = false.
Proof.
  exists (mkEdgeSet 0 [true]), (mkEdgeSet 1 [true]). split; [discriminate|]. split; reflexivity.
Qed.
Print Assumptions C06_edge_set_equality_refuted.

(** [disjoint] and [==] are const but move the end of the set: a range based for
    loop over a one element set whose body calls [disjoint] does not terminate. *)
Theorem C06_iteration_with_query_refuted : exists s r, selements s = Ok [0] /\
  forall fuel, siterate_disjoint fuel s r (sbegin s) (send s) = OutOfFuel.
Proof. exact C06_iteration_lemma. Qed.
Print Assumptions C06_iteration_with_query_refuted.
