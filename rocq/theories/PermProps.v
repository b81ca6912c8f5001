(** * Properties C02-C05: permutations *)
From Coq Require Import List Arith Lia Bool Permutation.
From Verif Require Import Base Perm PermSpec PermFacts PermCycles PermLemmas.
Import ListNotations.

(** ** C02 *)

(** A vector that is accepted is a bijection, and its table is the vector. *)
Theorem C02_vector : forall l p, perm_of_vector l = Ok p ->
  is_perm (length l) p /\ forall i, i < length l -> papp p i = vget l i.
Proof. exact C02_vector_lemma. Qed.
Print Assumptions C02_vector.

(** It is accepted iff each of 0..n-1 is listed exactly once. *)
Theorem C02_vector_accepted : forall l,
  (exists p, perm_of_vector l = Ok p) <-> Permutation l (seq 0 (length l)).
Proof. exact perm_of_vector_iff. Qed.
Print Assumptions C02_vector_accepted.

Theorem C02_pairs : forall ps p, perm_of_pairs ps = Ok p ->
  is_perm (length ps) p /\ forall a b, In (a, b) ps -> papp p a = Ok b.
Proof. exact C02_pairs_lemma. Qed.
Print Assumptions C02_pairs.

Theorem C02_pairs_accepted : forall ps, (exists p, perm_of_pairs ps = Ok p) <->
  Permutation (map fst ps) (seq 0 (length ps)) /\ Permutation (map snd ps) (seq 0 (length ps)).
Proof. exact C02_pairs_iff_lemma. Qed.
Print Assumptions C02_pairs_accepted.

Theorem C02_cycles : forall cs p, perm_of_cycles cs = Ok p ->
  is_perm (length (concat cs)) p /\ forall c x, In c cs -> In x c -> papp p x = Ok (cyclic c x).
Proof. exact C02_cycles_lemma. Qed.
Print Assumptions C02_cycles.

Theorem C02_cycles_accepted : forall cs, (exists p, perm_of_cycles cs = Ok p) <->
  Permutation (concat cs) (seq 0 (length (concat cs))).
Proof. exact C02_cycles_iff_lemma. Qed.
Print Assumptions C02_cycles_accepted.

Example C02_ex : perm_of_cycles [[0; 3; 1]; [2; 4]] = Ok (mkPerm [3; 0; 4; 1; 2] [1; 3; 4; 0; 2])
  /\ perm_of_vector [3; 0; 4; 1; 2] = Ok (mkPerm [3; 0; 4; 1; 2] [1; 3; 4; 0; 2])
  /\ perm_of_pairs [(1, 0); (0, 1); (2, 2)] = Ok (mkPerm [1; 0; 2] [1; 0; 2])
  /\ perm_of_vector [0; 0; 1] = Throw /\ perm_of_cycles [[0; 1]; [1]] = UB.
Proof. repeat split. Qed.

(** ** C03 *)

Theorem C03_product : forall n p q f f' g g',
  bijection n f f' -> represents n p f f' -> bijection n g g' -> represents n q g g' ->
  exists r, pmul p q = Ok r /\ represents n r (fun x => f (g x)) (fun x => g' (f' x)).
Proof. exact C03_product_lemma. Qed.
Print Assumptions C03_product.

Theorem C03_inverse : forall n p f g, bijection n f g -> represents n p f g ->
  exists r, pinv p = Ok r /\ represents n r g f.
Proof. exact C03_inverse_lemma. Qed.
Print Assumptions C03_inverse.

Theorem C03_trivial : forall n p f g, bijection n f g -> represents n p f g ->
  exists b, ptrivial p = Ok b /\ (b = true <-> forall x, x < n -> f x = x).
Proof. exact C03_trivial_lemma. Qed.
Print Assumptions C03_trivial.

Theorem C03_equality : forall n p q f f' g g',
  bijection n f f' -> represents n p f f' -> bijection n g g' -> represents n q g g' ->
  (peqb p q = true <-> forall x, x < n -> f x = g x).
Proof. exact C03_equal_lemma. Qed.
Print Assumptions C03_equality.

Theorem C03_product_with_inverse_trivial : forall n p, is_perm n p ->
  exists q r, pinv p = Ok q /\ pmul p q = Ok r /\ ptrivial r = Ok true.
Proof. exact C03_cancel_lemma. Qed.
Print Assumptions C03_product_with_inverse_trivial.

Theorem C03_size_mismatch_rejected : forall p q n m, is_perm n p -> is_perm m q -> n <> m -> pmul p q = Throw.
Proof. exact C03_mismatch_lemma. Qed.
Print Assumptions C03_size_mismatch_rejected.

Example C03_ex : exists p q, perm_of_cycles [[0; 1; 2]] = Ok p /\ perm_of_cycles [[0; 1]; [2]] = Ok q /\
  is_perm 3 p /\ is_perm 3 q /\ pmul p q = Ok (mkPerm [2; 1; 0] [2; 1; 0]) /\
  pmul q p = Ok (mkPerm [0; 2; 1] [0; 2; 1]).
Proof.
  eexists. eexists. split. reflexivity. split. reflexivity.
  split. apply (C02_cycles [[0; 1; 2]]). reflexivity.
  split. apply (C02_cycles [[0; 1]; [2]]). reflexivity.
  split; reflexivity.
Qed.

(** ** C04 *)

(** Right multiplication: [p *= c] is p composed with the cyclic permutation. *)
Theorem C04_right : forall n p c, is_perm n p -> (forall x, In x c -> x < n) -> NoDup c ->
  exists r, rmul_cycle p c = Ok r /\ is_perm n r /\ forall x, x < n -> papp r x = papp p (cyclic c x).
Proof. exact C04_right_lemma. Qed.
Print Assumptions C04_right.

(** Left multiplication keeps a permutation with consistent tables, but it is
    composition with the inverse of the cyclic permutation: p = c o (c *= p). *)
Theorem C04_left_is_inverse_cycle : forall n p c, is_perm n p -> (forall x, In x c -> x < n) -> NoDup c ->
  exists r, lmul_cycle c p = Ok r /\ is_perm n r /\
    forall x y, x < n -> papp r x = Ok y -> papp p x = Ok (cyclic c y).
Proof. exact C04_left_lemma. Qed.
Print Assumptions C04_left_is_inverse_cycle.

(** So it is not composition with the cyclic permutation on the left. *)
Theorem C04_left_refuted : exists n p c r x y,
  is_perm n p /\ (forall z, In z c -> z < n) /\ NoDup c /\ x < n /\
  lmul_cycle c p = Ok r /\ papp p x = Ok y /\ papp r x <> Ok (cyclic c y).
Proof.
  exists 3, (mkPerm [0; 1; 2] [0; 1; 2]), [0; 1; 2], (mkPerm [2; 0; 1] [1; 2; 0]), 0, 0.
  split. { apply (C02_vector [0; 1; 2]). reflexivity. }
  split. { cbn. lia. }
  split. { repeat constructor; cbn; intuition lia. }
  split; [lia|]. split; [reflexivity|]. split; [reflexivity|]. cbv. intros H; discriminate H.
Qed.
Print Assumptions C04_left_refuted.

Theorem C04_repeated_entries_rejected : forall p c, ~ NoDup c -> (exists x y, In x c /\ In y c /\ x <> y) ->
  rmul_cycle p c = Throw /\ lmul_cycle c p = Throw.
Proof. exact C04_reject_lemma. Qed.
Print Assumptions C04_repeated_entries_rejected.

Example C04_ex : exists p, perm_of_cycles [[0; 1; 2]; [3]] = Ok p /\
  rmul_cycle p [3; 1; 0] = Ok (mkPerm [3; 1; 0; 2] [2; 1; 3; 0]) /\ rmul_cycle p [3; 1; 3] = Throw.
Proof. eexists. split; [reflexivity|]. split; reflexivity. Qed.

(** ** C05 *)

Theorem C05_cycles : forall n p, is_perm n p ->
  exists cs, pcycles p = Ok cs /\ Permutation (concat cs) (seq 0 n) /\ (forall c, In c cs -> c <> []) /\
    forall c x, In c cs -> In x c -> papp p x = Ok (cyclic c x).
Proof. exact C05_cycles_lemma. Qed.
Print Assumptions C05_cycles.

Theorem C05_round_trip : forall n p, is_perm n p -> exists cs, pcycles p = Ok cs /\ perm_of_cycles cs = Ok p.
Proof. exact C05_round_trip_lemma. Qed.
Print Assumptions C05_round_trip.

Theorem C05_cycle : forall n p x, is_perm n p -> x < n ->
  exists c, pcycle p x = Ok c /\ hd_error c = Some x /\ NoDup c /\ (forall y, In y c -> papp p y = Ok (cyclic c y)).
Proof. exact C05_cycle_lemma. Qed.
Print Assumptions C05_cycle.

(** [drop] removes cycles with maximal index and nothing else. *)
Theorem C05_drop : forall n p items q, is_perm n p -> NoDup items -> pdrop p items = Ok q ->
  is_perm (n - length items) q /\ (forall i, i < n - length items -> papp q i = papp p i) /\
  (forall i, In i items <-> n - length items <= i < n).
Proof. exact C05_drop_lemma. Qed.
Print Assumptions C05_drop.

(** Without the condition that items are distinct, [drop] accepts a list that
    leaves a table which is not a permutation. *)
Theorem C05_drop_duplicates_refuted : exists n p items q, is_perm n p /\ pdrop p items = Ok q /\
  ~ is_perm (length (fwd q)) q.
Proof.
  exists 3, (mkPerm [1; 0; 2] [1; 0; 2]), [2; 2], (mkPerm [1] [1]).
  split. { apply (C02_vector [1; 0; 2]). reflexivity. }
  split; [reflexivity|]. intros H. apply is_perm_wfp in H. destruct H as (_ & _ & B). cbn in B.
  destruct B as [B _]. destruct (B 0 ltac:(lia)) as [B1 _]. cbv in B1. lia.
Qed.
Print Assumptions C05_drop_duplicates_refuted.

Example C05_ex : exists p, perm_of_cycles [[0; 3; 1]; [2; 4]] = Ok p /\
  pcycles p = Ok [[3; 1; 0]; [4; 2]] /\ pcycle p 1 = Ok [1; 0; 3] /\ is_perm 5 p.
Proof. eexists. split; [reflexivity|]. repeat split. apply (C02_cycles [[0; 3; 1]; [2; 4]]). reflexivity. Qed.
