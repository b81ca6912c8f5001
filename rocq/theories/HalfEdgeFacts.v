From Coq Require Import ZArith Arith Lia Bool.
From Verif Require Import HalfEdge.

Lemma lxor1_double n : Nat.lxor (2 * n) 1 = S (2 * n).
Proof.
  apply Nat.bits_inj; intros [|k].
  - rewrite Nat.lxor_spec. rewrite Nat.testbit_even_0.
    replace (S (2*n)) with (2*n+1) by lia. rewrite Nat.testbit_odd_0. reflexivity.
  - rewrite Nat.lxor_spec. rewrite Nat.testbit_even_succ by lia.
    replace (S (2*n)) with (2*n+1) by lia. rewrite Nat.testbit_odd_succ by lia.
    change 1 with (2*0+1). rewrite Nat.testbit_odd_succ by lia. rewrite Nat.bits_0.
    now rewrite xorb_false_r.
Qed.

Lemma lxor1_Sdouble n : Nat.lxor (S (2 * n)) 1 = 2 * n.
Proof.
  rewrite <- lxor1_double. rewrite Nat.lxor_assoc, Nat.lxor_nilpotent. apply Nat.lxor_0_r.
Qed.

Lemma neg_even n : neg (2 * n) = S (2 * n).
Proof. apply lxor1_double. Qed.

Lemma neg_odd n : neg (S (2 * n)) = 2 * n.
Proof. apply lxor1_Sdouble. Qed.

Lemma he_cases (h : nat) : exists n, h = 2 * n \/ h = S (2 * n).
Proof. exists (h / 2). pose proof (Nat.div_mod h 2). pose proof (Nat.mod_upper_bound h 2). lia. Qed.

Ltac he_case h := let n := fresh "n" in destruct (he_cases h) as [n [-> | ->]].

Lemma neg_neg h : neg (neg h) = h.
Proof. he_case h; rewrite ?neg_even, ?neg_odd; rewrite ?neg_even, ?neg_odd; auto. Qed.

Lemma neg_ne h : neg h <> h.
Proof. he_case h; rewrite ?neg_even, ?neg_odd; lia. Qed.

Lemma neg_inj a b : neg a = neg b -> a = b.
Proof. intros H. rewrite <- (neg_neg a), <- (neg_neg b). now f_equal. Qed.

Lemma neg_lt h n : h < 2 * n -> neg h < 2 * n.
Proof. he_case h; rewrite ?neg_even, ?neg_odd; lia. Qed.

Lemma neg_div2 h : neg h / 2 = h / 2.
Proof.
  he_case h; rewrite ?neg_even, ?neg_odd.
  - replace (S (2*n)) with (1 + n * 2) by lia. rewrite Nat.div_add by lia.
    rewrite Nat.mul_comm, Nat.div_mul by lia. reflexivity.
  - replace (S (2*n)) with (1 + n * 2) by lia. rewrite Nat.div_add by lia.
    rewrite Nat.mul_comm, Nat.div_mul by lia. reflexivity.
Qed.

Lemma div2_even n : (2 * n) / 2 = n.
Proof. now rewrite Nat.mul_comm, Nat.div_mul. Qed.

Lemma div2_odd n : S (2 * n) / 2 = n.
Proof. replace (S (2*n)) with (1 + n * 2) by lia. rewrite Nat.div_add by lia. reflexivity. Qed.

Lemma mod2_even n : (2 * n) mod 2 = 0.
Proof. now rewrite Nat.mul_comm, Nat.mod_mul. Qed.

Lemma mod2_odd n : S (2 * n) mod 2 = 1.
Proof. replace (S (2*n)) with (1 + n * 2) by lia. rewrite Nat.mod_add by lia. reflexivity. Qed.

Lemma he_id_even n : he_id (2 * n) = (Z.of_nat n + 1)%Z.
Proof. unfold he_id. rewrite mod2_even, div2_even. change (0 =? 0) with true. cbv iota. lia. Qed.

Lemma he_id_odd n : he_id (S (2 * n)) = (- (Z.of_nat n + 1))%Z.
Proof. unfold he_id. rewrite mod2_odd, div2_odd. change (1 =? 0) with false. cbv iota. lia. Qed.

Lemma he_of_id_pos id : (0 < id)%Z -> he_of_id id = 2 * Z.to_nat (id - 1).
Proof. intros H. unfold he_of_id. destruct (Z.ltb_spec 0 id); lia. Qed.

Lemma he_of_id_neg id : (id < 0)%Z -> he_of_id id = S (2 * Z.to_nat (- id - 1)).
Proof. intros H. unfold he_of_id. destruct (Z.ltb_spec 0 id); lia. Qed.

Lemma id_round_trip id : id <> 0%Z -> he_id (he_of_id id) = id.
Proof.
  intros H. destruct (Z.lt_total 0 id) as [P | [P | P]]; try lia.
  - rewrite he_of_id_pos, he_id_even by lia. lia.
  - rewrite he_of_id_neg, he_id_odd by lia. lia.
Qed.

Lemma index_round_trip h : he_of_id (he_id h) = h.
Proof.
  he_case h.
  - rewrite he_id_even, he_of_id_pos by lia. lia.
  - rewrite he_id_odd, he_of_id_neg by lia. lia.
Qed.

Lemma he_id_nonzero h : he_id h <> 0%Z.
Proof. he_case h; rewrite ?he_id_even, ?he_id_odd; lia. Qed.

Lemma he_id_neg h : he_id (neg h) = (- he_id h)%Z.
Proof. he_case h; rewrite ?neg_even, ?neg_odd, ?he_id_even, ?he_id_odd; lia. Qed.

Lemma edge_of_even h : edge_of h = 2 * (h / 2).
Proof.
  unfold edge_of, he_index. he_case h.
  - rewrite neg_even, div2_even. destruct (Nat.ltb_spec (2*n) (S (2*n))); lia.
  - rewrite neg_odd, div2_odd. destruct (Nat.ltb_spec (S (2*n)) (2*n)); lia.
Qed.

Lemma edge_of_eq g h : edge_of g = edge_of h <-> (g = h \/ g = neg h).
Proof.
  rewrite !edge_of_even. split.
  - intros H. he_case g; he_case h; rewrite ?div2_even, ?div2_odd in H; rewrite ?neg_even, ?neg_odd; lia.
  - intros [-> | ->]; auto. now rewrite neg_div2.
Qed.

Lemma edge_index_from_index i : edge_index (edge_from_index i) = i.
Proof.
  unfold edge_from_index, edge_index. rewrite edge_of_even, he_of_id_pos by lia.
  rewrite !div2_even. lia.
Qed.

Lemma edge_from_index_index h : edge_from_index (edge_index (edge_of h)) = edge_of h.
Proof.
  unfold edge_from_index, edge_index. rewrite !edge_of_even, he_of_id_pos by lia.
  rewrite !div2_even. replace (Z.of_nat (h/2) + 1 - 1)%Z with (Z.of_nat (h/2)) by lia.
  rewrite Nat2Z.id. reflexivity.
Qed.
