(** * The proofs behind PermProps *)
From Coq Require Import List Arith Lia Bool Permutation.
From Verif Require Import Base Perm PermSpec PermFacts PermCycles.
Import ListNotations.

(** ** Glue *)

Lemma represents_wfp n p f g : bijection n f g -> represents n p f g ->
  wfp n p /\ (forall i, i < n -> fw p i = f i) /\ (forall i, i < n -> bw p i = g i).
Proof.
  intros B R. assert (W : wfp n p) by (apply is_perm_wfp; exists f, g; auto).
  destruct R as (L1 & L2 & F & G). split; [exact W|]. split.
  - intros i Hi. specialize (F i Hi). rewrite (papp_Ok n) in F by auto. congruence.
  - intros i Hi. specialize (G i Hi). rewrite (ppre_Ok n) in G by auto. congruence.
Qed.

Lemma C02_vector_lemma l p : perm_of_vector l = Ok p ->
  is_perm (length l) p /\ forall i, i < length l -> papp p i = vget l i.
Proof.
  intros H. apply perm_of_vector_Ok in H as [W E]. split. now apply wfp_is_perm.
  intros i Hi. unfold papp. now rewrite E.
Qed.

Lemma C02_pairs_lemma ps p : perm_of_pairs ps = Ok p ->
  is_perm (length ps) p /\ forall a b, In (a, b) ps -> papp p a = Ok b.
Proof.
  intros H. apply perm_of_pairs_Ok in H as (W & P & _ & V). split. now apply wfp_is_perm.
  intros a b I. rewrite (papp_Ok (length ps)).
  - f_equal. auto.
  - apply W.
  - apply (in_map fst) in I. apply (Permutation_in _ P) in I. apply in_seq in I. cbn in *; lia.
Qed.

Lemma C02_pairs_iff_lemma ps : (exists p, perm_of_pairs ps = Ok p) <->
  Permutation (map fst ps) (seq 0 (length ps)) /\ Permutation (map snd ps) (seq 0 (length ps)).
Proof.
  split.
  - intros (p & H). apply perm_of_pairs_Ok in H as (_ & A & B & _). auto.
  - intros [A B]. now apply perm_of_pairs_complete.
Qed.

Lemma C02_cycles_lemma cs p : perm_of_cycles cs = Ok p ->
  is_perm (length (concat cs)) p /\ forall c x, In c cs -> In x c -> papp p x = Ok (cyclic c x).
Proof.
  intros H. apply perm_of_cycles_Ok in H as (P & W & V). split. now apply wfp_is_perm.
  intros c x Hc Hx. rewrite (papp_Ok (length (concat cs))).
  - f_equal. auto.
  - apply W.
  - assert (I : In x (concat cs)) by (apply in_concat; eauto).
    apply (Permutation_in _ P) in I. apply in_seq in I. lia.
Qed.

Lemma C02_cycles_iff_lemma cs : (exists p, perm_of_cycles cs = Ok p) <->
  Permutation (concat cs) (seq 0 (length (concat cs))).
Proof.
  split.
  - intros (p & H). now apply perm_of_cycles_Ok in H.
  - apply perm_of_cycles_complete.
Qed.

Lemma C03_product_lemma n p q f f' g g' :
  bijection n f f' -> represents n p f f' -> bijection n g g' -> represents n q g g' ->
  exists r, pmul p q = Ok r /\ represents n r (fun x => f (g x)) (fun x => g' (f' x)).
Proof.
  intros B1 R1 B2 R2. destruct (represents_wfp _ _ _ _ B1 R1) as (W1 & F1 & G1).
  destruct (represents_wfp _ _ _ _ B2 R2) as (W2 & F2 & G2).
  destruct (pmul_Ok n p q W1 W2) as (r & E & W & F & G). exists r. split; auto.
  destruct (wfp_represents _ _ W) as (A1 & A2 & A3 & A4). repeat split; auto.
  - intros i Hi. rewrite A3, F by auto. rewrite F1 by now apply (fw_lt _ _ W2). now rewrite F2.
  - intros i Hi. rewrite A4, G by auto. rewrite G2 by now apply (bw_lt _ _ W1). now rewrite G1.
Qed.

Lemma C03_inverse_lemma n p f g : bijection n f g -> represents n p f g ->
  exists r, pinv p = Ok r /\ represents n r g f.
Proof.
  intros B R. destruct (represents_wfp _ _ _ _ B R) as (W & F & G).
  exists (flipp p). split. now apply pinv_Ok with n.
  destruct R as (A1 & A2 & A3 & A4). repeat split; auto.
Qed.

Lemma ptrivial_from_Ok n p : wfp n p -> forall vs, (forall v, In v vs -> v < n) ->
  ptrivial_from p vs = Ok (forallb (fun v => fw p v =? v) vs).
Proof.
  intros W. induction vs as [|v r IH]; cbn; intros H; auto.
  rewrite (papp_Ok n) by (auto; apply W). cbn. destruct (fw p v =? v); cbn; auto.
Qed.

Lemma C03_trivial_lemma n p f g : bijection n f g -> represents n p f g ->
  exists b, ptrivial p = Ok b /\ (b = true <-> forall x, x < n -> f x = x).
Proof.
  intros B R. destruct (represents_wfp _ _ _ _ B R) as (W & F & G).
  unfold ptrivial, pdomain. rewrite (ptrivial_from_Ok n p W).
  2:{ intros v Hv. now apply (fwd_In _ _ W). }
  eexists. split; eauto. rewrite forallb_forall. split.
  - intros H x Hx. rewrite <- F by auto. apply Nat.eqb_eq, H. now apply (fwd_In _ _ W).
  - intros H x Hx. apply (fwd_In _ _ W) in Hx. rewrite F by auto. apply Nat.eqb_eq. auto.
Qed.

Lemma C03_equal_lemma n p q f f' g g' :
  bijection n f f' -> represents n p f f' -> bijection n g g' -> represents n q g g' ->
  (peqb p q = true <-> forall x, x < n -> f x = g x).
Proof.
  intros B1 R1 B2 R2. destruct (represents_wfp _ _ _ _ B1 R1) as (W1 & F1 & G1).
  destruct (represents_wfp _ _ _ _ B2 R2) as (W2 & F2 & G2).
  unfold peqb. destruct (list_eq_dec Nat.eq_dec (fwd p) (fwd q)) as [E|E].
  - split; auto. intros _ x Hx. rewrite <- F1, <- F2 by auto. unfold fw. now rewrite E.
  - split; [discriminate|]. intros H. exfalso. apply E. apply nth_ext_nat.
    + now rewrite (fwd_len _ _ W1), (fwd_len _ _ W2).
    + intros i Hi. rewrite (fwd_len _ _ W1) in Hi. change (fw p i = fw q i).
      rewrite F1, F2; auto.
Qed.

Lemma C03_cancel_lemma n p : is_perm n p ->
  exists q r, pinv p = Ok q /\ pmul p q = Ok r /\ ptrivial r = Ok true.
Proof.
  intros (f & g & B & R). destruct (C03_inverse_lemma _ _ _ _ B R) as (q & Hq & Rq).
  destruct (C03_product_lemma _ _ _ _ _ _ _ B R (bijection_sym _ _ _ B) Rq) as (r & Hr & Rr).
  exists q, r. repeat split; auto.
  assert (B' : bijection n (fun x => f (g x)) (fun x => f (g x))).
  { split; intros i Hi; rewrite !(proj2 (proj2 B _ Hi)); auto. }
  destruct (C03_trivial_lemma _ _ _ _ B' Rr) as (b & Hb & Eb). rewrite Hb. f_equal. apply Eb.
  intros x Hx. apply B; auto.
Qed.

Lemma C03_mismatch_lemma p q n m : is_perm n p -> is_perm m q -> n <> m -> pmul p q = Throw.
Proof.
  intros (f & g & _ & L & _) (f' & g' & _ & L' & _) N. unfold pmul, psize. rewrite L, L'.
  apply Nat.eqb_neq in N. now rewrite N.
Qed.

Lemma C04_right_lemma n p c : is_perm n p -> (forall x, In x c -> x < n) -> NoDup c ->
  exists r, rmul_cycle p c = Ok r /\ is_perm n r /\ forall x, x < n -> papp r x = papp p (cyclic c x).
Proof.
  intros Hp Hc N. pose proof (is_perm_wfp _ _ Hp) as W.
  destruct (rmul_cycle_Ok n p c W Hc (or_introl N)) as (r & E & Wr & F).
  exists r. split; auto. split. now apply wfp_is_perm.
  intros x Hx. rewrite (papp_Ok n) by (auto; apply Wr). rewrite F by auto.
  symmetry. apply papp_Ok with n. apply W.
  (* cyclic c x < n *)
  unfold cyclic. assert (G : forall first d, first < n -> (forall y, In y d -> y < n) -> succ_in first d x < n).
  { intros first. induction d as [|z d IH]; cbn; intros H1 H2; auto.
    destruct (x =? z); auto. destruct d; auto. apply H2. cbn; auto. }
  destruct c as [|z c]; cbn [hd]; [cbn; auto|]. apply G; auto. apply Hc; cbn; auto.
Qed.

Lemma cyclic_lt n c x : (forall y, In y c -> y < n) -> x < n -> cyclic c x < n.
Proof.
  intros Hc Hx. unfold cyclic.
  assert (G : forall first d, first < n -> (forall y, In y d -> y < n) -> succ_in first d x < n).
  { intros first. induction d as [|z d IH]; cbn; intros H1 H2; auto.
    destruct (x =? z); auto. destruct d; auto. apply H2. cbn; auto. }
  destruct c as [|z c]; cbn [hd]; [cbn; auto|]. apply G; auto. apply Hc; cbn; auto.
Qed.

Lemma C04_left_lemma n p c : is_perm n p -> (forall x, In x c -> x < n) -> NoDup c ->
  exists r, lmul_cycle c p = Ok r /\ is_perm n r /\
    forall x y, x < n -> papp r x = Ok y -> papp p x = Ok (cyclic c y).
Proof.
  intros Hp Hc N. pose proof (is_perm_wfp _ _ Hp) as W.
  destruct (lmul_cycle_Ok n p c W Hc (or_introl N)) as (r & E & Wr & F).
  exists r. split; auto. split. now apply wfp_is_perm.
  intros x y Hx Hy. rewrite (papp_Ok n) in Hy by (auto; apply Wr). inv Hy.
  pose proof (fw_lt _ _ Wr x Hx) as Hy. specialize (F _ Hy). rewrite (bw_fw _ _ Wr) in F by auto.
  rewrite (papp_Ok n) by (auto; apply W). f_equal. rewrite F at 1. rewrite (fw_bw _ _ W); auto.
  apply cyclic_lt; auto.
Qed.

Lemma NoDup_not_two (c : list nat) : ~ NoDup c -> (exists x y, In x c /\ In y c /\ x <> y) -> 1 < distinct c.
Proof.
  intros _ (x & y & Hx & Hy & N). destruct (le_lt_dec (distinct c) 1) as [L|]; auto.
  exfalso. apply N. now apply (distinct_le1_const c).
Qed.

Lemma C04_reject_lemma p c : ~ NoDup c -> (exists x y, In x c /\ In y c /\ x <> y) ->
  rmul_cycle p c = Throw /\ lmul_cycle c p = Throw.
Proof.
  intros N X. pose proof (NoDup_not_two c N X) as D. split.
  - now apply rmul_cycle_Throw.
  - rewrite lmul_cycle_flip. now rewrite rmul_cycle_Throw.
Qed.

Lemma C05_cycles_lemma n p : is_perm n p ->
  exists cs, pcycles p = Ok cs /\ Permutation (concat cs) (seq 0 n) /\ (forall c, In c cs -> c <> []) /\
    forall c x, In c cs -> In x c -> papp p x = Ok (cyclic c x).
Proof.
  intros Hp. pose proof (is_perm_wfp _ _ Hp) as W. destruct (pcycles_Ok n p W) as (cs & E & O & P).
  exists cs. split; auto. split; auto. rewrite Forall_forall in O. split.
  - intros c Hc. destruct (O c Hc) as (t & k & T1 & T2 & T3 & ->). intros Z.
    apply (f_equal (@length nat)) in Z. rewrite orbit_list_length in Z. cbn in Z. destruct T3 as (T3 & _). lia.
  - intros c x Hc Hx. rewrite (is_orbit_cyclic n p c x W (O c Hc) Hx). apply papp_Ok with n. apply W.
    assert (I : In x (concat cs)) by (apply in_concat; eauto).
    apply (Permutation_in _ P) in I. apply in_seq in I. lia.
Qed.

Lemma C05_round_trip_lemma n p : is_perm n p -> exists cs, pcycles p = Ok cs /\ perm_of_cycles cs = Ok p.
Proof. intros H. apply is_perm_wfp in H. now apply pcycles_round_trip with n. Qed.

Lemma C05_cycle_lemma n p x : is_perm n p -> x < n ->
  exists c, pcycle p x = Ok c /\ hd_error c = Some x /\ NoDup c /\ (forall y, In y c -> papp p y = Ok (cyclic c y)).
Proof.
  intros Hp Hx. pose proof (is_perm_wfp _ _ Hp) as W. pose proof W as (_ & _ & B).
  destruct (pcycle_Ok n p x W Hx) as (k & L & P & E). exists (orbit_list (fw p) x k). split; auto.
  split. { destruct k. destruct P as [P _]; lia. reflexivity. }
  split. eapply orbit_list_NoDup; eauto.
  intros y Hy. rewrite (orbit_list_cyclic n _ _ _ _ _ B Hx P Hy). apply papp_Ok with n. apply W.
  apply orbit_list_In in Hy as (i & _ & <-). eapply iter_lt; eauto.
Qed.

Lemma C05_drop_lemma n p items q : is_perm n p -> NoDup items -> pdrop p items = Ok q ->
  is_perm (n - length items) q /\ (forall i, i < n - length items -> papp q i = papp p i) /\
  (forall i, In i items <-> n - length items <= i < n).
Proof.
  intros Hp N H. pose proof (is_perm_wfp _ _ Hp) as W. destruct (pdrop_Ok n p items q W N H) as (W' & L & F & I).
  split. now apply wfp_is_perm. split; auto. intros i Hi.
  rewrite (papp_Ok (n - length items)) by (auto; apply W'). rewrite F by auto.
  symmetry. apply papp_Ok with n. apply W. lia.
Qed.

