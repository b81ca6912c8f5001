From Coq Require Import List Arith Lia Bool Permutation.
From Verif Require Import Base Perm PermSpec.
Import ListNotations.

Definition fw (p : perm) (i : nat) : nat := nth i (fwd p) 0.
Definition bw (p : perm) (i : nat) : nat := nth i (bwd p) 0.

Definition wfp (n : nat) (p : perm) : Prop :=
  length (fwd p) = n /\ length (bwd p) = n /\ bijection n (fw p) (bw p).

Lemma papp_Ok n p i : length (fwd p) = n -> i < n -> papp p i = Ok (fw p i).
Proof. intros H1 H2. unfold papp, fw. apply vget_nth. lia. Qed.

Lemma ppre_Ok n p i : length (bwd p) = n -> i < n -> ppre p i = Ok (bw p i).
Proof. intros H1 H2. unfold ppre, bw. apply vget_nth. lia. Qed.

Lemma wfp_represents n p : wfp n p -> represents n p (fw p) (bw p).
Proof.
  intros (H1 & H2 & _). repeat split; auto; intros i Hi.
  - now apply papp_Ok with n.
  - now apply ppre_Ok with n.
Qed.

Lemma wfp_is_perm n p : wfp n p -> is_perm n p.
Proof.
  intros H. exists (fw p), (bw p). split. apply H. now apply wfp_represents.
Qed.

Lemma is_perm_wfp n p : is_perm n p -> wfp n p.
Proof.
  intros (f & g & B & L1 & L2 & F & G).
  assert (Ef : forall i, i < n -> fw p i = f i)
      by (intros i Hi; specialize (F i Hi); rewrite (papp_Ok n) in F by auto; congruence).
  assert (Eg : forall i, i < n -> bw p i = g i)
      by (intros i Hi; specialize (G i Hi); rewrite (ppre_Ok n) in G by auto; congruence).
  split; [exact L1|]. split; [exact L2|]. destruct B as [B1 B2]. split.
  - intros i Hi. destruct (B1 i Hi). rewrite Ef by auto. rewrite Eg by auto. auto.
  - intros j Hj. destruct (B2 j Hj). rewrite Eg by auto. rewrite Ef by auto. auto.
Qed.

Lemma bijection_inj n f g : bijection n f g -> forall i j, i < n -> j < n -> f i = f j -> i = j.
Proof. intros [B _] i j Hi Hj E. destruct (B i Hi) as [_ <-]. destruct (B j Hj) as [_ <-]. now rewrite E. Qed.

Lemma bijection_sym n f g : bijection n f g -> bijection n g f.
Proof. intros [A B]; split; auto. Qed.

Section wf.
Variables (n : nat) (p : perm).
Hypothesis W : wfp n p.
Lemma fw_lt i : i < n -> fw p i < n. Proof. intros H. apply W; auto. Qed.
Lemma bw_lt i : i < n -> bw p i < n. Proof. intros H. apply W; auto. Qed.
Lemma bw_fw i : i < n -> bw p (fw p i) = i. Proof. intros H. apply W; auto. Qed.
Lemma fw_bw i : i < n -> fw p (bw p i) = i. Proof. intros H. apply W; auto. Qed.
Lemma fw_inj i j : i < n -> j < n -> fw p i = fw p j -> i = j.
Proof. destruct W as (_ & _ & B). eapply bijection_inj; eauto. Qed.
Lemma bw_inj i j : i < n -> j < n -> bw p i = bw p j -> i = j.
Proof. destruct W as (_ & _ & B). eapply bijection_inj. apply bijection_sym; eauto. Qed.
Lemma fwd_len : length (fwd p) = n. Proof. apply W. Qed.
Lemma bwd_len : length (bwd p) = n. Proof. apply W. Qed.
Lemma fwd_In i : In i (fwd p) <-> i < n.
Proof.
  split.
  - intros H. apply In_nth with (d := 0) in H as (j & Hj & <-). rewrite fwd_len in Hj.
    now apply fw_lt.
  - intros H. rewrite <- (fw_bw i H). apply nth_In. rewrite fwd_len. now apply bw_lt.
Qed.
Lemma fwd_NoDup : NoDup (fwd p).
Proof.
  apply NoDup_nth with (d := 0). intros i j Hi Hj E. rewrite fwd_len in *. now apply fw_inj.
Qed.
End wf.

(** ** The constructor from a vector *)

Lemma pcheck_Ok l : pcheck l = Ok tt <->
  (forall i, In i l -> i < length l) /\ NoDup l.
Proof.
  unfold pcheck. split.
  - destruct (forallb (fun t => t <? length l) l) eqn:E1; try discriminate.
    destruct (forallb _ (seq 0 (length l))) eqn:E2; try discriminate.
    destruct (forallb (fun i => count_occ Nat.eq_dec l i =? 1) _) eqn:E3; try discriminate.
    intros _. rewrite forallb_forall in E1, E3. split.
    + intros i Hi. apply Nat.ltb_lt. now apply E1.
    + apply (NoDup_count_occ Nat.eq_dec). intros x.
      destruct (in_dec Nat.eq_dec x l) as [I | I].
      * assert (count_occ Nat.eq_dec l x = 1); [|lia].
        apply Nat.eqb_eq, E3, in_seq. specialize (E1 x I). apply Nat.ltb_lt in E1. lia.
      * apply (count_occ_not_In Nat.eq_dec) in I. lia.
  - intros [B N].
    assert (P : forall i, i < length l -> In i l).
    { intros i Hi. assert (incl (seq 0 (length l)) l).
      { apply NoDup_length_incl; auto.
        - rewrite seq_length. lia.
        - intros j Hj. apply in_seq. apply B in Hj. lia. }
      apply H. apply in_seq. lia. }
    replace (forallb (fun t => t <? length l) l) with true.
    2:{ symmetry. apply forallb_forall. intros i Hi. apply Nat.ltb_lt. auto. }
    replace (forallb _ (seq 0 (length l))) with true.
    2:{ symmetry. apply forallb_forall. intros i Hi. apply in_seq in Hi.
        apply negb_true_iff, Nat.eqb_neq. intros Z.
        apply (count_occ_not_In Nat.eq_dec) in Z. apply Z, P. lia. }
    replace (forallb (fun i => count_occ Nat.eq_dec l i =? 1) _) with true; auto.
    symmetry. apply forallb_forall. intros i Hi. apply in_seq in Hi.
    apply Nat.eqb_eq. apply (NoDup_count_occ' Nat.eq_dec); auto. apply P. lia.
Qed.

Lemma fill_inverse_length l vs inv inv' :
  fill_inverse l vs inv = Ok inv' -> length inv' = length inv.
Proof.
  revert inv. induction vs as [|v r IH]; cbn; intros inv H.
  - inv H; auto.
  - apply bind_Ok in H as (w & Hw & H). apply bind_Ok in H as (i2 & Hi & H).
    apply vset_inv in Hi as [Hi ->]. apply IH in H. rewrite upd_length in H. auto.
Qed.

Lemma fill_inverse_spec l : NoDup l -> forall vs inv inv',
  NoDup vs -> (forall v, In v vs -> v < length l) ->
  fill_inverse l vs inv = Ok inv' ->
  (forall v, In v vs -> nth (nth v l 0) inv' 0 = v) /\
  (forall j, ~ In j (map (fun v => nth v l 0) vs) -> nth j inv' 0 = nth j inv 0).
Proof.
  intros NL. induction vs as [|v r IH]; cbn; intros inv inv' N B H.
  - inv H. split; [intros v []|auto].
  - apply bind_Ok in H as (w & Hw & H). apply bind_Ok in H as (i2 & Hi & H).
    apply vget_Ok in Hw as [Hv Hw]. specialize (Hw 0). apply vset_inv in Hi as [Hi ->].
    apply NoDup_cons_iff in N as [N1 N2]. apply IH in H as [E1 E2]; auto.
    split.
    + intros u [<-|Hu]; auto.
      rewrite E2.
      * rewrite Hw. rewrite nth_upd_eq; auto.
      * rewrite in_map_iff. intros (u' & E & Hu').
        pose proof (proj1 (NoDup_nth l 0) NL u' v (B u' (or_intror Hu')) Hv E). subst. auto.
    + intros j Hj. rewrite E2 by tauto. rewrite nth_upd_ne; auto. rewrite <- Hw. tauto.
Qed.

Lemma fill_inverse_total l : (forall i, In i l -> i < length l) ->
  forall vs inv, (forall v, In v vs -> v < length l) -> length inv = length l ->
  exists inv', fill_inverse l vs inv = Ok inv'.
Proof.
  intros B. induction vs as [|v r IH]; cbn; intros inv Hvs L; eauto.
  rewrite (vget_nth _ _ 0) by auto. cbn. rewrite vset_Ok.
  - cbn. apply IH; auto. now rewrite upd_length.
  - rewrite L. apply B, nth_In. auto.
Qed.

Lemma perm_of_vector_Ok l p :
  perm_of_vector l = Ok p -> wfp (length l) p /\ fwd p = l.
Proof.
  unfold perm_of_vector. intros H. apply bind_Ok in H as (inv & Hf & H).
  apply bind_Ok in H as ([] & Hc & H). inv H. apply pcheck_Ok in Hc as [B N].
  split; auto.
  pose proof (fill_inverse_length _ _ _ _ Hf) as L.
  destruct (fill_inverse_spec l N l l inv N B Hf) as [S _].
  assert (P : forall i, i < length l -> In i l).
    { intros i Hi. assert (incl (seq 0 (length l)) l).
      { apply NoDup_length_incl; auto.
        - rewrite seq_length. lia.
        - intros j Hj. apply in_seq. apply B in Hj. lia. }
      apply H. apply in_seq. lia. }
  split; [reflexivity|]. split; [cbn; auto|].
  unfold fw, bw; cbn. split.
  - intros i Hi. split; [apply B, nth_In; auto|]. apply S. auto.
  - intros j Hj. apply P in Hj. apply In_nth with (d:=0) in Hj as (i & Hi & <-).
    rewrite S; auto.
Qed.

Lemma perm_of_vector_complete l :
  (forall i, In i l -> i < length l) -> NoDup l -> exists p, perm_of_vector l = Ok p.
Proof.
  intros B N. unfold perm_of_vector.
  destruct (fill_inverse_total l B l l B eq_refl) as (inv & ->). cbn.
  destruct (pcheck_Ok l) as [_ C]. rewrite C; auto. cbn. eauto.
Qed.

(** A vector is accepted iff it lists each of [0..n-1] exactly once. *)
Lemma perm_of_vector_iff l :
  (exists p, perm_of_vector l = Ok p) <-> Permutation l (seq 0 (length l)).
Proof.
  split.
  - intros (p & H). apply perm_of_vector_Ok in H as [W E].
    apply NoDup_Permutation.
    + rewrite <- E. eapply fwd_NoDup; eauto.
    + apply seq_NoDup.
    + intros x. rewrite <- E at 1. rewrite (fwd_In _ _ W). rewrite in_seq. lia.
  - intros P. apply perm_of_vector_complete.
    + intros i Hi. apply (Permutation_in _ P), in_seq in Hi. lia.
    + eapply Permutation_NoDup. apply Permutation_sym; eauto. apply seq_NoDup.
Qed.

Lemma wfp_ext n p q : wfp n p -> wfp n q -> (forall i, i < n -> fw p i = fw q i) -> p = q.
Proof.
  intros Wp Wq E. destruct p as [pf pb], q as [qf qb].
  assert (pf = qf).
  { apply nth_ext_nat; cbn.
    - rewrite <- (fwd_len _ _ Wp) in Wq. symmetry. apply (fwd_len _ _ Wq).
    - intros i Hi. apply E. rewrite <- (fwd_len _ _ Wp). auto. }
  subst. f_equal. apply nth_ext_nat.
  - pose proof (bwd_len _ _ Wp) as A. pose proof (bwd_len _ _ Wq) as B. cbn in *. lia.
  - intros i Hi. pose proof (bwd_len _ _ Wp) as A. cbn in A.
    assert (Hin : i < n) by lia.
    pose proof (bw_lt _ _ Wp i Hin). pose proof (bw_lt _ _ Wq i Hin).
    pose proof (fw_bw _ _ Wp i Hin) as C. pose proof (fw_bw _ _ Wq i Hin) as D.
    apply (fw_inj _ _ Wp); auto. unfold fw, bw in *; cbn in *. congruence.
Qed.

(** A permutation with given function exists and is unique. *)
Lemma perm_of_vector_map n f g : bijection n f g ->
  exists p, perm_of_vector (map f (seq 0 n)) = Ok p /\ wfp n p /\ forall i, i < n -> fw p i = f i.
Proof.
  intros [B1 B2].
  destruct (perm_of_vector_complete (map f (seq 0 n))) as (p & Hp).
  - intros i Hi. apply in_map_iff in Hi as (j & <- & Hj). apply in_seq in Hj.
    rewrite map_length, seq_length. apply B1. lia.
  - assert (I : forall l, (forall i, In i l -> i < n) -> NoDup l -> NoDup (map f l)).
    { induction l as [|a l IH]; cbn; intros Hl N; constructor; inv N.
      - rewrite in_map_iff. intros (b & E & Hb). assert (a = b); [|subst; auto].
        destruct (B1 a) as [_ Ga]; auto. destruct (B1 b) as [_ Gb]; auto. congruence.
      - apply IH; auto. }
    apply I; [|apply seq_NoDup]. intros i Hi. apply in_seq in Hi. lia.
  - exists p. split; auto. apply perm_of_vector_Ok in Hp as [W E].
    rewrite map_length, seq_length in W. split; auto.
    intros i Hi. unfold fw. rewrite E.
    rewrite (nth_indep _ 0 (f 0)). rewrite map_nth, seq_nth; auto.
    rewrite map_length, seq_length; auto.
Qed.

Lemma perm_of_vector_fwd n p : wfp n p -> perm_of_vector (fwd p) = Ok p.
Proof.
  intros W. destruct (perm_of_vector_complete (fwd p)) as (q & Hq).
  - intros i Hi. rewrite (fwd_len _ _ W). now apply (fwd_In _ _ W).
  - eapply fwd_NoDup; eauto.
  - rewrite Hq. f_equal. apply perm_of_vector_Ok in Hq as [Wq E].
    rewrite (fwd_len _ _ W) in Wq. apply wfp_ext with n; auto. intros. unfold fw. now rewrite E.
Qed.

(** ** Inverse and composition *)

Definition flipp (p : perm) : perm := mkPerm (bwd p) (fwd p).

Lemma wfp_flipp n p : wfp n p -> wfp n (flipp p).
Proof. intros (A & B & C). repeat split; cbn; auto; apply C; auto. Qed.

Lemma pinv_Ok n p : wfp n p -> pinv p = Ok (flipp p).
Proof.
  intros W. unfold pinv. apply wfp_flipp in W. change (bwd p) with (fwd (flipp p)).
  now apply perm_of_vector_fwd with n.
Qed.

Lemma pmul_Ok n p q : wfp n p -> wfp n q ->
  exists r, pmul p q = Ok r /\ wfp n r /\
    (forall i, i < n -> fw r i = fw p (fw q i)) /\
    (forall i, i < n -> bw r i = bw q (bw p i)).
Proof.
  intros Wp Wq. unfold pmul, psize. rewrite (fwd_len _ _ Wp), (fwd_len _ _ Wq), Nat.eqb_refl.
  rewrite omap_map with (g := fw p).
  2:{ intros a Ha. apply papp_Ok with n. apply Wp. now apply (fwd_In _ _ Wq). }
  cbn.
  destruct (perm_of_vector_complete (map (fw p) (fwd q))) as (r & Hr).
  - intros i Hi. apply in_map_iff in Hi as (j & <- & Hj). rewrite map_length, (fwd_len _ _ Wq).
    apply (fw_lt _ _ Wp). now apply (fwd_In _ _ Wq).
  - assert (I : forall l, (forall i, In i l -> i < n) -> NoDup l -> NoDup (map (fw p) l)).
    { induction l as [|a l IH]; cbn; intros Hl N; constructor; inv N.
      - rewrite in_map_iff. intros (b & E & Hb). assert (a = b); [|subst; auto].
        apply (fw_inj _ _ Wp); auto.
      - apply IH; auto. }
    apply I; [|eapply fwd_NoDup; eauto]. intros i Hi. now apply (fwd_In _ _ Wq).
  - exists r. split; auto. apply perm_of_vector_Ok in Hr as [W E].
    rewrite map_length, (fwd_len _ _ Wq) in W. split; auto.
    assert (F : forall i, i < n -> fw r i = fw p (fw q i)).
    { intros i Hi. unfold fw at 1. rewrite E. rewrite (nth_indep _ 0 (fw p 0)).
      rewrite map_nth. reflexivity. rewrite map_length, (fwd_len _ _ Wq); auto. }
    split; auto. intros i Hi.
    pose proof (bw_lt _ _ Wp i Hi). pose proof (bw_lt _ _ Wq _ H).
    apply (fw_inj _ _ W); auto. now apply bw_lt with (n := n).
    rewrite (fw_bw _ _ W) by auto. rewrite F by auto.
    rewrite (fw_bw _ _ Wq) by auto. now rewrite (fw_bw _ _ Wp).
Qed.

(** ** Multiplication with cycles *)

(** [tmp] is the only value that is not attained, [x] the only position whose
    value is obsolete. *)
Definition hole (n : nat) (p : perm) (x tmp : nat) : Prop :=
  length (fwd p) = n /\ length (bwd p) = n /\ x < n /\ tmp < n /\
  (forall i, i < n -> i <> x -> fw p i < n /\ fw p i <> tmp /\ bw p (fw p i) = i) /\
  (forall j, j < n -> j <> tmp -> bw p j < n /\ bw p j <> x /\ fw p (bw p j) = j).

Lemma wfp_hole n p x : wfp n p -> x < n -> hole n p x (fw p x).
Proof.
  intros W H. unfold hole. pose proof (fwd_len _ _ W). pose proof (bwd_len _ _ W).
  pose proof (fw_lt _ _ W x H). repeat split; auto.
  - now apply (fw_lt _ _ W).
  - intros E. apply (fw_inj _ _ W) in E; auto.
  - now apply (bw_fw _ _ W).
  - now apply (bw_lt _ _ W).
  - intros E. apply H4. rewrite <- E. now rewrite (fw_bw _ _ W).
  - now apply (fw_bw _ _ W).
Qed.

Lemma fw_mk f b i : fw (mkPerm f b) i = nth i f 0. Proof. reflexivity. Qed.
Lemma bw_mk f b i : bw (mkPerm f b) i = nth i b 0. Proof. reflexivity. Qed.

Lemma hole_close n p x tmp : hole n p x tmp ->
  let q := mkPerm (upd (fwd p) x tmp) (upd (bwd p) tmp x) in
  wfp n q /\ fw q x = tmp /\ (forall i, i < n -> i <> x -> fw q i = fw p i).
Proof.
  intros (L1 & L2 & Hx & Ht & F & B) q.
  assert (Fq : forall i, fw q i = if i =? x then tmp else fw p i).
  { intros i. unfold q. rewrite fw_mk, nth_upd by lia. reflexivity. }
  assert (Bq : forall i, bw q i = if i =? tmp then x else bw p i).
  { intros i. unfold q. rewrite bw_mk, nth_upd by lia. reflexivity. }
  split; [|split].
  - repeat split; try (cbn; rewrite upd_length; auto); rewrite ?Fq, ?Bq.
    + destruct (Nat.eqb_spec i x); auto. apply F; auto.
    + destruct (Nat.eqb_spec i x).
      * rewrite Nat.eqb_refl. auto.
      * destruct (F i H n0) as (F1 & F2 & F3). destruct (Nat.eqb_spec (fw p i) tmp); try lia.
    + destruct (Nat.eqb_spec j tmp); auto. apply B; auto.
    + destruct (Nat.eqb_spec j tmp).
      * rewrite Nat.eqb_refl. auto.
      * destruct (B j H n0) as (F1 & F2 & F3). destruct (Nat.eqb_spec (bw p j) x); try lia.
  - rewrite Fq, Nat.eqb_refl. auto.
  - intros i Hi E. rewrite Fq. destruct (Nat.eqb_spec i x); auto. contradiction.
Qed.

Lemma hole_step n p x y tmp : hole n p x tmp -> y < n -> y <> x ->
  let q := mkPerm (upd (fwd p) x (fw p y)) (upd (bwd p) (fw p y) x) in
  hole n q y tmp /\ fw q x = fw p y /\ (forall i, i < n -> i <> x -> fw q i = fw p i).
Proof.
  intros (L1 & L2 & Hx & Ht & F & B) Hy N q.
  destruct (F y Hy N) as (Y1 & Y2 & Y3).
  assert (Fq : forall i, fw q i = if i =? x then fw p y else fw p i).
  { intros i. unfold q. rewrite fw_mk, nth_upd by lia. reflexivity. }
  assert (Bq : forall i, bw q i = if i =? fw p y then x else bw p i).
  { intros i. unfold q. rewrite bw_mk, nth_upd by lia. reflexivity. }
  split; [|split].
  - unfold hole. split; [cbn; rewrite upd_length; auto|]. split; [cbn; rewrite upd_length; auto|].
    split; auto. split; auto. split.
    + intros i Hi Ne. rewrite Bq, Fq. destruct (Nat.eqb_spec i x).
      * rewrite Nat.eqb_refl. subst; auto.
      * destruct (F i Hi n0) as (F1 & F2 & F3). destruct (Nat.eqb_spec (fw p i) (fw p y)); auto.
        exfalso. apply Ne. rewrite <- F3, e. auto.
    + intros j Hj Ne. rewrite Fq, Bq. destruct (Nat.eqb_spec j (fw p y)).
      * rewrite Nat.eqb_refl. subst; auto.
      * destruct (B j Hj Ne) as (F1 & F2 & F3). destruct (Nat.eqb_spec (bw p j) x); try lia.
        repeat split; auto. intros E. apply n0. rewrite <- E. auto.
  - rewrite Fq, Nat.eqb_refl. auto.
  - intros i Hi E. rewrite Fq. destruct (Nat.eqb_spec i x); auto. contradiction.
Qed.

(** The function that is the result of the loop. *)
Fixpoint shift_fun (tmp : nat) (x : nat) (c : list nat) (f : nat -> nat) (i : nat) : nat :=
  match c with
  | [] => if i =? x then tmp else f i
  | y :: r => if i =? x then f y else shift_fun tmp y r f i
  end.

Lemma shift_fun_ext tmp c : forall x f g n,
  x < n -> (forall y, In y c -> y < n) -> (forall i, i < n -> f i = g i) ->
  forall i, i < n -> shift_fun tmp x c f i = shift_fun tmp x c g i.
Proof.
  induction c as [|y r IH]; cbn; intros x f g n Hx Hc E i Hi.
  - now rewrite E.
  - destruct (i =? x). + apply E. apply Hc; auto. + apply IH with n; auto.
Qed.

Lemma rmul_loop_Ok n tmp : forall c x p,
  NoDup (x :: c) -> (forall y, In y c -> y < n) -> hole n p x tmp ->
  exists q, rmul_loop tmp x c p = Ok q /\ wfp n q /\
    forall i, i < n -> fw q i = shift_fun tmp x c (fw p) i.
Proof.
  induction c as [|y r IH]; intros x p N Hc H.
  - cbn. pose proof H as (L1 & L2 & Hx & Ht & _).
    rewrite vset_Ok by lia. cbn. rewrite vset_Ok by lia. cbn.
    destruct (hole_close n p x tmp H) as (W & E1 & E2).
    eexists. split; eauto. split; auto. intros i Hi.
    destruct (Nat.eqb_spec i x); subst; auto.
  - assert (Hy : y < n) by (apply Hc; cbn; auto).
    assert (Nxy : y <> x) by (inv N; intros ->; cbn in *; tauto).
    pose proof H as (L1 & L2 & Hx & Ht & F & _).
    cbn. rewrite (papp_Ok n) by auto. cbn. rewrite vset_Ok by lia. cbn.
    rewrite (vget_nth _ _ 0) by (rewrite upd_length; lia). cbn.
    rewrite nth_upd_ne by auto. fold (fw p y).
    destruct (F y Hy Nxy) as (Y1 & _ & _).
    rewrite vset_Ok by lia. cbn.
    destruct (hole_step n p x y tmp H Hy Nxy) as (Hq & E1 & E2).
    destruct (IH y _ ltac:(inv N; auto) ltac:(intros; apply Hc; cbn; auto) Hq) as (q & -> & W & E).
    exists q. split; auto. split; auto. intros i Hi. rewrite E by auto.
    set (p' := {| fwd := upd (fwd p) x (fw p y); bwd := upd (bwd p) (fw p y) x |}) in *.
    (* values at positions other than x are unaffected *)
    clearbody p'.
    assert (Gen : forall r y, ~ In x r -> y <> x -> (forall z, In z r -> z < n) -> y < n ->
       forall i, i < n -> shift_fun tmp y r (fw p') i =
         if i =? x then fw p' x else shift_fun tmp y r (fw p) i).
    { clear - E2 Hx. induction r as [|z r IH]; cbn; intros y Hr Ny Hz Hy i Hi.
      - destruct (Nat.eqb_spec i y).
        + destruct (Nat.eqb_spec i x); congruence.
        + destruct (Nat.eqb_spec i x); [congruence|auto].
      - destruct (Nat.eqb_spec i y).
        + destruct (Nat.eqb_spec i x); [congruence|]. apply E2; [auto|].
          intros ->. tauto.
        + rewrite IH; auto; tauto. }
    rewrite Gen; auto.
    + rewrite E1. reflexivity.
    + inv N. cbn in *. tauto.
    + intros; apply Hc; cbn; auto.
Qed.

Lemma succ_in_notin first c x : ~ In x c -> succ_in first c x = x.
Proof.
  induction c as [|z r IH]; cbn; auto. intros H. destruct (Nat.eqb_spec x z); [subst; tauto|].
  apply IH. tauto.
Qed.

Lemma shift_fun_succ first c : forall x f i,
  NoDup (x :: c) -> shift_fun (f first) x c f i = f (succ_in first (x :: c) i).
Proof.
  induction c as [|y r IH]; intros x f i N.
  - cbn. destruct (i =? x); auto.
  - cbn [shift_fun]. change (succ_in first (x :: y :: r) i) with
      (if i =? x then y else succ_in first (y :: r) i).
    destruct (i =? x); auto. apply IH. inv N; auto.
Qed.

Lemma distinct_eq c : distinct c = length c <-> NoDup c.
Proof.
  unfold distinct. split.
  - intros H. apply NoDup_incl_NoDup with (l := nodup Nat.eq_dec c).
    + apply NoDup_nodup. + lia. + intros x. apply nodup_In.
  - intros H. now rewrite nodup_fixed_point.
Qed.

Lemma distinct_le1_const c x y : distinct c <= 1 -> In x c -> In y c -> x = y.
Proof.
  unfold distinct. intros H Hx Hy. apply (nodup_In Nat.eq_dec) in Hx, Hy.
  destruct (nodup Nat.eq_dec c) as [|a [|b l]]; cbn in *; try tauto; try lia.
  all: destruct Hx, Hy; try tauto; congruence.
Qed.

Lemma cyclic_const c i : distinct c <= 1 -> cyclic c i = i.
Proof.
  intros H. unfold cyclic.
  assert (G : forall d, incl d c -> succ_in (hd 0 c) d i = i).
  { induction d as [|z r IH]; cbn; intros Hi; auto.
    destruct (Nat.eqb_spec i z).
    - subst. assert (Hz : In z c) by (apply Hi; cbn; auto). destruct r as [|w r].
      + destruct c as [|c0 c]; [destruct Hz|]. cbn.
        apply (distinct_le1_const (c0::c)); cbn; auto.
      + apply (distinct_le1_const c); auto. apply Hi; cbn; auto.
    - apply IH. intros u Hu. apply Hi. cbn; auto. }
  apply G. apply incl_refl.
Qed.

(** Right multiplication is composition with the cyclic permutation. *)
Lemma rmul_cycle_Ok n p c : wfp n p -> (forall x, In x c -> x < n) ->
  NoDup c \/ distinct c <= 1 ->
  exists q, rmul_cycle p c = Ok q /\ wfp n q /\ forall i, i < n -> fw q i = fw p (cyclic c i).
Proof.
  intros W Hc D. unfold rmul_cycle. destruct (Nat.leb_spec (distinct c) 1) as [L | L].
  - exists p. split; auto. split; auto. intros. now rewrite cyclic_const.
  - destruct D as [N | D]; [|lia]. pose proof N as N'. apply distinct_eq in N'. rewrite N', Nat.eqb_refl.
    destruct c as [|x r]; [cbn in L; lia|].
    assert (Hx : x < n) by (apply Hc; cbn; auto).
    rewrite (papp_Ok n) by (auto; apply W). cbn [bind].
    destruct (rmul_loop_Ok n (fw p x) r x p N ltac:(intros; apply Hc; cbn; auto) (wfp_hole _ _ _ W Hx))
      as (q & E & Wq & F).
    exists q. split; auto. split; auto. intros i Hi. rewrite F by auto.
    rewrite shift_fun_succ by auto. reflexivity.
Qed.

Lemma rmul_cycle_Throw p c : 1 < distinct c -> ~ NoDup c -> rmul_cycle p c = Throw.
Proof.
  intros H N. unfold rmul_cycle. destruct (Nat.leb_spec (distinct c) 1); [lia|].
  rewrite <- distinct_eq in N. apply Nat.eqb_neq in N. now rewrite N.
Qed.

Lemma lmul_loop_flip tmp : forall c x p,
  lmul_loop tmp x c p = match rmul_loop tmp x c (flipp p) with Ok q => Ok (flipp q) | Throw => Throw | UB => UB | OutOfFuel => OutOfFuel end.
Proof.
  induction c as [|y r IH]; intros x p; cbn.
  - destruct (vset (bwd p) x tmp); cbn; auto. destruct (vset (fwd p) tmp x); auto.
  - unfold ppre, papp. cbn. destruct (vget (bwd p) y) as [py | | |]; cbn; auto.
    destruct (vset (bwd p) x py) as [b | | |]; cbn; auto.
    destruct (vget b y) as [py' | | |]; cbn; auto.
    destruct (vset (fwd p) py' x) as [f | | |]; cbn; auto.
    rewrite IH. reflexivity.
Qed.

Lemma lmul_cycle_flip c p :
  lmul_cycle c p = match rmul_cycle (flipp p) c with Ok q => Ok (flipp q) | Throw => Throw | UB => UB | OutOfFuel => OutOfFuel end.
Proof.
  unfold lmul_cycle, rmul_cycle. destruct (distinct c <=? 1); [now destruct p|].
  destruct (distinct c =? length c); auto. destruct c as [|x r]; auto.
  unfold ppre, papp. cbn. destruct (vget (bwd p) x); cbn; auto. apply lmul_loop_flip.
Qed.

(** Left multiplication composes with the INVERSE of the cyclic permutation:
    the preimages are composed with the cyclic permutation. *)
Lemma lmul_cycle_Ok n p c : wfp n p -> (forall x, In x c -> x < n) ->
  NoDup c \/ distinct c <= 1 ->
  exists q, lmul_cycle c p = Ok q /\ wfp n q /\ forall i, i < n -> bw q i = bw p (cyclic c i).
Proof.
  intros W Hc D. rewrite lmul_cycle_flip.
  destruct (rmul_cycle_Ok n (flipp p) c (wfp_flipp _ _ W) Hc D) as (q & -> & Wq & F).
  exists (flipp q). split; auto. split. now apply wfp_flipp. exact F.
Qed.
