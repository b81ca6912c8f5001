From Coq Require Import List Arith Bool Lia Sorted.
From Verif Require Import Base IndexedSet IndexedSetSpec.
Import ListNotations.

Definition mem (s : bits) (i : nat) : bool := nth i s false.

Lemma nth_repeat_false i n : nth i (repeat false n) false = false.
Proof. revert i. induction n; intros [|i]; cbn; auto. Qed.

Lemma mem_beyond s i : length s <= i -> mem s i = false.
Proof. intros. now apply nth_overflow. Qed.

Lemma mem_resize s n i : length s <= n -> mem (bresize s n) i = mem s i.
Proof.
  intros H. unfold mem, bresize. rewrite firstn_all2 by auto.
  destruct (lt_dec i (length s)).
  - now rewrite app_nth1.
  - rewrite app_nth2 by lia. rewrite nth_repeat_false. symmetry. apply nth_overflow. lia.
Qed.

Lemma resize_length s n : length (bresize s n) = n.
Proof. unfold bresize. rewrite app_length, firstn_length, repeat_length. lia. Qed.

Lemma contains_mem s i : scontains s i = mem s i.
Proof.
  unfold scontains. destruct (Nat.leb_spec (length s) i); auto. symmetry. now apply mem_beyond.
Qed.

Lemma mem_upd s i j b : i < length s -> mem (upd s i b) j = if j =? i then b else mem s j.
Proof. intros. unfold mem. now apply nth_upd. Qed.

Lemma mem_insert s i j : mem (sinsert s i) j = (j =? i) || mem s j.
Proof.
  unfold sinsert. destruct (Nat.leb_spec (length s) i).
  - rewrite mem_upd by (rewrite resize_length; lia). rewrite mem_resize by lia.
    destruct (j =? i); auto.
  - rewrite mem_upd by auto. destruct (j =? i); auto.
Qed.

Lemma mem_erase s i j : mem (serase s i) j = negb (j =? i) && mem s j.
Proof.
  unfold serase. destruct (Nat.leb_spec (length s) i).
  - destruct (Nat.eqb_spec j i); subst; cbn; auto. now apply mem_beyond.
  - rewrite mem_upd by auto. destruct (j =? i); auto.
Qed.

Lemma mem_of_list items : forall s x,
  mem (fold_left sinsert items s) x = (if in_dec Nat.eq_dec x items then true else false) || mem s x.
Proof.
  induction items as [|a r IH]; intros s x.
  - reflexivity.
  - cbn [fold_left]. rewrite IH, mem_insert.
    destruct (in_dec Nat.eq_dec x r) as [I|I], (in_dec Nat.eq_dec x (a :: r)) as [J|J]; cbn in *; auto.
    + tauto.
    + destruct J as [->|]; [|tauto]. now rewrite Nat.eqb_refl.
    + destruct (Nat.eqb_spec x a); auto. subst. tauto.
Qed.

Lemma mem_align s r i : mem (fst (salign s r)) i = mem s i /\ mem (snd (salign s r)) i = mem r i.
Proof.
  unfold salign. cbn. rewrite resize_length. split; apply mem_resize; lia.
Qed.

Lemma align_length s r : length (fst (salign s r)) = length (snd (salign s r)).
Proof. unfold salign. cbn. rewrite !resize_length. lia. Qed.

Lemma beq_bits_spec s : forall r, length s = length r -> (beq_bits s r = true <-> forall i, mem s i = mem r i).
Proof.
  induction s as [|a s IH]; intros [|b r] L; cbn in L; try lia.
  - cbn. split; auto.
  - cbn [beq_bits]. rewrite andb_true_iff, eqb_true_iff, IH by lia. split.
    + intros [-> H] [|i]; auto. apply H.
    + intros H. split. apply (H 0). intros i. apply (H (S i)).
Qed.

Lemma intersects_spec s : forall r, (intersects s r = true <-> exists i, mem s i = true /\ mem r i = true).
Proof.
  induction s as [|a s IH]; intros [|b r]; cbn [intersects].
  - split; [discriminate|]. intros (i & H & _). destruct i; discriminate.
  - split; [discriminate|]. intros (i & H & _). destruct i; discriminate.
  - split; [discriminate|]. intros (i & _ & H). destruct i; discriminate.
  - rewrite orb_true_iff, andb_true_iff, IH. split.
    + intros [[-> ->]|(i & H)]. exists 0; auto. exists (S i); auto.
    + intros ([|i] & H); [left|right]; auto. exists i. auto.
Qed.

Lemma find_from_spec s : forall off from,
  match find_from off from s with
  | Some p => off <= p /\ from <= p /\ p < off + length s /\ mem s (p - off) = true /\
              (forall q, from <= q -> off <= q < p -> mem s (q - off) = false)
  | None => forall q, from <= q -> off <= q -> mem s (q - off) = false
  end.
Proof.
  induction s as [|b r IH]; intros off from; cbn [find_from].
  - intros q _ _. unfold mem. destruct (q - off); auto.
  - destruct (Nat.leb_spec from off); cbn [andb]; [destruct b|].
    + repeat split; try (cbn; lia). rewrite Nat.sub_diag. reflexivity.
    + specialize (IH (S off) from). destruct (find_from (S off) from r) as [p|].
      * destruct IH as (A & B & C & D & E). repeat split; try (cbn; lia); [|].
        -- replace (p - off) with (S (p - S off)) by lia. exact D.
        -- intros q Q1 Q2. destruct (Nat.eq_dec q off) as [->|]. rewrite Nat.sub_diag. reflexivity.
           replace (q - off) with (S (q - S off)) by lia. apply E; lia.
      * intros q Q1 Q2. destruct (Nat.eq_dec q off) as [->|]. rewrite Nat.sub_diag. reflexivity.
        replace (q - off) with (S (q - S off)) by lia. apply IH; lia.
    + specialize (IH (S off) from). destruct (find_from (S off) from r) as [p|].
      * destruct IH as (A & B & C & D & E). repeat split; try (cbn; lia); [|].
        -- replace (p - off) with (S (p - S off)) by lia. exact D.
        -- intros q Q1 Q2. replace (q - off) with (S (q - S off)) by lia. apply E; lia.
      * intros q Q1 Q2. replace (q - off) with (S (q - S off)) by lia. apply IH; lia.
Qed.

Lemma iterate_from s : forall fuel from, length s + 1 - from <= fuel -> 0 < fuel ->
  exists l, siterate fuel s (make_pos s (find_from 0 from s)) (length s) = Ok l /\
    StronglySorted lt l /\ (forall x, In x l <-> from <= x /\ mem s x = true).
Proof.
  induction fuel as [|k IH]; intros from Hf Hp; [lia|].
  pose proof (find_from_spec s 0 from) as F. destruct (find_from 0 from s) as [p|].
  - destruct F as (_ & B & C & D & E). rewrite Nat.sub_0_r in D. cbn [make_pos siterate].
    destruct (Nat.eqb_spec p (length s)); [lia|].
    destruct (IH (S p)) as (l & R & S1 & S2); try lia.
    unfold snext. rewrite R. cbn [bind].
    exists (p :: l). split; auto. split.
    + constructor; auto. apply Forall_forall. intros x Hx. apply S2 in Hx. lia.
    + intros x. cbn. rewrite S2. split.
      * intros [<-|[? ?]]; auto. split; auto. lia.
      * intros [Q1 Q2]. destruct (lt_eq_lt_dec p x) as [[|]|]; auto.
        exfalso. specialize (E x Q1). rewrite Nat.sub_0_r in E. rewrite E in Q2 by lia. discriminate.
  - cbn [make_pos siterate]. rewrite Nat.eqb_refl. exists []. split; auto. split. constructor.
    intros x. cbn. split; [tauto|]. intros [Q1 Q2]. specialize (F x Q1). rewrite Nat.sub_0_r in F.
    rewrite F in Q2 by lia. discriminate.
Qed.

Lemma elements_spec s : exists l, selements s = Ok l /\ lists (mem s) l.
Proof.
  destruct (iterate_from s (S (length s)) 0) as (l & R & A & B); try lia.
  exists l. split; auto. split; auto. intros x. rewrite B. intuition lia.
Qed.

Lemma empty_spec s : sempty s = true <-> forall x, mem s x = false.
Proof.
  unfold sempty, sbegin, send. pose proof (find_from_spec s 0 0) as F.
  rewrite Nat.eqb_eq. destruct (find_from 0 0 s) as [p|]; cbn [make_pos].
  - destruct F as (_ & B & C & D & E). rewrite Nat.sub_0_r in D. split; intros H; [lia|].
    rewrite H in D. discriminate.
  - split; auto. intros _ x. specialize (F x). rewrite Nat.sub_0_r in F. apply F; lia.
Qed.

Lemma ssize_app a b : ssize (a ++ b) = ssize a + ssize b.
Proof. unfold ssize. now rewrite filter_app, app_length. Qed.

Lemma size_filter s : ssize s = length (filter (mem s) (seq 0 (length s))).
Proof.
  induction s as [|b s IH] using rev_ind; auto.
  rewrite ssize_app, app_length. cbn [length]. rewrite seq_app, filter_app, app_length.
  f_equal.
  - rewrite IH. f_equal. apply filter_ext_in. intros x Hx. apply in_seq in Hx. unfold mem. rewrite app_nth1; auto. lia.
  - cbn. unfold mem. rewrite app_nth2, Nat.sub_diag by lia. cbn. destruct b; auto.
Qed.

Lemma sorted_filter_seq f a n : StronglySorted lt (filter f (seq a n)).
Proof.
  revert a. induction n; intros a; cbn. constructor.
  destruct (f a); auto. constructor; auto. apply Forall_forall. intros x Hx.
  apply filter_In in Hx as [Hx _]. apply in_seq in Hx. lia.
Qed.

Lemma size_spec s : exists l, lists (mem s) l /\ ssize s = length l.
Proof.
  exists (filter (mem s) (seq 0 (length s))). split; [|apply size_filter]. split. apply sorted_filter_seq.
  intros x. rewrite filter_In, in_seq. split; [tauto|]. intros H. split; auto.
  destruct (le_lt_dec (length s) x); [|lia]. rewrite mem_beyond in H; auto. discriminate.
Qed.

(** ** Histories *)

Definition agrees (st : sstate) (sp : mstate) : Prop := forall k x, mem (st k) x = sp k x.

Lemma agrees_put st sp k v w : agrees st sp -> (forall x, mem v x = w x) -> agrees (sput st k v) (mput sp k w).
Proof. intros A H j x. unfold sput, mput. destruct (j =? k); auto. Qed.

Lemma step_agrees o st sp : agrees st sp -> agrees (fst (sstep o st)) (mstep o sp).
Proof.
  intros A. destruct o; cbn [sstep mstep fst]; auto.
  - apply agrees_put; auto. intros x. unfold sof_list. rewrite mem_of_list.
    unfold mem, sempty_set. destruct x; now rewrite orb_false_r.
  - apply agrees_put; auto.
  - apply agrees_put; auto. intros y. now rewrite mem_insert, A.
  - apply agrees_put; auto. intros y. now rewrite mem_erase, A.
  - unfold seq_op. intros i x. pose proof (mem_align (st k) (st j) x) as [H1 H2].
    destruct (salign (st k) (st j)) as [a b]. cbn [fst snd] in *. unfold sput.
    destruct (Nat.eqb_spec i j); [subst; rewrite H2; auto|].
    destruct (Nat.eqb_spec i k); [subst; rewrite H1; auto|]. auto.
  - unfold sdisjoint. intros i x. pose proof (mem_align (st k) (st j) x) as [H1 H2].
    destruct (salign (st k) (st j)) as [a b]. cbn [fst snd] in *. unfold sput.
    destruct (Nat.eqb_spec i j); [subst; rewrite H2; auto|].
    destruct (Nat.eqb_spec i k); [subst; rewrite H1; auto|]. auto.
Qed.

Lemma lists_ext f g l : (forall x, f x = g x) -> lists f l -> lists g l.
Proof. intros E [A B]. split; auto. intros x. now rewrite <- E. Qed.

Lemma step_correct o st sp : agrees st sp -> correct o sp (snd (sstep o st)).
Proof.
  intros A. destruct o as [k items|k j|k x|k x|k x|k j|k j|k|k|k]; cbn [sstep snd correct]; auto.
  - rewrite contains_mem. apply A.
  - unfold seq_op. destruct (salign (st k) (st j)) as [a b] eqn:E. cbn [snd].
    pose proof (align_length (st k) (st j)) as L. pose proof (mem_align (st k) (st j)) as M.
    rewrite E in L, M. cbn [fst snd] in L, M. rewrite beq_bits_spec by auto. split.
    + intros H x. rewrite <- !A. destruct (M x) as [<- <-]. auto.
    + intros H x. destruct (M x) as [-> ->]. rewrite !A. auto.
  - unfold sdisjoint. destruct (salign (st k) (st j)) as [a b] eqn:E. cbn [snd].
    pose proof (mem_align (st k) (st j)) as M. rewrite E in M. cbn [fst snd] in M.
    rewrite negb_true_iff, <- not_true_iff_false, intersects_spec. split.
    + intros H x [X1 X2]. apply H. exists x. destruct (M x) as [-> ->]. rewrite !A. auto.
    + intros H (x & X1 & X2). apply (H x). rewrite <- !A. destruct (M x) as [<- <-]. auto.
  - rewrite empty_spec. split; intros H x; [rewrite <- A|rewrite A]; auto.
  - destruct (size_spec (st k)) as (l & L & E). exists l. split; auto. eapply lists_ext; eauto.
  - destruct (elements_spec (st k)) as (l & -> & L). eapply lists_ext; eauto.
Qed.

Lemma run_agrees os : forall st sp, agrees st sp -> agrees (srun os st) (mrun os sp).
Proof. induction os; cbn; intros; auto. apply IHos. now apply step_agrees. Qed.

Lemma agrees_init : agrees sinit minit.
Proof. intros k [|x]; reflexivity. Qed.

Lemma C06_history_lemma : forall os o, correct o (mrun os minit) (snd (sstep o (srun os sinit))).
Proof. intros. apply step_correct, run_agrees, agrees_init. Qed.

Lemma iterate_disjoint_diverges : forall fuel cur, (cur = 0 \/ cur = 3) ->
  siterate_disjoint fuel [true; false; false] [false; false; true] cur 1 = OutOfFuel.
Proof.
  induction fuel as [|k IH]; intros cur H; auto.
  destruct H as [-> | ->]; cbn [siterate_disjoint Nat.eqb]; cbn -[siterate_disjoint];
    rewrite IH; auto.
Qed.

Lemma C06_iteration_lemma : exists s r, selements s = Ok [0] /\
  forall fuel, siterate_disjoint fuel s r (sbegin s) (send s) = OutOfFuel.
Proof.
  exists [true], [false; false; true]. split; auto. intros [|fuel]; auto.
  cbn -[siterate_disjoint]. cbn [siterate_disjoint Nat.eqb]. cbn -[siterate_disjoint].
  rewrite iterate_disjoint_diverges; auto.
Qed.
