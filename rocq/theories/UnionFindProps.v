(** * Properties of union find *)
From Coq Require Import List Arith Lia Bool Relations.
From Verif Require Import Base UnionFind.
Import ListNotations.

(** ** Specification *)
Definition joined (l : list ucall) (x y : nat) : Prop := In (Join x y) l.
(** The equivalence closure of the joined pairs. *)
Definition connected (l : list ucall) : nat -> nat -> Prop := clos_refl_sym_trans nat (joined l).
Definition call_in (n : nat) (c : ucall) : Prop :=
  match c with Join i j | Equal i j => i < n /\ j < n | Representative i => i < n end.

(** ** Forests *)
Notation P st i := (nth i st 0).
Inductive reach (st : list nat) : nat -> nat -> nat -> Prop :=
| reach_root i : i < length st -> P st i = i -> reach st 0 i i
| reach_up k i r : i < length st -> P st i <> i -> reach st k (P st i) r -> reach st (S k) i r.
Definition forest (st : list nat) : Prop := forall i, i < length st -> exists k r, reach st k i r.

Lemma reach_lt st k i r : reach st k i r -> i < length st.
Proof. now destruct 1. Qed.
Lemma reach_top st k i r : reach st k i r -> r < length st /\ P st r = r.
Proof. induction 1; auto. Qed.
Lemma reach_det st k i r k' r' : reach st k i r -> reach st k' i r' -> k = k' /\ r = r'.
Proof.
  intros H. revert k' r'. induction H as [i Hi E|k i r Hi N H IH]; intros k' r' H'; inversion H'; subst; try contradiction; auto.
  destruct (IH _ _ H2) as [-> ->]. auto.
Qed.

(** The nodes on the way to the root. *)
Lemma reach_path st k i r : reach st k i r -> exists l, length l = S k /\ NoDup l /\ forall x, In x l -> x < length st /\ exists k', k' <= k /\ reach st k' x r.
Proof.
  induction 1 as [i Hi E|k i r Hi N H (l & L & D & F)].
  - exists [i]. split; auto. split; [constructor; [easy|constructor]|]. intros x [<-|[]]. split; auto. exists 0. split; auto. now constructor.
  - exists (i :: l). split; [cbn; lia|]. split.
    + constructor; auto. intros I. destruct (F i I) as (_ & k' & L' & R). destruct (reach_det st _ _ _ _ _ R (reach_up st k i r Hi N H)) as [-> _]. lia.
    + intros x [<-|I]; [split; auto; exists (S k); split; auto; now constructor|]. destruct (F x I) as (A & k' & L' & R). split; auto. exists k'. split; auto.
Qed.
Lemma reach_bound st k i r : reach st k i r -> k < length st.
Proof.
  intros H. destruct (reach_path st k i r H) as (l & L & D & F).
  assert (length l <= length (seq 0 (length st))) by (apply NoDup_incl_length; auto; intros x I; apply in_seq; destruct (F x I); lia). rewrite seq_length in *. lia.
Qed.

(** Two states with the same roots. *)
Definition same_roots (st st' : list nat) : Prop := length st' = length st /\ forall k j r, reach st k j r -> exists k', reach st' k' j r.
Lemma same_roots_trans st st' st'' : same_roots st st' -> same_roots st' st'' -> same_roots st st''.
Proof. intros [L H] [L' H']. split; [congruence|]. intros k j r R. destruct (H k j r R) as (k' & R'). eauto. Qed.

(** Moving a node below its root. *)
Lemma compress st k i r : reach st k i r -> i <> r -> same_roots st (upd st i r).
Proof.
  intros R N. assert (Hi := reach_lt _ _ _ _ R). destruct (reach_top _ _ _ _ R) as [Hr Er]. split; [apply upd_length|].
  assert (Lr : reach (upd st i r) 0 r r) by (constructor; [now rewrite upd_length|rewrite nth_upd_ne; auto]).
  assert (Li : reach (upd st i r) 1 i r). { constructor; [now rewrite upd_length|rewrite nth_upd_eq; auto|rewrite nth_upd_eq; auto]. }
  intros k' j r' R'. induction R' as [j Hj E|k' j r' Hj E R' (m & IH)].
  - destruct (Nat.eq_dec j i) as [->|Nj]. { exfalso. destruct (reach_det st _ _ _ _ _ R (reach_root st i Hj E)) as [_ ->]. now apply N. }
    exists 0. constructor; [now rewrite upd_length|rewrite nth_upd_ne; auto].
  - destruct (Nat.eq_dec j i) as [->|Nj]. { destruct (reach_det st _ _ _ _ _ R (reach_up st k' i r' Hj E R')) as [_ ->]. eauto. }
    exists (S m). constructor; [now rewrite upd_length|rewrite nth_upd_ne; auto|rewrite nth_upd_ne; auto].
Qed.

Lemma top_fuel_ok k : forall fuel st i r, reach st k i r -> k < fuel -> exists st', utop_fuel fuel st i = Ok (st', r) /\ same_roots st st'.
Proof.
  induction k as [|k IH]; intros [|fuel] st i r R L; try lia; assert (Hi := reach_lt _ _ _ _ R); cbn [utop_fuel]; rewrite (vget_nth st i 0) by auto; cbn [bind]; inversion R; subst.
  - match goal with H : P st _ = _ |- _ => rewrite H, Nat.eqb_refl end. exists st. split; auto. split; eauto.
  - destruct (Nat.eqb_spec (P st i) i) as [E|_]; [contradiction|].
    match goal with H : reach st k (P st i) r |- _ => rename H into Up end. destruct (IH fuel st (P st i) r Up) as (st' & -> & [Ls Sr]); [lia|]. cbn [bind]. rewrite vset_Ok by lia. cbn [bind].
    destruct (Sr _ _ _ R) as (k' & R'). exists (upd st' i r). split; auto. apply (same_roots_trans st st'); [split; auto|]. apply (compress st' k'); auto.
    intros ->. destruct (reach_top _ _ _ _ R). contradiction.
Qed.
Lemma top_ok st i : forest st -> i < length st -> exists k r st', reach st k i r /\ utop st i = Ok (st', r) /\ same_roots st st'.
Proof.
  intros F Hi. destruct (F i Hi) as (k & r & R). destruct (top_fuel_ok k (length st) st i r R (reach_bound _ _ _ _ R)) as (st' & E & S). exists k, r, st'. auto.
Qed.
Lemma same_forest st st' : forest st -> same_roots st st' -> forest st'.
Proof. intros F [L S] i Hi. rewrite L in Hi. destruct (F i Hi) as (k & r & R). destruct (S _ _ _ R) as (k' & R'). eauto. Qed.

(** Attaching a root to another one. *)
Lemma attach st x y : forest st -> x < length st -> P st x = x -> y < length st -> P st y = y ->
  forest (upd st x y) /\ forall k j r, reach st k j r -> exists k', reach (upd st x y) k' j (if r =? x then y else r).
Proof.
  intros F Hx Ex Hy Ey.
  assert (G : forall k j r, reach st k j r -> exists k', reach (upd st x y) k' j (if r =? x then y else r)).
  { destruct (Nat.eq_dec x y) as [->|N].
    { intros k j r R. exists k. assert (E : upd st y y = st). { apply nth_ext with 0 0; [apply upd_length|]. intros m Hm. rewrite nth_upd by auto. destruct (Nat.eqb_spec m y); congruence. }
      rewrite E. destruct (Nat.eqb_spec r y); subst; auto. }
    assert (Ly : reach (upd st x y) 0 y y) by (constructor; [now rewrite upd_length|rewrite nth_upd_ne; auto]).
    intros k j r R. induction R as [j Hj E|k j r Hj E R (m & IH)].
    - destruct (Nat.eqb_spec j x) as [->|Nj].
      + exists 1. constructor; [now rewrite upd_length|rewrite nth_upd_eq; auto|rewrite nth_upd_eq; auto].
      + exists 0. constructor; [now rewrite upd_length|rewrite nth_upd_ne; auto].
    - destruct (Nat.eq_dec j x) as [->|Nj]; [contradiction|]. exists (S m). constructor; [now rewrite upd_length|rewrite nth_upd_ne; auto|rewrite nth_upd_ne; auto]. }
  split; auto. intros i Hi. rewrite upd_length in Hi. destruct (F i Hi) as (k & r & R). destruct (G _ _ _ R) as (k' & R'). eauto.
Qed.

(** ** Histories *)
Definition root_of (st : list nat) (i r : nat) : Prop := exists k, reach st k i r.
Lemma root_of_det st i r r' : root_of st i r -> root_of st i r' -> r = r'.
Proof. intros [k R] [k' R']. now apply (reach_det st k i r k' r'). Qed.
Definition represents (n : nat) (st : list nat) (l : list ucall) : Prop :=
  length st = n /\ forest st /\ Forall (call_in n) l /\ forall i j ri rj, root_of st i ri -> root_of st j rj -> (ri = rj <-> connected l i j).

Lemma represents_same n st st' l : represents n st l -> same_roots st st' -> represents n st' l.
Proof.
  intros (L & F & I & R) S. split; [destruct S; congruence|]. split; [now apply (same_forest st)|]. split; auto. intros i j ri rj Ri Rj. destruct S as [Ls S].
  assert (T : forall i r, root_of st' i r -> root_of st i r).
  { intros x r X. assert (Hx : x < length st) by (destruct X as [k X]; apply reach_lt in X; lia). destruct (F x Hx) as (k & r' & Y). destruct (S _ _ _ Y) as (k' & Y').
    rewrite (root_of_det st' x r r'); auto; [now exists k|now exists k']. }
  apply R; auto.
Qed.

Lemma connected_cons c l i j : connected l i j -> connected (l ++ [c]) i j.
Proof. induction 1; [apply rst_step; unfold joined in *; rewrite in_app_iff; auto|apply rst_refl|now apply rst_sym|eapply rst_trans; eauto]. Qed.
Lemma connected_other c l i j : (forall a b, c <> Join a b) -> (connected (l ++ [c]) i j <-> connected l i j).
Proof.
  intros N. split; [|apply connected_cons]. induction 1 as [x y H| | |]; [|apply rst_refl|now apply rst_sym|eapply rst_trans; eauto].
  apply rst_step. unfold joined in *. apply in_app_iff in H as [H|[H|[]]]; auto. now apply N in H.
Qed.

Lemma step_ok n st l c : represents n st l -> call_in n c -> exists st', ustep st c = Ok st' /\ represents n st' (l ++ [c]).
Proof.
  intros R Hc. destruct c as [i j|i j|i]; cbn in Hc; cbn [ustep].
  - pose proof R as (L & F & _). unfold ujoin. destruct (top_ok st j F) as (k & y & st1 & Y & -> & S1); [lia|]. cbn [bind].
    assert (R1 := represents_same n st st1 l R S1). pose proof R1 as (L1 & F1 & _).
    destruct (top_ok st1 i F1) as (k' & x & st2 & X & -> & S2); [lia|]. cbn [bind].
    assert (R2 := represents_same n st1 st2 l R1 S2). pose proof R2 as (L2 & F2 & I2 & Q2).
    destruct S2 as [_ S2]. destruct S1 as [_ S1]. destruct (S2 _ _ _ X) as (kx & X2). destruct (S1 _ _ _ Y) as (ky & Y1). destruct (S2 _ _ _ Y1) as (ky' & Y2).
    destruct (reach_top _ _ _ _ X2) as [Hx Ex]. destruct (reach_top _ _ _ _ Y2) as [Hy Ey]. rewrite vset_Ok by auto.
    exists (upd st2 x y). split; auto. destruct (attach st2 x y F2 Hx Ex Hy Ey) as [F3 A]. split; [now rewrite upd_length|]. split; auto. split; [apply Forall_app; split; auto|].
    assert (B : forall a r, root_of (upd st2 x y) a r -> exists r0, root_of st2 a r0 /\ r = if r0 =? x then y else r0).
    { intros a r Ra. assert (Ha : a < length st2) by (destruct Ra as [m Ra]; apply reach_lt in Ra; now rewrite upd_length in Ra). destruct (F2 a Ha) as (m & r0 & R0).
      exists r0. split; [now exists m|]. destruct (A _ _ _ R0) as (m' & R0'). apply (root_of_det (upd st2 x y) a); auto. now exists m'. }
    assert (A' : forall a r, root_of st2 a r -> root_of (upd st2 x y) a (if r =? x then y else r)) by (intros a r [m Ra]; destruct (A _ _ _ Ra) as (m' & Ra'); now exists m').
    assert (Xi : root_of st2 i x) by now exists kx. assert (Yj : root_of st2 j y) by now exists ky'.
    intros a b ra rb Ra Rb. destruct (B a ra Ra) as (r & Ha & ->). destruct (B b rb Rb) as (r' & Hb & ->). split.
    + assert (Ij : connected (l ++ [Join i j]) i j) by (apply rst_step; unfold joined; rewrite in_app_iff; cbn; auto).
      assert (In1 : forall u v r, root_of st2 u r -> root_of st2 v r -> connected (l ++ [Join i j]) u v) by (intros u v w U V; apply connected_cons; now apply (Q2 u v w w U V)).
      destruct (Nat.eqb_spec r x) as [E1|N1]; destruct (Nat.eqb_spec r' x) as [E2|N2]; intros E.
      * rewrite E1 in Ha. rewrite E2 in Hb. eauto.
      * rewrite E1 in Ha. rewrite <- E in Hb. eapply rst_trans; [apply (In1 a i x); auto|]. eapply rst_trans; [exact Ij|]. apply (In1 j b y); auto.
      * rewrite E2 in Hb. rewrite E in Ha. eapply rst_trans; [apply (In1 a j y); auto|]. eapply rst_trans; [apply rst_sym; exact Ij|]. apply (In1 i b x); auto.
      * rewrite <- E in Hb. eauto.
    + (* everything that is connected has the same root *)
      intros C. assert (G : a = b \/ exists w, root_of (upd st2 x y) a w /\ root_of (upd st2 x y) b w).
      { clear Ra Rb r Ha r' Hb. induction C as [u v H|u|u v _ [->|(w & U & V)]|u v z _ [->|(w & U & V)] _ [->|(w' & U' & V')]]; eauto.
        - right. unfold joined in H. apply in_app_iff in H as [H|[[= <- <-]|[]]].
          + assert (Cuv : connected l u v) by now apply rst_step. rewrite Forall_forall in I2. destruct (I2 _ H) as [Hu Hv]. rewrite <- L2 in Hu, Hv.
            destruct (F2 u Hu) as (ku & ru & Ru). destruct (F2 v Hv) as (kv & rv & Rv). assert (Ru' : root_of st2 u ru) by now exists ku. assert (Rv' : root_of st2 v rv) by now exists kv.
            assert (ru = rv) by now apply (Q2 u v). subst rv. eauto.
          + exists y. split; [specialize (A' i x Xi); now rewrite Nat.eqb_refl in A'|]. specialize (A' j y Yj). destruct (Nat.eqb_spec y x); auto.
        - right. exists w'. rewrite (root_of_det _ _ _ _ V U') in U. auto. }
      specialize (A' a r Ha) as Qa. specialize (A' b r' Hb) as Qb.
      destruct G as [->|(w & U & V)]; [eapply root_of_det; eauto|]. rewrite (root_of_det _ _ _ _ Qa U). symmetry. eapply root_of_det; eauto.
  - pose proof R as (L & F & _). unfold uequal. destruct (top_ok st i F) as (k & y & st1 & Y & -> & S1); [lia|]. cbn [bind].
    assert (R1 := represents_same n st st1 l R S1). pose proof R1 as (L1 & F1 & _).
    destruct (top_ok st1 j F1) as (k' & x & st2 & X & -> & S2); [lia|]. cbn [bind]. exists st2. split; auto.
    assert (R2 := represents_same n st1 st2 l R1 S2). destruct R2 as (A & B & I & C). split; auto. split; auto. split; [apply Forall_app; split; auto|]. intros u v ru rv U V. rewrite connected_other by congruence. auto.
  - pose proof R as (L & F & _). unfold urepresentative. destruct (top_ok st i F) as (k & y & st1 & Y & -> & S1); [lia|]. cbn [bind]. exists st1. split; auto.
    destruct (represents_same n st st1 l R S1) as (A & B & I & C). split; auto. split; auto. split; [apply Forall_app; split; auto|]. intros u v ru rv U V. rewrite connected_other by congruence. auto.
Qed.

Lemma run_ok n l : forall st l0, represents n st l0 -> Forall (call_in n) l -> exists st', urun st l = Ok st' /\ represents n st' (l0 ++ l).
Proof.
  induction l as [|c l IH]; intros st l0 R H; cbn [urun]. { exists st. now rewrite app_nil_r. }
  apply Forall_cons_iff in H as [Hc H]. destruct (step_ok n st l0 c R Hc) as (st1 & -> & R1). cbn [bind]. destruct (IH st1 _ R1 H) as (st' & E & R'). exists st'. rewrite <- app_assoc in R'. auto.
Qed.
Lemma new_ok n : represents n (uf_new n) [].
Proof.
  assert (Q : forall i, i < n -> reach (uf_new n) 0 i i). { intros i Hi. unfold uf_new. constructor; [now rewrite seq_length|]. now rewrite seq_nth. }
  split; [apply seq_length|]. split; [intros i Hi; unfold uf_new in Hi; rewrite seq_length in Hi; eauto|]. split; [constructor|].
  assert (T : forall i r, root_of (uf_new n) i r -> r = i). { intros i r [k R]. assert (Hi := reach_lt _ _ _ _ R). unfold uf_new in Hi. rewrite seq_length in Hi. destruct (reach_det _ _ _ _ _ _ R (Q i Hi)); auto. }
  intros i j ri rj Ri Rj. apply T in Ri, Rj. subst. split; [intros ->; apply rst_refl|].
  induction 1 as [x y []| | |]; congruence.
Qed.

(** ** C39 *)
(** After any calls, [==] is the equivalence closure of the joined pairs. *)
Theorem C39_equal : forall n l, Forall (call_in n) l ->
  exists st, urun (uf_new n) l = Ok st /\ forall i j, i < n -> j < n -> exists st' b, uequal st i j = Ok (st', b) /\ (b = true <-> connected l i j).
Proof.
  intros n l H. destruct (run_ok n l _ [] (new_ok n) H) as (st & E & R). exists st. split; auto. intros i j Hi Hj. cbn [app] in R. pose proof R as (L & F & _).
  unfold uequal. destruct (top_ok st i F) as (k & x & st1 & X & -> & S1); [lia|]. cbn [bind]. destruct (represents_same n st st1 l R S1) as (L1 & F1 & _).
  destruct (top_ok st1 j F1) as (k' & y & st2 & Y & -> & S2); [lia|]. cbn [bind]. exists st2, (x =? y). split; auto. rewrite Nat.eqb_eq.
  destruct (represents_same n st st1 l R S1) as (_ & _ & _ & Q). destruct S1 as [_ S1]. destruct (S1 _ _ _ X) as (kx & X1). apply Q; [now exists kx|now exists k'].
Qed.
Print Assumptions C39_equal.

(** The representative is in the class, and the same for the entire class. *)
Theorem C39_representative : forall n l, Forall (call_in n) l ->
  exists st, urun (uf_new n) l = Ok st /\ forall i, i < n -> exists st' r, urepresentative st i = Ok (st', r) /\ r < n /\ connected l i r /\
    forall j, j < n -> exists st'' r', urepresentative st' j = Ok (st'', r') /\ (r' = r <-> connected l i j).
Proof.
  intros n l H. destruct (run_ok n l _ [] (new_ok n) H) as (st & E & R). exists st. split; auto. intros i Hi. cbn [app] in R. pose proof R as (L & F & _ & Q0).
  unfold urepresentative. destruct (top_ok st i F) as (k & x & st1 & X & -> & S1); [lia|]. exists st1, x. split; auto. destruct (reach_top _ _ _ _ X) as [Hx Ex].
  split; [lia|]. split. { apply (Q0 i x x x); auto; [now exists k|]. exists 0. now constructor. }
  intros j Hj. destruct (represents_same n st st1 l R S1) as (L1 & F1 & _ & Q). destruct (top_ok st1 j F1) as (k' & y & st2 & Y & -> & S2); [lia|]. exists st2, y. split; auto.
  destruct S1 as [_ S1]. destruct (S1 _ _ _ X) as (kx & X1). rewrite <- (Q i j x y); [split; auto|now exists kx|now exists k'].
Qed.
Print Assumptions C39_representative.

Definition uf_calls : list ucall := [Join 0 1; Join 2 3; Equal 0 2; Join 1 2; Representative 0; Join 4 5].
Example C39_ex : Forall (call_in 7) uf_calls /\ exists st, urun (uf_new 7) uf_calls = Ok st /\
  uequal st 0 3 = Ok ([3; 3; 3; 3; 5; 5; 6], true) /\ uequal st 0 4 = Ok ([3; 3; 3; 3; 5; 5; 6], false) /\ urepresentative st 4 = Ok (st, 5) /\
  connected uf_calls 0 3.
Proof.
  split; [repeat constructor|]. eexists. split; [reflexivity|]. split; [reflexivity|]. split; [reflexivity|]. split; [reflexivity|].
  unfold connected. apply rst_trans with 1; [apply rst_step; cbn; unfold joined, uf_calls; cbn; auto|]. apply rst_trans with 2; apply rst_step; unfold joined, uf_calls; cbn; auto.
Qed.
