(** * Flips preserve triangulations *)
From Coq Require Import List Arith Lia Bool Permutation.
From Verif Require Import Base HalfEdge HalfEdgeFacts Perm PermSpec PermFacts PermCycles PermLemmas
  IndexedSet IndexedSetSpec IndexedSetFacts Combinatorial CombinatorialSpec CombinatorialFacts.
Import ListNotations.

(** ** Orbits when two points are moved within the orbits of a permutation *)
Section orbits.
Variables (n : nat) (v v' : nat -> nat) (e e' a b c d nb nd nc na : nat).
Hypothesis va : v a = e'. Hypothesis ve' : v e' = nd. Hypothesis v'a : v' a = nd.
Hypothesis vc : v c = e. Hypothesis ve : v e = nb. Hypothesis v'c : v' c = nb.
Hypothesis vd : v d = nc. Hypothesis v'd : v' d = e. Hypothesis v'e : v' e = nc.
Hypothesis vb : v b = na. Hypothesis v'b : v' b = e'. Hypothesis v'e' : v' e' = na.
Hypothesis other : forall i, i < n -> i <> a -> i <> b -> i <> c -> i <> d -> i <> e -> i <> e' -> v' i = v i.
Hypothesis vlt : forall i, i < n -> v i < n.
Hypothesis v'lt : forall i, i < n -> v' i < n.
Hypothesis vinj : forall i j, i < n -> j < n -> v i = v j -> i = j.
Hypothesis an : a < n. Hypothesis bn : b < n. Hypothesis cn : c < n. Hypothesis dn : d < n.
Hypothesis en : e < n. Hypothesis e'n : e' < n.
Hypothesis Dn : ~ In nb [e; e'] /\ ~ In nd [e; e'] /\ ~ In nc [e; e'] /\ ~ In na [e; e'].

Definition orb (f : nat -> nat) x y := exists k, Nat.iter k f x = y.

Lemma orb_refl f x : orb f x x. Proof. now exists 0. Qed.
Lemma orb_step f x y : orb f (f x) y -> orb f x y.
Proof. intros (k & E). exists (S k). now rewrite iter_S'. Qed.
Lemma orb_trans f x y z : orb f x y -> orb f y z -> orb f x z.
Proof. intros (i & <-) (j & <-). exists (j + i). now rewrite iter_add. Qed.

Lemma orbits_fwd : forall k x y, x < n -> x <> e -> x <> e' -> Nat.iter k v x = y -> y <> e -> y <> e' -> orb v' x y.
Proof.
  assert (Lnd : nd < n) by (rewrite <- ve'; auto). assert (Lnb : nb < n) by (rewrite <- ve; auto).
  assert (Lnc : nc < n) by (rewrite <- vd; auto). assert (Lna : na < n) by (rewrite <- vb; auto).
  destruct Dn as (Q1 & Q2 & Q3 & Q4).
  assert (R : forall z, ~ In z [e; e'] -> z <> e /\ z <> e') by (cbn; intuition congruence).
  apply R in Q1 as [Q1 Q1'], Q2 as [Q2 Q2'], Q3 as [Q3 Q3'], Q4 as [Q4 Q4']. clear R Dn.
  induction k as [k IH] using lt_wf_ind. intros x y Hx Xe Xe' E Y1 Y2.
  destruct k as [|k]; [cbn in E; subst; apply orb_refl|].
  rewrite iter_S' in E.
  destruct (Nat.eq_dec x a) as [->|Na].
  { rewrite va in E. destruct k as [|k]; [cbn in E; congruence|]. rewrite iter_S', ve' in E.
    apply orb_step. rewrite v'a. apply (IH k); auto. }
  destruct (Nat.eq_dec x c) as [->|Nc].
  { rewrite vc in E. destruct k as [|k]; [cbn in E; congruence|]. rewrite iter_S', ve in E.
    apply orb_step. rewrite v'c. apply (IH k); auto. }
  destruct (Nat.eq_dec x d) as [->|Nd].
  { rewrite vd in E. apply orb_step. rewrite v'd. apply orb_step. rewrite v'e. apply (IH k); auto. }
  destruct (Nat.eq_dec x b) as [->|Nb].
  { rewrite vb in E. apply orb_step. rewrite v'b. apply orb_step. rewrite v'e'. apply (IH k); auto. }
  apply orb_step. rewrite other by auto. apply (IH k); auto.
  - intros E'. apply Nc. apply vinj; auto. congruence.
  - intros E'. apply Na. apply vinj; auto. congruence.
Qed.
End orbits.

Lemma orbits_same n v v' e e' a b c d nb nd nc na :
  v a = e' -> v e' = nd -> v' a = nd -> v c = e -> v e = nb -> v' c = nb ->
  v d = nc -> v' d = e -> v' e = nc -> v b = na -> v' b = e' -> v' e' = na ->
  (forall i, i < n -> i <> a -> i <> b -> i <> c -> i <> d -> i <> e -> i <> e' -> v' i = v i) ->
  (forall i, i < n -> v i < n) -> (forall i, i < n -> v' i < n) ->
  (forall i j, i < n -> j < n -> v i = v j -> i = j) ->
  (forall i j, i < n -> j < n -> v' i = v' j -> i = j) ->
  a < n -> b < n -> c < n -> d < n -> e < n -> e' < n ->
  NoDup [a; b; c; d; e; e'] ->
  (~ In nb [e; e'] /\ ~ In nd [e; e'] /\ ~ In nc [e; e'] /\ ~ In na [e; e']) ->
  forall x y, x < n -> x <> e -> x <> e' -> y <> e -> y <> e' -> (orb v x y <-> orb v' x y).
Proof.
  intros A1 A2 A3 A4 A5 A6 A7 A8 A9 A10 A11 A12 O L L' I I' an bn cn dn en e'n D Dn x y Hx X1 X2 Y1 Y2.
  split; intros (k & E).
  - apply (orbits_fwd n v v' e e' a b c d nb nd nc na) with k; auto.
  - apply (orbits_fwd n v' v e' e d c b a na nc nd nb) with k; auto.
    + intros. symmetry. auto.
    + cbn in *. intuition congruence.
Qed.

(** ** The structure of the flipped surface *)
Section flip.
Variables (n : nat) (t : tri) (e : nat).
Hypothesis W : well_formed n t.
Hypothesis Fl : flippable n t e.
Let a := nF t e. Let b := nF t a. Let c := nF t (neg e). Let d := nF t c.

Let D : NoDup [e; a; b; neg e; c; d]. Proof. apply (flip_six n t e W Fl). Qed.
Let an : a < n. Proof. apply (flip_six n t e W Fl). Qed.
Let bn : b < n. Proof. apply (flip_six n t e W Fl). Qed.
Let cn : c < n. Proof. apply (flip_six n t e W Fl). Qed.
Let dn : d < n. Proof. apply (flip_six n t e W Fl). Qed.
Let en : e < n. Proof. apply Fl. Qed.
Let ne : neg e < n. Proof. apply (flip_six n t e W Fl). Qed.
Let Fb : nF t b = e. Proof. apply (flip_six n t e W Fl). Qed.
Let Fd : nF t d = neg e. Proof. apply (flip_six n t e W Fl). Qed.
Let Fe : nF t e = a. Proof. reflexivity. Qed.
Let Fa : nF t a = b. Proof. reflexivity. Qed.
Let Fn : nF t (neg e) = c. Proof. reflexivity. Qed.
Let Fc : nF t c = d. Proof. reflexivity. Qed.
Let DD := nodup6 _ _ _ _ _ _ D.

Lemma old_V : nV t a = neg e /\ nV t b = neg a /\ nV t e = neg b /\ nV t c = e /\ nV t d = neg c /\ nV t (neg e) = neg d.
Proof.
  assert (lk : forall x, x < n -> nF t x <> x -> nV t x = neg (nF t (nF t x))) by (intros; eapply nV_link'; eauto).
  destruct DD as ((? & ? & ? & ? & ?) & (? & ? & ? & ?) & (? & ? & ?) & (? & ?) & ?).
  repeat split; (rewrite lk; [| |]); auto; rewrite ?Fa, ?Fb, ?Fc, ?Fd, ?Fe, ?Fn, ?neg_neg; auto.
Qed.

Definition in_six (i : nat) : Prop := i = e \/ i = a \/ i = b \/ i = neg e \/ i = c \/ i = d.

Lemma six_dec i : in_six i \/ ~ in_six i.
Proof.
  unfold in_six.
  destruct (Nat.eq_dec i e), (Nat.eq_dec i a), (Nat.eq_dec i b), (Nat.eq_dec i (neg e)), (Nat.eq_dec i c), (Nat.eq_dec i d); auto 10; right; tauto.
Qed.

Lemma six_F i : i < n -> in_six (nF t i) -> in_six i.
Proof.
  intros Hi S. unfold in_six in *.
  assert (I := nF_inj n t W).
  destruct S as [E|[E|[E|[E|[E|E]]]]].
  - right; right; left. apply I; auto. congruence.
  - left. apply I; auto.
  - right; left. apply I; auto.
  - do 5 right. apply I; auto. congruence.
  - do 3 right. left. apply I; auto.
  - do 4 right. left. apply I; auto.
Qed.

Lemma flip_F_six : flip_F t e a = neg e /\ flip_F t e (neg e) = d /\ flip_F t e d = a /\
  flip_F t e c = e /\ flip_F t e e = b /\ flip_F t e b = c.
Proof.
  unfold flip_F. fold a b c d. destruct DD as ((? & ? & ? & ? & ?) & (? & ? & ? & ?) & (? & ? & ?) & (? & ?) & ?).
  clearbody a b c d. repeat split; eqbs; congruence.
Qed.

Lemma flip_V_six : flip_V t e a = neg d /\ flip_V t e (neg e) = neg a /\ flip_V t e d = e /\
  flip_V t e c = neg b /\ flip_V t e e = neg c /\ flip_V t e b = neg e.
Proof.
  unfold flip_V. fold a b c d. destruct DD as ((? & ? & ? & ? & ?) & (? & ? & ? & ?) & (? & ? & ?) & (? & ?) & ?).
  clearbody a b c d. repeat split; eqbs; congruence.
Qed.

Lemma flip_F_other i : ~ in_six i -> flip_F t e i = nF t i.
Proof. unfold in_six, flip_F. fold a b c d. clearbody a b c d. intros. eqbs; tauto. Qed.

Lemma flip_V_other i : ~ in_six i -> flip_V t e i = nV t i.
Proof. unfold in_six, flip_V. fold a b c d. clearbody a b c d. intros. eqbs; tauto. Qed.

(** The cached vertices after the flip. *)
Variables (V2 : perm).
Hypothesis W2 : wfp n V2.
Hypothesis EV : forall i, i < n -> fw V2 i = flip_V t e i.

Lemma pre_b : ppre V2 (neg e) = Ok b.
Proof.
  rewrite (ppre_Ok n) by (auto; apply W2). f_equal. apply (fw_inj _ _ W2); auto.
  - now apply (bw_lt _ _ W2).
  - rewrite (fw_bw _ _ W2), EV by auto. symmetry. apply flip_V_six.
Qed.
Lemma pre_d : ppre V2 e = Ok d.
Proof.
  rewrite (ppre_Ok n) by (auto; apply W2). f_equal. apply (fw_inj _ _ W2); auto.
  - now apply (bw_lt _ _ W2).
  - rewrite (fw_bw _ _ W2), EV by auto. symmetry. apply flip_V_six.
Qed.

(** Where a half edge is recorded after the flip. *)
Definition moved (x : nat) : nat := if x =? e then d else if x =? neg e then b else x.

Lemma after_flip_Ok i : i < length (tverts t) ->
  exists s', after_flip V2 e (nth i (tverts t) []) = Ok s' /\
    forall x, scontains s' x = scontains (nth i (tverts t) []) (moved x).
Proof.
  intros Hi. destruct (wf_vertices _ _ W) as (X1 & X2 & X3 & X4).
  set (s := nth i (tverts t) []) in *.
  assert (L : forall x, x < n -> scontains s (nV t x) = true <-> scontains s x = true).
  { intros x Hx. destruct (wfV _ _ W) as (_ & _ & B).
    assert (S1 : same_vertex t x (nV t x)) by (exists 1; auto).
    assert (S2 : same_vertex t (nV t x) x).
    { apply (same_iter_sym n (nV t) (bw (tV t))); auto. }
    split; intros Q; eapply X4; eauto; split; try split; auto; eapply nV_lt; eauto. }
  destruct old_V as (V_a & V_b & V_e & V_c & V_d & V_n).
  assert (Le : scontains s (neg b) = scontains s e).
  { apply eq_true_iff_eq. rewrite <- V_e. auto. }
  assert (Ln : scontains s (neg d) = scontains s (neg e)).
  { apply eq_true_iff_eq. rewrite <- V_n. auto. }
  unfold after_flip. rewrite pre_b, pre_d. cbn [bind]. eexists. split; [reflexivity|].
  destruct DD as ((? & ? & ? & ? & ?) & (? & ? & ? & ?) & (? & ? & ?) & (? & ?) & ?).
  assert (nbe : neg b <> e) by (intros E; apply (f_equal neg) in E; rewrite neg_neg in E; auto).
  assert (nbn : neg b <> neg e) by (intros E; apply neg_inj in E; auto).
  assert (nde : neg d <> e) by (intros E; apply (f_equal neg) in E; rewrite neg_neg in E; auto).
  assert (ndn : neg d <> neg e) by (intros E; apply neg_inj in E; auto).
  set (s1 := if scontains s (neg b) then serase s e else s).
  assert (M1 : forall x, scontains s1 x = if x =? e then false else scontains s x).
  { intros x. unfold s1. rewrite Le. destruct (scontains s e) eqn:Q.
    - rewrite !contains_mem, mem_erase. destruct (x =? e); auto.
    - destruct (Nat.eqb_spec x e) as [->|]; auto. }
  set (s2 := if scontains s1 (neg d) then serase s1 (neg e) else s1).
  assert (M2 : forall x, scontains s2 x = if x =? neg e then false else if x =? e then false else scontains s x).
  { intros x. unfold s2. assert (scontains s1 (neg d) = scontains s (neg e)) as ->.
    { rewrite M1, <- Ln. destruct (Nat.eqb_spec (neg d) e); congruence. }
    destruct (scontains s (neg e)) eqn:Q.
    - rewrite contains_mem, mem_erase, <- contains_mem, M1. destruct (x =? neg e); auto.
    - rewrite M1. destruct (Nat.eqb_spec x (neg e)) as [->|]; auto. destruct (neg e =? e); auto. }
  set (s3 := if scontains s2 b then sinsert s2 (neg e) else s2).
  assert (M3 : forall x, scontains s3 x = if x =? neg e then scontains s b else if x =? e then false else scontains s x).
  { intros x. unfold s3. assert (scontains s2 b = scontains s b) as ->.
    { rewrite M2. destruct (Nat.eqb_spec b (neg e)), (Nat.eqb_spec b e); congruence. }
    destruct (scontains s b) eqn:Q.
    - rewrite contains_mem, mem_insert, <- contains_mem, M2. destruct (x =? neg e); auto.
    - rewrite M2. destruct (Nat.eqb_spec x (neg e)); auto. }
  set (s4 := if scontains s3 d then sinsert s3 e else s3).
  assert (M4 : forall x, scontains s4 x = scontains s (moved x)).
  { intros x. unfold s4, moved. assert (scontains s3 d = scontains s d) as ->.
    { rewrite M3. destruct (Nat.eqb_spec d (neg e)), (Nat.eqb_spec d e); congruence. }
    destruct (scontains s d) eqn:Q.
    - rewrite contains_mem, mem_insert, <- contains_mem, M3.
      destruct (Nat.eqb_spec x e); cbn [orb]; auto. destruct (x =? neg e); auto.
    - rewrite M3. destruct (Nat.eqb_spec x e) as [->|]; auto. destruct (Nat.eqb_spec e (neg e)); auto; congruence.
      destruct (x =? neg e); auto. }
  exact M4.
Qed.

Lemma moved_spec x : x < n -> moved x < n /\ moved x <> e /\ moved x <> neg e.
Proof.
  intros Hx. unfold moved. destruct DD as ((? & ? & ? & ? & ?) & (? & ? & ? & ?) & (? & ? & ?) & (? & ?) & ?).
  destruct (Nat.eqb_spec x e), (Nat.eqb_spec x (neg e)); auto.
Qed.

Lemma orb_V2 x y : x < n -> y < n -> x <> e -> x <> neg e -> y <> e -> y <> neg e ->
  (orb (nV t) x y <-> orb (fw V2) x y).
Proof.
  intros. destruct old_V as (V_a & V_b & V_e & V_c & V_d & V_n).
  destruct flip_V_six as (U_a & U_n & U_d & U_c & U_e & U_b).
  rewrite <- EV in U_a, U_n, U_d, U_c, U_e, U_b by auto.
  destruct DD as ((? & ? & ? & ? & ?) & (? & ? & ? & ?) & (? & ? & ?) & (? & ?) & ?).
  apply (orbits_same n (nV t) (fw V2) e (neg e) a b c d (neg b) (neg d) (neg c) (neg a)); auto.
  - intros. rewrite EV by auto. apply flip_V_other. unfold in_six. tauto.
  - intros. eapply nV_lt; eauto.
  - intros. now apply (fw_lt _ _ W2).
  - intros. eapply nV_inj; eauto.
  - intros. eapply (fw_inj _ _ W2); eauto.
  - apply nodup6_intro; auto 10.
  - assert (X : forall z, z <> e -> z <> neg e -> ~ In (neg z) [e; neg e]).
    { intros z Z1 Z2 [E|[E|[]]].
      - apply Z2. rewrite E. now rewrite neg_neg.
      - apply Z1. symmetry. now apply neg_inj. }
    repeat split; apply X; auto.
Qed.

Lemma orb_moved x : x < n -> orb (fw V2) (moved x) x.
Proof.
  intros Hx. unfold moved. destruct flip_V_six as (U_a & U_n & U_d & U_c & U_e & U_b).
  rewrite <- EV in U_a, U_n, U_d, U_c, U_e, U_b by auto.
  destruct (Nat.eqb_spec x e) as [->|]; [exists 1; auto|]. destruct (Nat.eqb_spec x (neg e)) as [->|]; [exists 1; auto|].
  apply orb_refl.
Qed.

Lemma flip_vertices F2 vs : omap (after_flip V2 e) (tverts t) = Ok vs -> vertices_correct n (mkTri V2 F2 vs).
Proof.
  intros H. pose proof (omap_Ok _ _ _ H) as F. assert (L : length vs = length (tverts t)).
  { clear - F. induction F; cbn; auto. }
  assert (M : forall i, i < length vs -> forall x, scontains (nth i vs []) x = scontains (nth i (tverts t) []) (moved x)).
  { intros i Hi. rewrite L in Hi. destruct (after_flip_Ok i Hi) as (s' & E & Q).
    assert (after_flip V2 e (nth i (tverts t) []) = Ok (nth i vs [])).
    { clear - F Hi. revert i Hi. induction F; cbn; intros [|i] Hi; auto; try lia. apply IHF. lia. }
    congruence. }
  destruct (wf_vertices _ _ W) as (X1 & X2 & X3 & X4).
  pose proof W2 as (_ & _ & B2).
  unfold vertices_correct. cbn [tverts]. split; [|split; [|split]].
  - intros x Hx. destruct (moved_spec x Hx) as (Q1 & _). destruct (X1 _ Q1) as (i & Hi & Q).
    exists i. rewrite L. split; auto. rewrite M by (rewrite L; auto). auto.
  - intros i Hi. rewrite L in Hi. destruct (X2 i Hi) as (x & Hx & Q).
    destruct old_V as (V_a & V_b & V_e & V_c & V_d & V_n).
    assert (G : exists y, y < n /\ y <> e /\ y <> neg e /\ scontains (nth i (tverts t) []) y = true).
    { destruct DD as ((? & ? & ? & ? & ?) & (? & ? & ? & ?) & (? & ? & ?) & (? & ?) & ?).
      destruct (Nat.eq_dec x e) as [->|]; [|destruct (Nat.eq_dec x (neg e)) as [->|]].
      - exists (neg b). split; [eapply neg_ltn; eauto|]. split; [intros E; apply (f_equal neg) in E; rewrite neg_neg in E; auto|].
        split; [intros E; apply neg_inj in E; auto|].
        apply (X4 i e); auto. split; auto. split; [eapply neg_ltn; eauto|]. exists 1. auto.
      - exists (neg d). split; [eapply neg_ltn; eauto|]. split; [intros E; apply (f_equal neg) in E; rewrite neg_neg in E; auto|].
        split; [intros E; apply neg_inj in E; auto|].
        apply (X4 i (neg e)); auto. split; auto. split; [eapply neg_ltn; eauto|]. exists 1. auto.
      - exists x. auto. }
    destruct G as (y & Hy & Y1 & Y2 & Y). exists y. split; auto. rewrite M by (rewrite L; auto).
    unfold moved. destruct (Nat.eqb_spec y e), (Nat.eqb_spec y (neg e)); auto; contradiction.
  - intros i j x Hi Hj Q1 Q2. rewrite M in Q1, Q2 by auto. rewrite L in Hi, Hj. eauto.
  - intros i x y Hi Q. rewrite M in Q by auto. rewrite M by auto. rewrite L in Hi.
    assert (Hx : x < n).
    { assert (Hm : moved x < n). { apply (X4 i (moved x) (moved x)); auto. }
      unfold moved in Hm. destruct (Nat.eqb_spec x e) as [->|]; auto. destruct (Nat.eqb_spec x (neg e)) as [->|]; auto. }
    rewrite (X4 i (moved x)) by auto. destruct (moved_spec x Hx) as (M1 & M2 & M3).
    unfold same_vertex. change (nV (mkTri V2 F2 vs)) with (fw V2).
    split.
    + intros (_ & Hm & O).
      assert (Hy : y < n). { unfold moved in Hm. destruct (Nat.eqb_spec y e) as [->|]; auto. destruct (Nat.eqb_spec y (neg e)) as [->|]; auto. }
      split; auto. split; auto. destruct (moved_spec y Hy) as (N1 & N2 & N3).
      apply orb_trans with (moved x). { apply (same_iter_sym n (fw V2) (bw V2)); auto. now apply orb_moved. }
      apply orb_trans with (moved y); [|now apply orb_moved]. apply orb_V2; auto.
    + intros (_ & Hy & O). destruct (moved_spec y Hy) as (N1 & N2 & N3). split; auto. split; auto.
      apply orb_V2; auto. apply orb_trans with x; [now apply orb_moved|].
      apply orb_trans with y; auto. apply (same_iter_sym n (fw V2) (bw V2)); auto. now apply orb_moved.
Qed.

End flip.

Lemma omap_total {A B} (f : A -> outcome B) l : (forall x, In x l -> exists y, f x = Ok y) -> exists r, omap f l = Ok r.
Proof.
  induction l as [|x l IH]; cbn; intros H; [eauto|].
  destruct (H x) as (y & ->); auto. destruct IH as (r & ->); auto. cbn. eauto.
Qed.

Theorem flip_Ok n t e : well_formed n t -> flippable n t e ->
  exists t', flip t e = (t', Ok tt) /\ well_formed n t' /\
    (forall i, i < n -> nF t' i = flip_F t e i) /\ (forall i, i < n -> nV t' i = flip_V t e i).
Proof.
  intros W Fl. destruct (flip_perms n t e W Fl) as (V1 & V2 & F1 & F2 & E1 & E2 & E3 & E4 & W2 & WF2 & EF & EV).
  destruct (flip_six n t e W Fl) as (D & Ha & Hb & Hc & Hd & Hn & Fb & Fd). pose proof Fl as (He & _).
  set (a := nF t e) in *. set (b := nF t a) in *. set (c := nF t (neg e)) in *. set (d := nF t c) in *.
  assert (T : exists vs, omap (after_flip V2 e) (tverts t) = Ok vs).
  { apply omap_total. intros s Hs. apply In_nth with (d := []) in Hs as (i & Hi & <-).
    destruct (after_flip_Ok n t e W Fl V2 W2 EV i Hi) as (s' & E & _). eauto. }
  destruct T as (vs & Hvs).
  exists (mkTri V2 F2 vs). split; [|split; [|split]].
  - unfold flip, nextInFace. pose proof (fwd_len _ _ (wfF _ _ W)) as L.
    assert (Pa : papp (tF t) e = Ok a) by (now rewrite (papp_Ok n)).
    assert (Pb : papp (tF t) a = Ok b) by (now rewrite (papp_Ok n)).
    assert (Pc : papp (tF t) (neg e) = Ok c) by (now rewrite (papp_Ok n)).
    assert (Pd : papp (tF t) c = Ok d) by (now rewrite (papp_Ok n)).
    rewrite Pa. cbn [bind]. rewrite Pb. cbn [bind]. rewrite Pc. cbn [bind]. rewrite Pd. cbn [bind].
    rewrite E1, E2, E3, E4, Hvs. reflexivity.
  - destruct (flip_F_six n t e W Fl) as (U1 & U2 & U3 & U4 & U5 & U6).
    destruct (flip_V_six n t e W Fl) as (Y1 & Y2 & Y3 & Y4 & Y5 & Y6).
    fold a b c d in U1, U2, U3, U4, U5, U6, Y1, Y2, Y3, Y4, Y5, Y6.
    assert (FO : forall i, ~ in_six t e i -> flip_F t e i = nF t i) by (apply (flip_F_other n); auto).
    assert (VO : forall i, ~ in_six t e i -> flip_V t e i = nV t i) by (apply (flip_V_other n); auto).
    assert (SF : forall i, i < n -> in_six t e (nF t i) -> in_six t e i) by (intros; eapply six_F; eauto).
    constructor.
    + apply W.
    + now apply wfp_is_perm.
    + now apply wfp_is_perm.
    + intros i Hi. change (nF (mkTri V2 F2 vs)) with (fw F2).
      destruct (six_dec n t e W Fl i) as [S|S].
      * destruct S as [->|[->|[->|[->|[->| ->]]]]]; fold a b c d;
          rewrite (EF e), ?(EF a), ?(EF b), ?(EF c), ?(EF d), ?(EF (neg e)) || rewrite ?(EF a), ?(EF b), ?(EF c), ?(EF d), ?(EF (neg e)) ;
          auto; rewrite ?U1, ?U2, ?U3, ?U4, ?U5, ?U6;
          rewrite ?(EF a), ?(EF b), ?(EF c), ?(EF d), ?(EF e), ?(EF (neg e)) by auto; rewrite ?U1, ?U2, ?U3, ?U4, ?U5, ?U6;
          rewrite ?(EF a), ?(EF b), ?(EF c), ?(EF d), ?(EF e), ?(EF (neg e)) by auto; rewrite ?U1, ?U2, ?U3, ?U4, ?U5, ?U6; auto.
      * assert (H1 := nF_lt n t W i Hi). assert (H2 := nF_lt n t W _ H1).
        assert (S1 : ~ in_six t e (nF t i)) by auto. assert (S2 : ~ in_six t e (nF t (nF t i))) by auto.
        rewrite (EF i), (FO i) by auto. rewrite (EF (nF t i)), (FO (nF t i)) by auto. rewrite EF, FO by auto.
        apply (wf_triangle _ _ W); auto.
    + intros i Hi. change (nF (mkTri V2 F2 vs)) with (fw F2). change (nV (mkTri V2 F2 vs)) with (fw V2).
      rewrite EV by auto.
      destruct (six_dec n t e W Fl i) as [S|S].
      * intros _. destruct S as [->|[->|[->|[->|[->| ->]]]]]; fold a b c d;
          rewrite ?Y1, ?Y2, ?Y3, ?Y4, ?Y5, ?Y6; rewrite ?neg_neg; rewrite EF by auto;
          rewrite ?U1, ?U2, ?U3, ?U4, ?U5, ?U6; auto.
      * rewrite EF, FO, VO by auto. intros N. pose proof (wf_link _ _ W i Hi N) as Lk.
        assert (Hy : neg (nV t i) < n) by (eapply neg_ltn; eauto; eapply nV_lt; eauto).
        assert (Sy : ~ in_six t e (neg (nV t i))).
        { intros S'. apply S. rewrite <- Lk. unfold in_six in S' |- *. fold a b c d in S' |- *.
          destruct S' as [->|[->|[->|[->|[->| ->]]]]]; rewrite ?Fb, ?Fd; auto 10. }
        rewrite EF, FO by auto. auto.
    + eapply flip_vertices; eauto.
  - intros i Hi. apply EF; auto.
  - intros i Hi. apply EV; auto.
Qed.
