(** * Histories of flips *)
From Coq Require Import List Arith Lia Bool Permutation.
From Verif Require Import Base HalfEdge HalfEdgeFacts Perm PermSpec PermFacts PermCycles PermLemmas
  IndexedSet IndexedSetSpec IndexedSetFacts Combinatorial CombinatorialSpec CombinatorialFacts CombinatorialFlip.
Import ListNotations.

Lemma distinct_two c x y : In x c -> In y c -> x <> y -> 1 < distinct c.
Proof.
  intros X Y N. destruct (le_lt_dec (distinct c) 1) as [L|]; auto.
  exfalso. apply N. eapply distinct_le1_const; eauto.
Qed.

Lemma rmul_dup3 p x y z : (x = y \/ x = z \/ y = z) -> (x <> y \/ x <> z \/ y <> z) -> rmul_cycle p [x; y; z] = Throw.
Proof.
  intros E N. apply rmul_cycle_Throw.
  - destruct N as [N|[N|N]]; eapply distinct_two; eauto; cbn; auto.
  - intros ND. apply NoDup_cons_iff in ND as [N1 ND]. apply NoDup_cons_iff in ND as [N2 _]. cbn in *. intuition.
Qed.

Lemma flippable_dec n t e : flippable n t e \/ ~ flippable n t e.
Proof.
  unfold flippable. destruct (lt_dec e n), (Nat.eq_dec (nF t e) e), (Nat.eq_dec (nF t (neg e)) (neg e)),
    (Nat.eq_dec (nF t e) (neg e)), (Nat.eq_dec (nF t (nF t e)) (neg e)); try (right; tauto); left; auto.
Qed.

(** A flip that is not possible is rejected; the surface is unchanged unless
    only [-e] is at the boundary. *)
Lemma flip_rejected n t e : well_formed n t -> e < n -> ~ flippable n t e ->
  exists t', flip t e = (t', Throw) /\ ((nF t e = e \/ nF t (neg e) <> neg e) -> t' = t).
Proof.
  intros W He NF. pose proof (neg_ltn _ _ W _ He) as Hn.
  assert (Ha := nF_lt _ _ W _ He). assert (Hb := nF_lt _ _ W _ Ha).
  assert (Hc := nF_lt _ _ W _ Hn). assert (Hd := nF_lt _ _ W _ Hc).
  pose proof (fwd_len _ _ (wfF _ _ W)) as L.
  set (a := nF t e) in *. set (b := nF t a) in *. set (c := nF t (neg e)) in *. set (d := nF t c) in *.
  assert (P : (do a <- nextInFace t e; do b <- nextInFace t a;
         do c <- nextInFace t (neg e); do d <- nextInFace t c; Ok (a, b, c, d)) = Ok (a, b, c, d)).
  { unfold nextInFace. assert (Pa : papp (tF t) e = Ok a) by (now rewrite (papp_Ok n)).
    assert (Pb : papp (tF t) a = Ok b) by (now rewrite (papp_Ok n)).
    assert (Pc : papp (tF t) (neg e) = Ok c) by (now rewrite (papp_Ok n)).
    assert (Pd : papp (tF t) c = Ok d) by (now rewrite (papp_Ok n)).
    rewrite Pa. cbn [bind]. rewrite Pb. cbn [bind]. rewrite Pc. cbn [bind]. rewrite Pd. reflexivity. }
  unfold flip. rewrite P.
  pose proof (neg_ne e) as Ne.
  destruct (Nat.eq_dec a e) as [Ea|Ea].
  { assert (Eb : b = e) by (unfold b; now rewrite Ea).
    rewrite rmul_dup3 by intuition congruence. cbn [stop]. eauto. }
  destruct (Nat.eq_dec a (neg e)) as [Ea'|Ea'].
  { assert (b <> a). { intros E. apply Ea. apply (nF_inj _ _ W); auto. }
    rewrite rmul_dup3 by intuition congruence. cbn [stop]. eauto. }
  destruct (Nat.eq_dec b (neg e)) as [Eb|Eb].
  { rewrite rmul_dup3 by intuition congruence. cbn [stop]. eauto. }
  destruct (Nat.eq_dec c (neg e)) as [Ec|Ec].
  2: { exfalso. apply NF. repeat split; auto. }
  assert (Ed : d = neg e) by (unfold d; now rewrite Ec).
  assert (b <> a). { intros E. apply Ea. apply (nF_inj _ _ W); auto. }
  destruct (rmul_cycle_Ok n (tV t) [b; a; neg e] (wfV _ _ W)) as (V1 & E1 & W1 & G1).
  { cbn. intuition congruence. } { left. apply nodup3_intro; auto. }
  rewrite E1, rmul_dup3 by intuition congruence. cbn [stop]. eexists. split; [reflexivity|].
  intros [X|X]; [|contradiction]. contradiction.
Qed.

Lemma flip_Ok_iff n t e : well_formed n t -> e < n -> (exists t', flip t e = (t', Ok tt)) <-> flippable n t e.
Proof.
  intros W He. split.
  - intros (t' & E). destruct (flippable_dec n t e) as [|N]; auto.
    destruct (flip_rejected n t e W He N) as (t'' & E' & _). congruence.
  - intros F. destruct (flip_Ok n t e W F) as (t' & E & _). eauto.
Qed.

Lemma flip_spec n t e t' : well_formed n t -> e < n -> flip t e = (t', Ok tt) ->
  flippable n t e /\ well_formed n t' /\
  (forall i, i < n -> nF t' i = flip_F t e i) /\ (forall i, i < n -> nV t' i = flip_V t e i).
Proof.
  intros W He E. assert (F : flippable n t e) by (apply flip_Ok_iff; eauto). split; auto.
  destruct (flip_Ok n t e W F) as (t'' & E' & Q). rewrite E in E'. inv E'. auto.
Qed.

Lemma flips_wf n es : forall t t', well_formed n t -> (forall e, In e es -> e < n) -> flips t es = (t', Ok tt) ->
  well_formed n t'.
Proof.
  induction es as [|e r IH]; cbn [flips]; intros t t' W H E.
  - now inv E.
  - destruct (flip t e) as [t1 o] eqn:F. destruct o as [[]| | |]; try discriminate.
    apply IH with t1; auto with datatypes. eapply flip_spec; eauto with datatypes.
Qed.

Lemma flip_size t e t' n : well_formed n t -> flip t e = (t', Ok tt) -> well_formed n t' -> tsize t' = tsize t.
Proof.
  intros W _ W'. unfold tsize, psize. rewrite (fwd_len _ _ (wfV _ _ W)), (fwd_len _ _ (wfV _ _ W')). auto.
Qed.

(** ** Four flips *)

Lemma in_six_iff t e i : in_six t e i <-> In i [e; nF t e; nF t (nF t e); neg e; nF t (neg e); nF t (nF t (neg e))].
Proof. unfold in_six. cbn. intuition congruence. Qed.

Lemma flip_again n t e t' : well_formed n t -> e < n -> flip t e = (t', Ok tt) ->
  flippable n t' e /\ nF t' e = nF t (nF t e) /\ nF t' (nF t' e) = nF t (neg e) /\
  nF t' (neg e) = nF t (nF t (neg e)) /\ nF t' (nF t' (neg e)) = nF t e /\
  (forall i, in_six t' e i <-> in_six t e i) /\
  (forall i, i < n -> ~ in_six t e i -> nF t' i = nF t i).
Proof.
  intros W He E. destruct (flip_spec n t e t' W He E) as (F & W' & EF & EV).
  destruct (flip_six n t e W F) as (D & Ha & Hb & Hc & Hd & Hn & _).
  destruct (flip_F_six n t e W F) as (U1 & U2 & U3 & U4 & U5 & U6).
  rewrite <- EF in U1, U2, U3, U4, U5, U6 by auto.
  apply nodup6 in D. destruct D as ((? & ? & ? & ? & ?) & (? & ? & ? & ?) & (? & ? & ?) & (? & ?) & ?).
  assert (F' : flippable n t' e).
  { unfold flippable. rewrite U5, U2, U6. intuition congruence. }
  split; auto. rewrite U5, U6, U2, U3. do 4 (split; [auto|]). split.
  - intros i. rewrite !in_six_iff. rewrite U5, U6, U2, U3. cbn. tauto.
  - intros i Hi S. rewrite EF by auto. eapply flip_F_other; eauto.
Qed.

Notation swap2 := exchange.

Lemma V_of_F n t t' : well_formed n t -> well_formed n t' -> (forall i, i < n -> nF t' i = nF t i) ->
  (forall i, i < n -> nF t i = i -> nV t' i = nV t i) -> tV t' = tV t.
Proof.
  intros W W' E B. apply (wfp_ext n); try (eapply wfV; eauto).
  intros i Hi. change (nV t' i = nV t i). destruct (Nat.eq_dec (nF t i) i); auto.
  rewrite (nV_link' n t' W'), (nV_link' n t W); auto.
  - rewrite (E i), E; auto. eapply nF_lt; eauto.
  - rewrite E; auto.
Qed.

Lemma flip_boundary n t e t' : well_formed n t -> e < n -> flip t e = (t', Ok tt) ->
  forall i, i < n -> (nF t' i = i <-> nF t i = i) /\ (nF t i = i -> nV t' i = nV t i).
Proof.
  intros W He E i Hi. destruct (flip_spec n t e t' W He E) as (F & W' & EF & EV).
  destruct (flip_six n t e W F) as (D & Ha & Hb & Hc & Hd & Hn & Fb & Fd).
  apply nodup6 in D. destruct D as ((? & ? & ? & ? & ?) & (? & ? & ? & ?) & (? & ? & ?) & (? & ?) & ?).
  destruct (six_dec n t e W F i) as [S|S].
  - destruct (flip_F_six n t e W F) as (U1 & U2 & U3 & U4 & U5 & U6).
    rewrite <- EF in U1, U2, U3, U4, U5, U6 by auto.
    assert (N1 : nF t i <> i) by (destruct S as [->|[->|[->|[->|[->| ->]]]]]; congruence).
    assert (N2 : nF t' i <> i) by (destruct S as [->|[->|[->|[->|[->| ->]]]]]; congruence).
    tauto.
  - rewrite EF, EV, (flip_F_other n t e W F), (flip_V_other n t e W F) by auto. tauto.
Qed.

Lemma flip_2 n t e t1 t2 : well_formed n t -> e < n -> flip t e = (t1, Ok tt) -> flip t1 e = (t2, Ok tt) ->
  forall i, i < n -> nF t2 (swap2 e (neg e) i) = swap2 e (neg e) (nF t i).
Proof.
  intros W He E1 E2 i Hi.
  destruct (flip_spec n t e t1 W He E1) as (F1 & W1 & _).
  destruct (flip_again n t e t1 W He E1) as (_ & A1 & A2 & A3 & A4 & A5 & A6).
  destruct (flip_again n t1 e t2 W1 He E2) as (_ & B1 & B2 & B3 & B4 & B5 & B6).
  destruct (flip_spec n t1 e t2 W1 He E2) as (_ & W2 & _).
  destruct (flip_six n t e W F1) as (D & Ha & Hb & Hc & Hd & Hn & Fb & Fd).
  apply nodup6 in D. destruct D as ((? & ? & ? & ? & ?) & (? & ? & ? & ?) & (? & ? & ?) & (? & ?) & ?).
  pose proof (wf_triangle _ _ W2 e He) as T1. pose proof (wf_triangle _ _ W2 _ Hn) as T2.
  rewrite B2, A3 in T1. rewrite B4, A1 in T2. rewrite A2 in B1. rewrite A4 in B3.
  rewrite B1, A3 in B2. rewrite B3, A1 in B4.
  unfold exchange. destruct (six_dec n t e W F1 i) as [S|S].
  - destruct S as [->|[->|[->|[->|[->| ->]]]]].
    + rewrite Nat.eqb_refl, B3. eqbs; congruence.
    + eqbs; congruence.
    + eqbs; congruence.
    + eqbs; congruence.
    + eqbs; congruence.
    + eqbs; congruence.
  - assert (Si := S). unfold in_six in Si.
    assert (Sn : ~ in_six t e (nF t i)) by (intros X; apply S; eapply six_F; eauto). unfold in_six in Sn.
    assert (Q : nF t2 i = nF t i) by (rewrite B6, A6; auto; rewrite A5; auto).
    eqbs; try tauto; congruence.
Qed.

Lemma flip_4 n t e t1 t2 t3 t4 : well_formed n t -> e < n ->
  flip t e = (t1, Ok tt) -> flip t1 e = (t2, Ok tt) -> flip t2 e = (t3, Ok tt) -> flip t3 e = (t4, Ok tt) ->
  tF t4 = tF t /\ tV t4 = tV t.
Proof.
  intros W He E1 E2 E3 E4.
  destruct (flip_spec n t e t1 W He E1) as (F1 & W1 & _). destruct (flip_spec n t1 e t2 W1 He E2) as (_ & W2 & _).
  destruct (flip_spec n t2 e t3 W2 He E3) as (_ & W3 & _). destruct (flip_spec n t3 e t4 W3 He E4) as (_ & W4 & _).
  assert (S : forall i, swap2 e (neg e) (swap2 e (neg e) i) = i).
  { intros i. unfold exchange. pose proof (neg_ne e).
    destruct (Nat.eqb_spec i e); [|destruct (Nat.eqb_spec i (neg e))]; eqbs; congruence. }
  assert (Sl : forall i, i < n -> swap2 e (neg e) i < n).
  { intros i Hi. unfold exchange. eqbs; auto. eapply neg_ltn; eauto. }
  assert (EF : forall i, i < n -> nF t4 i = nF t i).
  { intros i Hi. rewrite <- (S i) at 1. rewrite (flip_2 n t2 e t3 t4) by auto.
    rewrite (flip_2 n t e t1 t2) by auto. apply S. }
  split.
  - apply (wfp_ext n); try (eapply wfF; eauto). exact EF.
  - apply V_of_F with n; auto. intros i Hi B.
    destruct (flip_boundary _ _ _ _ W He E1 i Hi) as (X1 & Y1).
    destruct (flip_boundary _ _ _ _ W1 He E2 i Hi) as (X2 & Y2).
    destruct (flip_boundary _ _ _ _ W2 He E3 i Hi) as (X3 & Y3).
    destruct (flip_boundary _ _ _ _ W3 He E4 i Hi) as (X4 & Y4).
    rewrite Y4, Y3, Y2, Y1; tauto.
Qed.

Lemma flip_four n t e : well_formed n t -> flippable n t e ->
  exists t', flips t [e; e; e; e] = (t', Ok tt) /\ tF t' = tF t /\ tV t' = tV t.
Proof.
  intros W F. assert (He : e < n) by apply F.
  destruct (flip_Ok n t e W F) as (t1 & E1 & W1 & _).
  destruct (flip_again n t e t1 W He E1) as (F1 & _). destruct (flip_Ok n t1 e W1 F1) as (t2 & E2 & W2 & _).
  destruct (flip_again n t1 e t2 W1 He E2) as (F2 & _). destruct (flip_Ok n t2 e W2 F2) as (t3 & E3 & W3 & _).
  destruct (flip_again n t2 e t3 W2 He E3) as (F3 & _). destruct (flip_Ok n t3 e W3 F3) as (t4 & E4 & W4 & _).
  exists t4. cbn [flips]. rewrite E1, E2, E3, E4. split; auto. eapply flip_4 with (t1 := t1); eauto.
Qed.

(** ** Cached vertices *)

Lemma vertex_source_Ok n t e : well_formed n t -> e < n ->
  exists s, vertex_source t e = Ok s /\ In s (tverts t) /\
    forall x, scontains s x = true <-> x < n /\ same_vertex t e x.
Proof.
  intros W He. destruct (wf_vertices _ _ W) as (X1 & X2 & X3 & X4).
  unfold vertex_source. destruct (find (fun s => scontains s e) (tverts t)) as [s|] eqn:F.
  - apply find_some in F as [I C]. exists s. split; auto. split; auto. intros x.
    apply In_nth with (d := []) in I as (i & Hi & E). rewrite <- E in *.
    rewrite (X4 i e x) by auto. tauto.
  - exfalso. destruct (X1 e He) as (i & Hi & C). pose proof (find_none _ _ F _ (nth_In _ [] Hi)) as Q.
    cbv beta in Q. congruence.
Qed.

Lemma sbegin_first s x : scontains s x = true ->
  scontains s (sbegin s) = true /\ forall y, scontains s y = true -> sbegin s <= y.
Proof.
  rewrite contains_mem. intros M. unfold sbegin.
  pose proof (find_from_spec s 0 0) as F. destruct (find_from 0 0 s) as [p|]; cbn [make_pos].
  - destruct F as (_ & _ & _ & B & C). rewrite Nat.sub_0_r in B. rewrite contains_mem. split; auto.
    intros y. rewrite contains_mem. intros My. destruct (le_lt_dec p y) as [|Hy]; auto.
    specialize (C y (Nat.le_0_l _)). rewrite Nat.sub_0_r in C. rewrite C in My; [discriminate|lia].
  - specialize (F x (Nat.le_0_l _) (Nat.le_0_l _)). rewrite Nat.sub_0_r in F. congruence.
Qed.

Lemma same_vertex_sym n t x y : well_formed n t -> x < n -> same_vertex t x y -> same_vertex t y x.
Proof. intros W Hx S. destruct (wfV _ _ W) as (_ & _ & B). eapply same_iter_sym; eauto. Qed.

Lemma same_vertex_trans t x y z : same_vertex t x y -> same_vertex t y z -> same_vertex t x z.
Proof. apply same_iter_trans. Qed.

Lemma same_vertex_lt n t x y : well_formed n t -> x < n -> same_vertex t x y -> y < n.
Proof. intros W Hx (k & <-). destruct (wfV _ _ W) as (_ & _ & B). eapply iter_lt; eauto. Qed.

Lemma vertex_eqb_spec n t x y s r : well_formed n t -> x < n -> y < n ->
  vertex_source t x = Ok s -> vertex_source t y = Ok r -> (vertex_eqb s r = true <-> same_vertex t x y).
Proof.
  intros W Hx Hy S R.
  destruct (vertex_source_Ok n t x W Hx) as (s' & S' & _ & CS). rewrite S in S'. inv S'.
  destruct (vertex_source_Ok n t y W Hy) as (r' & R' & _ & CR). rewrite R in R'. inv R'.
  destruct (sbegin_first s' x) as [B1 M1]. { apply CS. split; auto. now exists 0. }
  destruct (sbegin_first r' y) as [B2 M2]. { apply CR. split; auto. now exists 0. }
  unfold vertex_eqb. rewrite Nat.eqb_eq. split.
  - intros E. apply CS in B1 as [L1 O1]. apply CR in B2 as [L2 O2].
    eapply same_vertex_trans; [exact O1|]. rewrite E. eapply same_vertex_sym; [exact W|auto|auto].
  - intros O.
    assert (Q : forall z, scontains s' z = true <-> scontains r' z = true).
    { intros z. rewrite CS, CR. split; intros [Hz T]; split; auto.
      - eapply same_vertex_trans; [|exact T]. eapply same_vertex_sym; eauto.
      - eapply same_vertex_trans; eauto. }
    apply Nat.le_antisymm; [apply M1, Q|apply M2, Q]; auto.
Qed.

(** The cached vertices of two surfaces with the same permutation are the same sets. *)
Lemma vertices_unique n t t' : vertices_correct n t -> vertices_correct n t' -> tV t = tV t' ->
  forall s, In s (tverts t) -> exists r, In r (tverts t') /\ forall x, scontains s x = scontains r x.
Proof.
  intros (X1 & X2 & X3 & X4) (Y1 & Y2 & Y3 & Y4) E s I.
  apply In_nth with (d := []) in I as (i & Hi & Es). destruct (X2 i Hi) as (x & Hx & C).
  destruct (Y1 x Hx) as (j & Hj & C'). exists (nth j (tverts t') []). split; [now apply nth_In|].
  intros y. apply eq_true_iff_eq. rewrite <- Es. rewrite (X4 i x y), (Y4 j x y) by auto.
  unfold same_vertex, nV. rewrite E. tauto.
Qed.
