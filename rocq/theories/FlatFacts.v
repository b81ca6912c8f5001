(** * Flat triangulations: construction and flips *)
From Coq Require Import ZArith Reals List Arith Bool Lia Lra Psatz Permutation.
From Verif Require Import Base HalfEdge HalfEdgeFacts Perm PermSpec PermFacts PermCycles PermLemmas
  IndexedSet IndexedSetSpec IndexedSetFacts Combinatorial CombinatorialSpec CombinatorialFacts CombinatorialFlip
  CombinatorialHistory CombinatorialOps ExactReal Vector PlaneSpec Plane VectorFacts FlatTri FlatSpec.
Import ListNotations.
Local Open Scope nat_scope.

Section flat.
Context {K : ExactReal}.
Implicit Types (s : flat K) (n e : nat).

Definition vat' s e : vec K := nth e (fvec s) vzero.

Lemma flat_eta s : mkFlat (fT s) (fvec s) = s.
Proof. now destruct s. Qed.

Lemma from_he_Ok s e : e < length (fvec s) -> from_he s e = Ok (vat' s e).
Proof. apply vget_nth. Qed.

Lemma next_Ok n t e : well_formed n t -> e < n -> nextInFace t e = Ok (nF t e).
Proof. intros W He. unfold nextInFace. rewrite (papp_Ok n); auto. apply (fwd_len _ _ (wfF _ _ W)). Qed.
Lemma nextV_Ok n t e : well_formed n t -> e < n -> nextAtVertex t e = Ok (nV t e).
Proof. intros W He. unfold nextAtVertex. rewrite (papp_Ok n); auto. apply (fwd_len _ _ (wfV _ _ W)). Qed.
Lemma prev_Ok n t e : well_formed n t -> e < n -> previousInFace t e = Ok (pF t e).
Proof. intros W He. unfold previousInFace. rewrite (ppre_Ok n); auto. apply (wfF _ _ W). Qed.
Lemma prevV_Ok n t e : well_formed n t -> e < n -> previousAtVertex t e = Ok (pV t e).
Proof. intros W He. unfold previousAtVertex. rewrite (ppre_Ok n); auto. apply (wfV _ _ W). Qed.
Lemma bdry_Ok n t e : well_formed n t -> e < n -> boundary t e = Ok (nF t e =? e).
Proof. intros W He. unfold boundary. rewrite (papp_Ok n); auto. apply (fwd_len _ _ (wfF _ _ W)). Qed.

Lemma check_closed_spec n s : well_formed n (fT s) -> length (fvec s) = n -> forall es, (forall e, In e es -> e < n) ->
  (check_closed s es = Ok tt \/ check_closed s es = Throw) /\
  (check_closed s es = Ok tt <-> forall e, In e es -> fF s e <> e ->
     vv s e <> (0, 0)%R /\ padd (padd (vv s e) (vv s (fF s e))) (vv s (fF s (fF s e))) = (0, 0)%R).
Proof.
  intros W L. induction es as [|e r IH]; intros H.
  - cbn. split; auto. split; auto. intros _ e [].
  - assert (He : e < n) by auto with datatypes. destruct IH as [IH1 IH2]; [auto with datatypes|].
    cbn [check_closed]. rewrite (bdry_Ok n) by auto. cbn [bind].
    destruct (Nat.eqb_spec (nF (fT s) e) e) as [B|B].
    + split; auto. rewrite IH2. split; intros X e' I; [destruct I as [<-|I]; auto; contradiction|auto with datatypes].
    + assert (Hf := nF_lt _ _ W _ He). assert (Hg := nF_lt _ _ W _ Hf).
      rewrite from_he_Ok by lia. cbn [bind].
      pose proof (vnonzero_spec (vat' s e)) as Z. destruct (vnonzero (vat' s e)); cbn [negb].
      2: { split; auto. split; [discriminate|]. intros X. destruct (X e) as [Y _]; auto with datatypes. apply Z in Y. discriminate. }
      rewrite (next_Ok n) by auto. cbn [bind]. rewrite from_he_Ok by lia. cbn [bind]. rewrite (next_Ok n) by auto. cbn [bind].
      rewrite from_he_Ok by lia. cbn [bind].
      pose proof (vnonzero_spec (vadd (vadd (vat' s e) (vat' s (nF (fT s) e))) (vat' s (nF (fT s) (nF (fT s) e))))) as Q.
      rewrite !vden_add in Q. destruct (vnonzero _).
      * split; auto. split; [discriminate|]. intros X. destruct (X e) as [_ Y]; auto with datatypes. exfalso. now apply Q.
      * split; auto. rewrite IH2. split; intros X e' I; [|auto with datatypes]. destruct I as [<-|I]; auto. intros _. split; [now apply Z|].
        assert (D : forall p : pt, p = (0, 0)%R \/ p <> (0, 0)%R).
        { intros [x y]. destruct (Req_dec x 0) as [->|], (Req_dec y 0) as [->|]; auto; right; intros J; injection J; auto. }
        destruct (D (padd (padd (vv s e) (vv s (fF s e))) (vv s (fF s (fF s e))))) as [G|G]; auto.
        apply Q in G. discriminate.
Qed.

Lemma check_ccw_spec n s : well_formed n (fT s) -> length (fvec s) = n -> forall es, (forall e, In e es -> e < n) ->
  (check_ccw s es = Ok tt \/ check_ccw s es = Throw) /\
  (check_ccw s es = Ok tt <-> forall e, In e es -> fF s e <> e -> (0 < pdet (vv s e) (vv s (fF s e)))%R).
Proof.
  intros W L. induction es as [|e r IH]; intros H.
  - cbn. split; auto. split; auto. intros _ e [].
  - assert (He : e < n) by auto with datatypes. destruct IH as [IH1 IH2]; [auto with datatypes|].
    cbn [check_ccw]. rewrite (bdry_Ok n) by auto. cbn [bind].
    destruct (Nat.eqb_spec (nF (fT s) e) e) as [B|B].
    + split; auto. rewrite IH2. split; intros X e' I; [destruct I as [<-|I]; auto; contradiction|auto with datatypes].
    + assert (Hf := nF_lt _ _ W _ He). rewrite (next_Ok n) by auto. cbn [bind]. rewrite from_he_Ok by lia. cbn [bind].
      rewrite from_he_Ok by lia. cbn [bind]. destruct (ccw_spec (vat' s e) (vat' s (nF (fT s) e))) as (C & _).
      change (vden (vat' s e)) with (vv s e) in C. change (vden (vat' s (nF (fT s) e))) with (vv s (fF s e)) in C.
      destruct (ccw _ _).
      * split; auto. rewrite IH2. split; intros X e' I; [destruct I as [<-|I]; auto; intros _; now apply C|auto with datatypes].
      * split; auto. split; [discriminate|]. intros X. assert (Y := X e (or_introl eq_refl) B). apply C in Y. discriminate.
      * split; auto. split; [discriminate|]. intros X. assert (Y := X e (or_introl eq_refl) B). apply C in Y. discriminate.
Qed.

Lemma check_flat_spec n s : well_formed n (fT s) -> length (fvec s) = n ->
  (check_flat s = Ok tt \/ check_flat s = Throw) /\ (check_flat s = Ok tt <-> triangles_flat n s).
Proof.
  intros W L. unfold check_flat.
  destruct (check_closed_spec n s W L (half_edges (fT s))) as [A1 A2]; [intros; now apply (half_edges_lt n (fT s))|].
  destruct (check_ccw_spec n s W L (half_edges (fT s))) as [B1 B2]; [intros; now apply (half_edges_lt n (fT s))|].
  assert (Z : forall p q : pt, (0 < pdet p q)%R -> p <> (0, 0)%R) by (intros p q Hd ->; unfold pdet in Hd; cbn in Hd; lra).
  destruct A1 as [A1|A1]; rewrite A1; cbn [bind].
  - split; auto. rewrite B2. pose proof (proj1 A2 A1) as C. split; intros X e He; intros.
    + split; [apply C; auto; now apply (half_edges_lt n (fT s))|apply X; auto; now apply (half_edges_lt n (fT s))].
    + apply (half_edges_lt n (fT s)) in He; auto. now apply X.
  - split; auto. split; [discriminate|]. intros X. exfalso. rewrite A1 in A2. destruct A2 as [_ A2]. discriminate A2.
    intros e He B. apply (half_edges_lt n (fT s)) in He; auto. destruct (X e He B) as [C D]. split; auto. eapply Z; eauto.
Qed.

(** The constructor builds the triangulation again. *)
Lemma remake n t : well_formed n t -> exists t', (do bnd <- boundary_of t (half_edges t); make_tri (tV t) bnd) = Ok t' /\
  well_formed n t' /\ tV t' = tV t /\ tF t' = tF t.
Proof.
  intros W. rewrite (boundary_of_Ok n) by (auto; intros; now apply (half_edges_lt n t)). cbn [bind].
  destruct (make_tri_complete n (tV t) (filter (fun e => nF t e =? e) (half_edges t)) (nF t) (pF t)) as (t' & E & W' & EV & EF).
  - eapply wfV; eauto.
  - eapply wf_mod; eauto.
  - apply wf_bijF; auto.
  - intros e He I. apply filter_In in I as [_ I]. now apply Nat.eqb_eq.
  - intros e He I. apply (wf_link _ _ W); auto. intros B. apply I. apply filter_In.
    rewrite (half_edges_lt n t), Nat.eqb_eq; auto.
  - apply W.
  - exists t'. rewrite E. split; auto. split; auto. split; auto. eapply tri_same; eauto.
Qed.

Lemma same_nF t t' e : tF t' = tF t -> nF t' e = nF t e.
Proof. intros E. unfold nF. now rewrite E. Qed.
Lemma same_nV t t' e : tV t' = tV t -> nV t' e = nV t e.
Proof. intros E. unfold nV. now rewrite E. Qed.

Lemma nth_map_seq {A} (f : nat -> A) n e d : e < n -> nth e (map f (seq 0 n)) d = f e.
Proof. intros H. rewrite (nth_indep _ d (f 0)) by (now rewrite map_length, seq_length). rewrite map_nth. now rewrite seq_nth. Qed.

(** The constructor, for a function that is defined on all half edges. *)
Lemma make_flat_spec n t (f : nat -> outcome (vec K)) g : well_formed n t -> (forall e, e < n -> f e = Ok (g e)) ->
  exists t', well_formed n t' /\ tV t' = tV t /\ tF t' = tF t /\
  let s := mkFlat t' (map g (seq 0 n)) in
  (make_flat t f = Ok s /\ triangles_flat n s \/ make_flat t f = Throw /\ ~ triangles_flat n s).
Proof.
  intros W Hf. destruct (remake n t W) as (t' & E & W' & EV & EF). exists t'. split; auto. split; auto. split; auto. cbv zeta.
  unfold make_flat. apply bind_Ok in E as (bnd & -> & E). cbn [bind]. rewrite E. cbn [bind].
  assert (Om : omap f (half_edges t') = Ok (map g (seq 0 n))).
  { unfold half_edges. rewrite (wf_size n t' W'). apply omap_map. intros e He. apply in_seq in He. apply Hf. lia. }
  rewrite Om. cbn [bind].
  destruct (check_flat_spec n (mkFlat t' (map g (seq 0 n)))) as [C1 C2]; cbn [fT fvec]; auto.
  { now rewrite map_length, seq_length. }
  destruct C1 as [C1|C1]; rewrite C1 in *; cbn [bind].
  - left. split; auto. now apply C2.
  - right. split; auto. intros X. apply C2 in X. discriminate.
Qed.

Lemma vat_nth (l : list (vec K)) i : i < length l -> vat l i = Ok (nth i l vzero).
Proof. intros H. unfold vat. now rewrite (nth_error_nth' l vzero H). Qed.
Lemma vat_None (l : list (vec K)) i : length l <= i -> vat l i = Throw.
Proof. intros H. unfold vat. apply nth_error_None in H. now rewrite H. Qed.

(** What the constructor from a list puts at a half edge. *)
Definition odd_vec (vs : list (vec K)) e : vec K := if Nat.even e then nth (e / 2) vs vzero else vneg (nth (e / 2) vs vzero).

Lemma pneg_pneg p : pneg (pneg p) = p.
Proof. destruct p; unfold pneg; cbn. f_equal; ring. Qed.

Lemma odd_vec_neg vs e : vden (odd_vec vs (neg e)) = pneg (vden (odd_vec vs e)).
Proof.
  unfold odd_vec. rewrite neg_div2. destruct (he_cases e) as (m & [-> | ->]).
  - rewrite neg_even. replace (Nat.even (S (2 * m))) with false by (symmetry; rewrite Nat.even_succ, Nat.odd_mul; auto).
    replace (Nat.even (2 * m)) with true by (symmetry; rewrite Nat.even_mul; auto). apply vden_neg.
  - rewrite neg_odd. replace (Nat.even (S (2 * m))) with false by (symmetry; rewrite Nat.even_succ, Nat.odd_mul; auto).
    replace (Nat.even (2 * m)) with true by (symmetry; rewrite Nat.even_mul; auto). now rewrite vden_neg, pneg_pneg.
Qed.

Lemma edges_length n t : well_formed n t -> length (edges t) = n / 2.
Proof. intros W. unfold edges. now rewrite map_length, seq_length, (wf_size n t W). Qed.

Lemma omap_Throw {A B} (f : A -> outcome B) l a : In a l -> f a = Throw -> (forall x, In x l -> (exists y, f x = Ok y) \/ f x = Throw) -> omap f l = Throw.
Proof.
  induction l as [|x l IH]; cbn; intros I E H; [contradiction|].
  destruct (H x) as [(y & Y)|Y]; auto; rewrite Y; cbn; auto.
  destruct I as [<-|I]; [congruence|]. rewrite IH; auto.
Qed.

Lemma make_flat_list_spec n t vs : well_formed n t ->
  (length vs = n / 2 -> exists t', well_formed n t' /\ tV t' = tV t /\ tF t' = tF t /\
    let s := mkFlat t' (map (odd_vec vs) (seq 0 n)) in
    (make_flat_list t vs = Ok s /\ triangles_flat n s) \/ (make_flat_list t vs = Throw /\ ~ triangles_flat n s)) /\
  (length vs <> n / 2 -> make_flat_list t vs = Throw).
Proof.
  intros W. destruct (wf_even _ _ W) as (m & En). assert (Em : n / 2 = m) by (rewrite En; apply div2_even).
  assert (Hd : forall e, e < n -> e / 2 < m).
  { intros e He. apply Nat.div_lt_upper_bound; lia. }
  split.
  - intros L. destruct (make_flat_spec n t (fun e => do v <- vat vs (e / 2); Ok (if Nat.even e then v else vneg v)) (odd_vec vs) W) as (t' & W' & EV & EF & R).
    { intros e He. rewrite vat_nth by (rewrite L, Em; auto). reflexivity. }
    exists t'. split; auto. split; auto. split; auto. cbv zeta in *. unfold make_flat_list.
    destruct R as [[R T]|[R T]]; rewrite R; cbn [bind].
    + left. split; auto. cbn [fT]. rewrite (edges_length n t'), L, Nat.eqb_refl; auto.
    + right. auto.
  - intros L. unfold make_flat_list. destruct (le_lt_dec (n / 2) (length vs)) as [Hl|Hl].
    + destruct (make_flat_spec n t (fun e => do v <- vat vs (e / 2); Ok (if Nat.even e then v else vneg v)) (odd_vec vs) W) as (t' & W' & EV & EF & R).
      { intros e He. rewrite vat_nth by (specialize (Hd e He); lia). reflexivity. }
      cbv zeta in R. destruct R as [[R T]|[R T]]; rewrite R; cbn [bind]; auto. cbn [fT]. rewrite (edges_length n t'); auto.
      apply Nat.eqb_neq in L. now rewrite L.
    + unfold make_flat. destruct (remake n t W) as (t' & E & W' & EV & EF). apply bind_Ok in E as (bnd & -> & E). cbn [bind].
      rewrite E. cbn [bind]. rewrite (omap_Throw _ _ (2 * length vs)); cbn [bind]; auto.
      * apply (half_edges_lt n t'); auto. lia.
      * rewrite div2_even, vat_None by lia. reflexivity.
      * intros x _. unfold vat. destruct (nth_error vs (x / 2)); cbn; eauto.
Qed.

(** ** Flips *)
Section flip.
Variables (n : nat) (s : flat K) (e : nat).
Hypothesis S : flat_surface n s.
Hypothesis He : e < n.

Let t := fT s.
Let W : well_formed n t := fs_wf n s S.

Lemma nonboundary_flippable : nF t e <> e -> nF t (neg e) <> neg e -> flippable n t e.
Proof.
  intros N1 N2. pose proof (neg_ltn _ _ W _ He) as Hn.
  assert (Z : forall f, f < n -> nF t f <> f -> nF t f <> neg f).
  { intros f Hf B E. destruct (fs_flat n s S f Hf B) as [_ D]. unfold fF in D. fold t in D. rewrite E, (fs_odd n s S f Hf) in D.
    unfold pdet, pneg in D; cbn in D. lra. }
  split; auto. split; auto. split; auto. split; [apply Z; auto|].
  intros E. apply (Z (neg e) Hn N2). rewrite <- E at 1. rewrite (wf_triangle _ _ W) by auto. now rewrite neg_neg.
Qed.

Lemma convex_at_spec strict f : f < n ->
  convex_at s strict f = Ok (if strict then ccw_eqb (ccw (vat' s (pV t f)) (vat' s (nV t f))) COUNTERCLOCKWISE
     else negb (ccw_eqb (ccw (vat' s (pV t f)) (vat' s (nV t f))) CLOCKWISE)).
Proof.
  intros Hf. unfold convex_at. rewrite (prevV_Ok n), (nextV_Ok n) by auto. cbn [bind].
  rewrite from_he_Ok by (rewrite (fs_length n s S); apply (pV_lt n t W); auto). cbn [bind].
  rewrite from_he_Ok by (rewrite (fs_length n s S); apply (nV_lt n t W); auto). reflexivity.
Qed.

Definition strictly_convex : Prop :=
  (0 < pdet (vv s (pV t e)) (vv s (nV t e)))%R /\ (0 < pdet (vv s (pV t (neg e))) (vv s (nV t (neg e))))%R.

Lemma convex_strict : exists b, convex s e true = Ok b /\ (b = true <-> strictly_convex).
Proof.
  pose proof (neg_ltn _ _ W _ He) as Hn. unfold convex. rewrite convex_at_spec by auto. cbn [bind].
  pose proof (ccw_spec (vat' s (pV t e)) (vat' s (nV t e))) as (C & _).
  pose proof (ccw_spec (vat' s (pV t (neg e))) (vat' s (nV t (neg e)))) as (D & _).
  change (vden (vat' s (pV t e))) with (vv s (pV t e)) in C. change (vden (vat' s (nV t e))) with (vv s (nV t e)) in C.
  change (vden (vat' s (pV t (neg e)))) with (vv s (pV t (neg e))) in D. change (vden (vat' s (nV t (neg e)))) with (vv s (nV t (neg e))) in D.
  unfold strictly_convex. rewrite convex_at_spec by auto.
  destruct (ccw (vat' s (pV t e)) (vat' s (nV t e))); cbn [ccw_eqb];
    try (exists false; split; [reflexivity|]; split; [discriminate|]; intros [X _]; apply C in X; discriminate).
  eexists. split; [reflexivity|]. destruct (ccw (vat' s (pV t (neg e))) (vat' s (nV t (neg e)))); cbn [ccw_eqb]; intuition congruence.
Qed.

(** At an edge between two triangles. *)
Lemma around : flippable n t e ->
  pV t e = nF t (neg e) /\ nV t e = neg (nF t (nF t e)) /\ pV t (neg e) = nF t e /\ nV t (neg e) = neg (nF t (nF t (neg e))).
Proof.
  intros (_ & N1 & N2 & N3 & N4). pose proof (neg_ltn _ _ W _ He) as Hn.
  assert (P : forall f, f < n -> nF t f <> f -> pV t (neg f) = nF t f).
  { intros f Hf B. assert (Ha := nF_lt _ _ W _ Hf).
    assert (X : nV t (nF t f) = neg f).
    { rewrite (nV_link' n t W) by (auto; now apply (nonboundary_nF n t W)). now rewrite (wf_triangle _ _ W). }
    rewrite <- X. now apply (pV_nV n t W). }
  split; [rewrite <- (neg_neg e) at 1; auto|]. split; [now apply (nV_link' n t W)|]. split; [auto|]. now apply (nV_link' n t W).
Qed.

Lemma odd f : f < n -> vv s (neg f) = pneg (vv s f).
Proof. apply (fs_odd n s S). Qed.

Lemma can_flip_iff : can_flip n s e <-> flippable n t e /\ strictly_convex.
Proof.
  unfold can_flip, strictly_convex, fF. fold t. pose proof (neg_ltn _ _ W _ He) as Hn.
  assert (Ha := nF_lt _ _ W _ He). assert (Hb := nF_lt _ _ W _ Ha). assert (Hc := nF_lt _ _ W _ Hn). assert (Hd := nF_lt _ _ W _ Hc).
  assert (D : forall p q, pdet p (pneg q) = pdet q p) by (intros; unfold pdet, pneg; cbn; ring).
  split.
  - intros (_ & N1 & N2 & C1 & C2). assert (F := nonboundary_flippable N1 N2). split; auto.
    destruct (around F) as (-> & -> & -> & ->). rewrite !odd, !D by auto. auto.
  - intros (F & C1 & C2). pose proof F as (_ & N1 & N2 & _). destruct (around F) as (E1 & E2 & E3 & E4).
    rewrite E1, E2, E3, E4, !odd, !D in * by auto. auto.
Qed.

Lemma odd_set_Ok (vs : list (vec K)) v : length vs = n ->
  exists vs', odd_set vs e v = Ok vs' /\ length vs' = n /\ nth e vs' vzero = v /\ nth (neg e) vs' vzero = vneg v /\
    forall i, i <> e -> i <> neg e -> nth i vs' vzero = nth i vs vzero.
Proof.
  intros L. pose proof (neg_ltn _ _ W _ He) as Hn. pose proof (neg_ne e) as N. unfold odd_set.
  rewrite vset_Ok by lia. cbn [bind]. rewrite vset_Ok by (rewrite upd_length; lia). eexists. split; [reflexivity|].
  rewrite !upd_length. split; auto. split; [|split].
  - rewrite nth_upd_ne by auto. apply nth_upd_eq. lia.
  - apply nth_upd_eq. rewrite upd_length. lia.
  - intros i I1 I2. rewrite !nth_upd_ne by auto. reflexivity.
Qed.

(** A flip that is possible. *)
Lemma fflip_Ok : can_flip n s e ->
  exists s', fflip s e = (s', Ok tt) /\ flat_surface n s' /\ flip t e = (fT s', Ok tt) /\
    (forall i, i < n -> i <> e -> i <> neg e -> nth i (fvec s') vzero = nth i (fvec s) vzero) /\
    vv s' e = pneg (padd (vv s (nF t (nF t e))) (vv s (nF t (neg e)))).
Proof.
  intros CF. pose proof (proj1 can_flip_iff CF) as (F & C). destruct convex_strict as (b & E & B).
  assert (b = true) by (now apply B). subst b. pose proof (neg_ltn _ _ W _ He) as Hn.
  destruct (flip_Ok n t e W F) as (t' & Ft & W' & EF & EV).
  destruct (flip_six n t e W F) as (D6 & Ha & Hb & Hc & Hd & _ & Fb & Fd).
  destruct (flip_F_six n t e W F) as (U1 & U2 & U3 & U4 & U5 & U6).
  rewrite <- EF in U1, U2, U3, U4, U5, U6 by auto.
  destruct CF as (_ & N1 & N2 & C1 & C2). unfold fF in C1, C2. fold t in C1, C2, N1, N2.
  remember (nF t e) as a eqn:Ea. remember (nF t a) as b eqn:Eb. remember (nF t (neg e)) as c eqn:Ec. remember (nF t c) as d eqn:Ed.
  apply nodup6 in D6. destruct D6 as ((D1 & D2 & D3 & D4 & D5) & (D6 & D7 & D8 & D9) & (D10 & D11 & D12) & (D13 & D14) & D15).
  assert (Pe : pF t' e = c).
  { rewrite <- U4. apply (pF_nF n t' W'). auto. }
  unfold fflip. rewrite E. fold t. rewrite Ft.
  unfold update_after_flip. rewrite (next_Ok n) by auto. cbn [bind]. rewrite U5.
  assert (L := fs_length n s S).
  rewrite (vget_nth _ _ vzero) by (rewrite L; now apply (neg_ltn n t W)). cbn [bind].
  rewrite (prev_Ok n) by auto. cbn [bind]. rewrite Pe.
  rewrite (vget_nth _ _ vzero) by (rewrite L; now apply (neg_ltn n t W)). cbn [bind].
  destruct (odd_set_Ok (fvec s) (vadd (nth (neg b) (fvec s) vzero) (nth (neg c) (fvec s) vzero)) L) as (vs' & Eo & L' & Q1 & Q2 & Q3).
  rewrite Eo. exists (mkFlat t' vs'). split; auto. cbn [fT fvec].
  assert (Ve : vv (mkFlat t' vs') e = pneg (padd (vv s b) (vv s c))).
  { unfold vv at 1. cbn [fvec]. rewrite Q1, vden_add. change (vden (nth (neg b) (fvec s) vzero)) with (vv s (neg b)).
    change (vden (nth (neg c) (fvec s) vzero)) with (vv s (neg c)). rewrite !odd by auto. unfold pneg, padd; cbn. f_equal; ring. }
  assert (Vn : vv (mkFlat t' vs') (neg e) = padd (vv s b) (vv s c)).
  { unfold vv at 1. cbn [fvec]. rewrite Q2, vden_neg, vden_add. change (vden (nth (neg b) (fvec s) vzero)) with (vv s (neg b)).
    change (vden (nth (neg c) (fvec s) vzero)) with (vv s (neg c)). rewrite !odd by auto. unfold pneg, padd; cbn. f_equal; ring. }
  assert (Vo : forall i, i <> e -> i <> neg e -> vv (mkFlat t' vs') i = vv s i).
  { intros i I1 I2. unfold vv. cbn [fvec]. now rewrite Q3. }
  (* the two old triangles *)
  destruct (fs_flat n s S e He) as [Z1 _]; [unfold fF; fold t; congruence|].
  destruct (fs_flat n s S (neg e) Hn) as [Z2 _]; [unfold fF; fold t; congruence|].
  unfold fF in Z1, Z2. fold t in Z1, Z2. rewrite <- Ea, <- Eb in Z1. rewrite <- Ec, <- Ed in Z2. rewrite odd in Z2 by auto.
  split; [|split; [auto|split; [intros i Hi I1 I2; now apply Q3|exact Ve]]].
  constructor; cbn [fT fvec]; auto.
  - intros i Hi. destruct (Nat.eq_dec i e) as [->|X]; [now rewrite Vn, Ve, pneg_pneg|].
    destruct (Nat.eq_dec i (neg e)) as [->|Y].
    { rewrite neg_neg. now rewrite Vn, Ve. }
    rewrite !Vo; auto; [now apply odd| |]; intros J.
    + apply Y. now rewrite <- J, neg_neg.
    + apply X. now apply neg_inj.
  - intros i Hi. unfold fF. cbn [fT]. intros NB.
    assert (Six : in_six t e i \/ ~ in_six t e i) by (eapply six_dec; eauto).
    destruct (vv s e) as [xe ye] eqn:Xe. destruct (vv s a) as [xa ya] eqn:Xa. destruct (vv s b) as [xb yb] eqn:Xb.
    destruct (vv s c) as [xc yc] eqn:Xc. destruct (vv s d) as [xd yd] eqn:Xd.
    unfold padd, pneg, pdet in Z1, Z2, C1, C2, Ve, Vn. cbn [fst snd] in Z1, Z2, C1, C2, Ve, Vn. injection Z1 as A1 A2. injection Z2 as B1 B2.
    assert (Ga : vv (mkFlat t' vs') a = (xa, ya)) by (rewrite Vo; auto).
    assert (Gb : vv (mkFlat t' vs') b = (xb, yb)) by (rewrite Vo; auto).
    assert (Gc : vv (mkFlat t' vs') c = (xc, yc)) by (rewrite Vo; auto).
    assert (Gd : vv (mkFlat t' vs') d = (xd, yd)) by (rewrite Vo; auto).
    destruct Six as [I|I].
    + unfold in_six in I. rewrite <- Ea, <- Eb, <- Ec, <- Ed in I.
      assert (Hxa : xd = (- xa - xb - xc)%R) by lra. assert (Hya : yd = (- ya - yb - yc)%R) by lra.
      destruct I as [->|[->|[->|[->|[->| ->]]]]]; rewrite ?U1, ?U2, ?U3, ?U4, ?U5, ?U6, ?Ve, ?Vn, ?Ga, ?Gb, ?Gc, ?Gd;
        rewrite ?U1, ?U2, ?U3, ?U4, ?U5, ?U6, ?Ve, ?Vn, ?Ga, ?Gb, ?Gc, ?Gd; unfold padd, pdet; cbn [fst snd];
        (split; [f_equal; lra|]); subst xd yd; nra.
    + assert (J : nF t' i = nF t i) by (rewrite EF by auto; now apply (flip_F_other n)).
      assert (Hi' := nF_lt _ _ W _ Hi). assert (Hi'' := nF_lt _ _ W _ Hi').
      assert (I' : ~ in_six t e (nF t i)) by (intros Q; apply I; eapply six_F; eauto).
      assert (I'' : ~ in_six t e (nF t (nF t i))) by (intros Q; apply I'; eapply six_F; eauto).
      assert (J' : nF t' (nF t i) = nF t (nF t i)) by (rewrite EF by auto; now apply (flip_F_other n)).
      rewrite J, J'. rewrite J in NB.
      assert (O : forall j, ~ in_six t e j -> vv (mkFlat t' vs') j = vv s j).
      { intros j Q. apply Vo; intros ->; apply Q; unfold in_six; auto. }
      rewrite !O by auto. apply (fs_flat n s S i Hi NB).
Qed.

(** A flip that is not possible is rejected. *)
Lemma fflip_rejected : ~ can_flip n s e -> exists s', fflip s e = (s', Throw) /\ fvec s' = fvec s /\
   ((nF t e = e \/ nF t (neg e) <> neg e) -> s' = s).
Proof.
  intros NC. destruct convex_strict as (b & E & B). unfold fflip. rewrite E. fold t. destruct b.
  - assert (NF : ~ flippable n t e) by (intros X; apply NC, can_flip_iff; split; auto; now apply B).
    destruct (flip_rejected n t e W He NF) as (t' & -> & R). cbn [stop]. eexists. split; [reflexivity|]. split; auto.
    intros X. rewrite (R X). apply flat_eta.
  - eexists. split; [reflexivity|]. auto.
Qed.

Lemma can_flip_dec : can_flip n s e \/ ~ can_flip n s e.
Proof.
  rewrite can_flip_iff. destruct convex_strict as (b & _ & B). destruct (flippable_dec n t e); [|tauto]. 
  destruct b; [left|right]; intuition congruence.
Qed.
End flip.

Lemma fflip_spec n s e s' : flat_surface n s -> e < n -> fflip s e = (s', Ok tt) ->
  can_flip n s e /\ flat_surface n s' /\ flip (fT s) e = (fT s', Ok tt) /\
    (forall i, i < n -> i <> e -> i <> neg e -> nth i (fvec s') vzero = nth i (fvec s) vzero) /\
    vv s' e = pneg (padd (vv s (fF s (fF s e))) (vv s (fF s (neg e)))).
Proof.
  intros S He E. destruct (can_flip_dec n s e S He) as [C|C].
  - split; auto. destruct (fflip_Ok n s e S He C) as (s'' & E' & Q). rewrite E in E'. injection E' as <-. exact Q.
  - destruct (fflip_rejected n s e S He C) as (s'' & E' & _). congruence.
Qed.

Lemma fflips_surface n es : forall s s', flat_surface n s -> (forall e, In e es -> e < n) -> fflips s es = (s', Ok tt) -> flat_surface n s'.
Proof.
  induction es as [|e r IH]; cbn [fflips]; intros s s' S H E.
  - now injection E as <-.
  - destruct (fflip s e) as [s1 o] eqn:Ef. destruct o as [[]| | |]; try discriminate.
    apply IH with s1; auto with datatypes. eapply fflip_spec; eauto with datatypes.
Qed.
End flat.
