(** * clone, reverse, relabel *)
From Coq Require Import List Arith Lia Bool Permutation.
From Verif Require Import Base HalfEdge HalfEdgeFacts Perm PermSpec PermFacts PermCycles PermLemmas
  IndexedSet IndexedSetSpec IndexedSetFacts Combinatorial CombinatorialSpec CombinatorialFacts CombinatorialFlip
  CombinatorialHistory.
Import ListNotations.

Lemma wf_mod n t : well_formed n t -> n mod 2 = 0.
Proof. intros W. destruct (wf_even _ _ W) as (m & ->). rewrite Nat.mul_comm. apply Nat.mod_mul. lia. Qed.

Lemma wf_size n t : well_formed n t -> tsize t = n.
Proof. intros W. unfold tsize, psize. apply (fwd_len _ _ (wfV _ _ W)). Qed.

Lemma wf_bijF n t : well_formed n t -> bijection n (nF t) (pF t).
Proof. intros W. destruct (wfF _ _ W) as (_ & _ & B). exact B. Qed.

Lemma pF_3 n t : well_formed n t -> forall e, e < n -> pF t (pF t (pF t e)) = e.
Proof.
  intros W e He. pose proof (pF_lt n t W _ He) as H1. pose proof (pF_lt n t W _ H1) as H2. pose proof (pF_lt n t W _ H2) as H3.
  rewrite <- (wf_triangle _ _ W _ H3). now rewrite !(nF_pF n t W) by auto.
Qed.

Lemma boundary_of_Ok n t l : well_formed n t -> (forall e, In e l -> e < n) ->
  boundary_of t l = Ok (filter (fun e => nF t e =? e) l).
Proof.
  intros W H. unfold boundary_of.
  rewrite (omap_map _ (fun e => (e, nF t e =? e))).
  - cbn [bind]. f_equal. clear H. induction l as [|e l IH]; cbn; auto. destruct (nF t e =? e); cbn; now rewrite IH.
  - intros e He. unfold boundary. rewrite (papp_Ok n); auto. apply (fwd_len _ _ (wfF _ _ W)).
Qed.

Lemma domain_lt n t e : well_formed n t -> In e (pdomain (tF t)) <-> e < n.
Proof. intros W. apply (fwd_In _ _ (wfF _ _ W)). Qed.

Lemma half_edges_lt n t e : well_formed n t -> In e (half_edges t) <-> e < n.
Proof. intros W. unfold half_edges. rewrite (wf_size n t W), in_seq. lia. Qed.

Lemma tri_same n t t' : well_formed n t -> well_formed n t' -> tV t = tV t' -> (forall e, e < n -> nF t' e = nF t e) -> tF t' = tF t.
Proof. intros W W' _ E. apply (wfp_ext n); try (eapply wfF; eauto). exact E. Qed.

Lemma clone_Ok n t : well_formed n t -> exists t', clone t = Ok t' /\ well_formed n t' /\ tV t' = tV t /\ tF t' = tF t.
Proof.
  intros W. unfold clone. rewrite (boundary_of_Ok n) by (auto; intros; now apply (domain_lt n t)). cbn [bind].
  destruct (make_tri_complete n (tV t) (filter (fun e => nF t e =? e) (pdomain (tF t))) (nF t) (pF t)) as (t' & E & W' & EV & EF).
  - eapply wfV; eauto.
  - eapply wf_mod; eauto.
  - apply wf_bijF; auto.
  - intros e He I. apply filter_In in I as [_ I]. now apply Nat.eqb_eq.
  - intros e He I. apply (wf_link _ _ W); auto. intros B. apply I. apply filter_In.
    rewrite (domain_lt n t), Nat.eqb_eq; auto.
  - apply W.
  - exists t'. rewrite E. split; auto. split; auto. split; auto. eapply tri_same; eauto.
Qed.

Lemma reverse_Ok n t : well_formed n t ->
  exists t', reverse t = Ok t' /\ well_formed n t' /\
    (forall e, e < n -> nV t' (nV t e) = e) /\
    (forall e, e < n -> nF t' (neg (nF t e)) = neg e).
Proof.
  intros W. unfold reverse. rewrite (pinv_Ok n) by (eapply wfV; eauto). cbn [bind].
  rewrite (boundary_of_Ok n) by (auto; intros; now apply (half_edges_lt n t)). cbn [bind].
  set (bnd := map neg _).
  assert (NL := neg_ltn n t W).
  assert (Bd : forall e, e < n -> (In e bnd <-> nF t (neg e) = neg e)).
  { intros e He. unfold bnd. rewrite in_map_iff. split.
    - intros (x & <- & I). apply filter_In in I as [_ I]. apply Nat.eqb_eq in I. now rewrite neg_neg.
    - intros B. exists (neg e). rewrite neg_neg. split; auto. apply filter_In.
      rewrite (half_edges_lt n t), Nat.eqb_eq; auto. }
  destruct (make_tri_complete n (flipp (tV t)) bnd (fun e => neg (pF t (neg e))) (fun e => neg (nF t (neg e)))) as (t' & E & W' & EV & EF).
  - apply wfp_flipp. eapply wfV; eauto.
  - eapply wf_mod; eauto.
  - split; intros e He; (split; [auto using (pF_lt n t W), (nF_lt n t W)|]).
    + rewrite neg_neg, (nF_pF n t W), neg_neg; auto.
    + rewrite neg_neg, (pF_nF n t W), neg_neg; auto.
  - intros e He I. apply Bd in I; auto. rewrite <- (neg_neg e) at 2. f_equal.
    rewrite <- I at 1. rewrite (pF_nF n t W); auto.
  - intros e He I. rewrite (Bd e He) in I. change (fw (flipp (tV t)) e) with (pV t e). rewrite neg_neg.
    assert (Q : nV t (nF t (neg e)) = e).
    { rewrite (nV_link n t W).
      - rewrite (pF_nF n t W), neg_neg; auto.
      - apply (nF_lt n t W); auto.
      - apply (nonboundary_nF n t W); auto. }
    rewrite <- Q at 1. rewrite (pV_nV n t W); auto using (nF_lt n t W).
    rewrite (pF_nF n t W), neg_neg; auto.
  - intros e He. rewrite !neg_neg. rewrite (pF_3 n t W) by auto. apply neg_neg.
  - exists t'. rewrite E. split; auto. split; auto. split.
    + intros e He. unfold nV at 1. rewrite EV. change (pV t (nV t e) = e). now apply (pV_nV n t W).
    + intros e He. rewrite EF by auto using (nF_lt n t W). rewrite neg_neg, (pF_nF n t W); auto.
Qed.

Lemma reverse_unique n t t' : well_formed n t -> reverse t = Ok t' -> well_formed n t' /\
    (forall e, e < n -> nV t' e = pV t e) /\ (forall e, e < n -> nF t' e = neg (pF t (neg e))).
Proof.
  intros W E. destruct (reverse_Ok n t W) as (t'' & E' & W' & A & B). rewrite E in E'. inv E'.
  split; auto. split.
  - intros e He. rewrite <- (nV_pV n t W e He) at 1. apply A. now apply (pV_lt n t W).
  - intros e He. rewrite <- (neg_neg e) at 1. rewrite <- (nF_pF n t W (neg e)) at 1 by now apply (neg_ltn n t W).
    apply B. apply (pF_lt n t W). now apply (neg_ltn n t W).
Qed.

Lemma reverse_reverse n t : well_formed n t ->
  exists t' t'', reverse t = Ok t' /\ reverse t' = Ok t'' /\ tV t'' = tV t /\ tF t'' = tF t.
Proof.
  intros W. destruct (reverse_Ok n t W) as (t' & E & W' & _). destruct (reverse_Ok n t' W') as (t'' & E' & W'' & A & B).
  exists t', t''. split; auto. split; auto.
  destruct (reverse_unique n t t' W E) as (_ & Vt' & Ft').
  destruct (reverse_unique n t' t'' W' E') as (_ & Vt'' & Ft''). split.
  - apply (wfp_ext n); try (eapply wfV; eauto). intros e He. change (nV t'' e = nV t e).
    assert (He' := nV_lt n t W e He). specialize (A (nV t e) He').
    rewrite (Vt' (nV t e)) in A by auto. rewrite (pV_nV n t W) in A by auto. auto.
  - apply (wfp_ext n); try (eapply wfF; eauto). intros e He. change (nF t'' e = nF t e).
    assert (NL := neg_ltn n t W). pose proof (nF_lt n t W e He).
    rewrite Ft'' by auto.
    assert (Q : nF t' (neg (nF t e)) = neg e) by (rewrite Ft', neg_neg, (pF_nF n t W); auto).
    rewrite <- Q. rewrite (pF_nF n t' W'); auto. apply neg_neg.
Qed.

Lemma tri_eqb_spec n t u : well_formed n t -> well_formed n u -> (tri_eqb t u = true <-> tV t = tV u).
Proof.
  intros W U. unfold tri_eqb, peqb. destruct (list_eq_dec Nat.eq_dec (fwd (tV t)) (fwd (tV u))) as [E|E].
  - split; auto. intros _. apply (wfp_ext n); try (eapply wfV; eauto). intros. unfold fw. now rewrite E.
  - split; [discriminate|]. intros Q. exfalso. apply E. now rewrite Q.
Qed.

Lemma faces_of_boundary n t u : well_formed n t -> well_formed n u -> tV t = tV u ->
  (forall e, e < n -> (nF t e = e <-> nF u e = e)) -> tF t = tF u.
Proof.
  intros W U E B. apply (wfp_ext n); try (eapply wfF; eauto). intros e He. change (nF t e = nF u e).
  destruct (Nat.eq_dec (nF t e) e) as [Q|Q].
  - rewrite Q. symmetry. now apply B.
  - (* e = -V(nF t e) *)
    assert (H1 := nF_lt n t W e He). pose proof (nonboundary_nF n t W e He Q) as N.
    pose proof (nV_link n t W _ H1 N) as L. rewrite (pF_nF n t W) in L by auto.
    assert (N' : nF u (nF t e) <> nF t e) by (rewrite <- B; auto).
    pose proof (wf_link _ _ U _ H1 N') as L'. unfold nV in L, L'. rewrite <- E, L, neg_neg in L'. auto.
Qed.

(** ** Relabeling *)

Lemma has_boundary_Ok n t : well_formed n t ->
  exists b, has_boundary t = Ok b /\ (b = true <-> exists e, e < n /\ nF t e = e).
Proof.
  intros W. unfold has_boundary. rewrite (boundary_of_Ok n) by (auto; intros; now apply (half_edges_lt n t)). cbn [bind].
  set (l := filter _ _). eexists. split; eauto.
  assert (I : forall e, In e l <-> e < n /\ nF t e = e).
  { intros e. unfold l. rewrite filter_In, (half_edges_lt n t), Nat.eqb_eq; tauto. }
  destruct l as [|x l]; cbn; split; try discriminate; auto.
  - intros (e & H). apply I in H. destruct H.
  - intros _. exists x. apply I. cbn; auto.
Qed.

(** The permutation maps the half edges of an edge to the half edges of an edge. *)
Definition edge_map (n : nat) (r : perm) : Prop := forall e, e < n -> fw r (neg e) = neg (fw r e).

Lemma relabel_check_Ok n t r : well_formed n t -> wfp n r ->
  exists ok, omap (fun e => do p <- papp r (positive e); do q <- papp r (negative e); Ok (q =? neg p)) (edges t) = Ok ok /\
    (forallb (fun b => b) ok = true <-> edge_map n r).
Proof.
  intros W R. destruct (wf_even _ _ W) as (m & Hm).
  assert (EI : forall e, In e (edges t) <-> exists i, i < m /\ e = 2 * i).
  { intros e. unfold edges. rewrite (wf_size n t W), in_map_iff.
    replace (n / 2) with m by (subst n; symmetry; rewrite Nat.mul_comm; apply Nat.div_mul; lia).
    split; intros (i & A & B); exists i.
    - apply in_seq in B. lia.
    - split; auto. apply in_seq. lia. }
  exists (map (fun e => fw r (neg e) =? neg (fw r e)) (edges t)). split.
  - apply omap_map. intros e He. apply EI in He as (i & Hi & ->). unfold positive, negative.
    rewrite (papp_Ok n) by (try lia; apply R). cbn [bind].
    rewrite (papp_Ok n); [reflexivity|apply R|]. apply (neg_ltn n t W). lia.
  - rewrite forallb_forall. split.
    + intros H e He.
      assert (P : forall i, i < m -> fw r (neg (2 * i)) = neg (fw r (2 * i))).
      { intros i Hi. apply Nat.eqb_eq. apply H. apply in_map_iff. exists (2 * i). split; auto. apply EI. eauto. }
      destruct (Nat.Even_or_Odd e) as [(i & E)|(i & E)].
      * rewrite E. apply P. lia.
      * assert (En : neg (2 * i) = e).
        { rewrite E. replace (2 * i + 1) with (S (2 * i)) by lia. apply neg_even. }
        rewrite <- En. rewrite P by lia. now rewrite !neg_neg.
    + intros H b Hb. apply in_map_iff in Hb as (e & <- & He). apply EI in He as (i & Hi & ->).
      apply Nat.eqb_eq. apply H. lia.
Qed.

Lemma relabel_Ok n t r : well_formed n t -> wfp n r -> edge_map n r -> (forall e, e < n -> nF t e <> e) ->
  exists t', relabel t r = Ok t' /\ well_formed n t' /\
    (forall e, e < n -> nF t' (fw r e) = fw r (nF t e)) /\ (forall e, e < n -> nV t' (fw r e) = fw r (nV t e)).
Proof.
  intros W R EM NB. unfold relabel.
  destruct (has_boundary_Ok n t W) as (b & -> & Hb). cbn [bind].
  destruct b. { exfalso. destruct Hb as [Hb _]. destruct (Hb eq_refl) as (e & He & B). apply (NB e He B). }
  rewrite (wf_size n t W). destruct (wf_even _ _ W) as (m & Hm).
  assert (H2 : 2 * (n / 2) = n) by (subst n; rewrite (Nat.mul_comm 2 m), Nat.div_mul by lia; lia).
  rewrite H2. unfold psize. rewrite (fwd_len _ _ R), Nat.eqb_refl.
  destruct (relabel_check_Ok n t r W R) as (ok & -> & Hok). cbn [bind].
  destruct (forallb (fun b => b) ok); [|exfalso; destruct Hok as [_ Hok]; specialize (Hok EM); discriminate].
  destruct (pmul_Ok n r (tV t) R (wfV _ _ W)) as (x & -> & Wx & Fx & _). cbn [bind].
  rewrite (pinv_Ok n r R). cbn [bind].
  destruct (pmul_Ok n x (flipp r) Wx (wfp_flipp _ _ R)) as (V & -> & WV & FV & _). cbn [bind].
  assert (NL := neg_ltn n t W). assert (RL := fw_lt n r R). assert (BL := bw_lt n r R).
  assert (EM' : forall e, e < n -> bw r (neg e) = neg (bw r e)).
  { intros e He. apply (fw_inj n r R); auto. rewrite (fw_bw n r R), EM, (fw_bw n r R); auto. }
  destruct (make_tri_complete n V [] (fun e => fw r (nF t (bw r e))) (fun e => fw r (pF t (bw r e)))) as (t' & E & W' & EV & EF).
  - auto.
  - eapply wf_mod; eauto.
  - split; intros e He; (split; [auto using (nF_lt n t W), (pF_lt n t W)|]).
    + rewrite (bw_fw n r R), (pF_nF n t W), (fw_bw n r R); auto using (nF_lt n t W).
    + rewrite (bw_fw n r R), (nF_pF n t W), (fw_bw n r R); auto using (pF_lt n t W).
  - intros e He [].
  - intros e He _. rewrite FV, Fx by (auto; apply BL; auto). change (fw (flipp r) e) with (bw r e).
    change (fw (tV t)) with (nV t).
    pose proof (nV_lt n t W (bw r e) (BL e He)). rewrite EM', (bw_fw n r R) by auto.
    rewrite (wf_link _ _ W); auto. now apply (fw_bw n r R).
  - intros e He. pose proof (BL e He) as H1. pose proof (nF_lt n t W _ H1) as K. pose proof (nF_lt n t W _ K).
    rewrite (bw_fw n r R (nF t (bw r e))) by auto. rewrite (bw_fw n r R) by auto. rewrite (wf_triangle _ _ W) by auto. now apply (fw_bw n r R).
  - exists t'. split; auto. split; auto. split.
    + intros e He. rewrite EF, (bw_fw n r R); auto.
    + intros e He. unfold nV at 1. rewrite EV. change (fw V (fw r e) = fw r (nV t e)).
      rewrite FV, Fx; auto. change (fw (flipp r) (fw r e)) with (bw r (fw r e)). rewrite (bw_fw n r R); auto.
      apply BL. auto.
Qed.

Lemma relabel_throws n t r m : well_formed n t -> wfp m r ->
  (exists e, e < n /\ nF t e = e) \/ m <> n \/ ~ edge_map n r -> relabel t r = Throw.
Proof.
  intros W R H. unfold relabel.
  destruct (has_boundary_Ok n t W) as (b & -> & Hb). cbn [bind]. destruct b; auto.
  rewrite (wf_size n t W). destruct (wf_even _ _ W) as (k & Hk).
  assert (H2 : 2 * (n / 2) = n) by (subst n; rewrite (Nat.mul_comm 2 k), Nat.div_mul by lia; lia).
  rewrite H2. unfold psize. rewrite (fwd_len _ _ R).
  destruct (Nat.eqb_spec n m) as [<-|]; auto.
  destruct (relabel_check_Ok n t r W R) as (ok & -> & Hok). cbn [bind].
  destruct (forallb (fun b => b) ok); auto. exfalso.
  destruct H as [H|[H|H]].
  - apply Hb in H. discriminate.
  - contradiction.
  - apply H. now apply Hok.
Qed.
