(** * Clones, relabelings and slits of flat triangulations *)
From Coq Require Import ZArith Reals List Arith Bool Lia Lra Psatz Permutation.
From Verif Require Import Base HalfEdge HalfEdgeFacts Perm PermSpec PermFacts PermCycles PermLemmas
  IndexedSet Combinatorial CombinatorialSpec CombinatorialFacts CombinatorialFlip
  CombinatorialHistory CombinatorialOps CombinatorialSlit ExactReal Vector PlaneSpec Plane VectorFacts FlatTri FlatSpec FlatFacts FlatSum FlatLinear.
Import ListNotations.
Local Open Scope nat_scope.

Section flat.
Context {K : ExactReal}.
Implicit Types (s u : flat K) (n e h : nat).

Lemma fclone_Ok n s : flat_surface n s -> exists u, fclone s = Ok u /\ flat_surface n u /\
  (forall e, e < n -> fF u e = fF s e /\ nV (fT u) e = nV (fT s) e) /\ (forall e, e < n -> vv u e = vv s e).
Proof.
  intros S. assert (W := fs_wf n s S). unfold fclone. destruct (clone_Ok n (fT s) W) as (t1 & -> & W1 & EV1 & EF1). cbn [bind].
  destruct (make_flat_spec n t1 (from_he s) (vat' s) W1) as (t2 & W2 & EV2 & EF2 & M).
  { intros e He. apply from_he_Ok. now rewrite (fs_length n s S). }
  cbv zeta in M. remember (mkFlat t2 _) as u eqn:Eu.
  assert (Ev : forall e, e < n -> vv u e = vv s e) by (intros e He; subst u; now rewrite vv_map).
  assert (Ef : forall e, e < n -> fF u e = fF s e).
  { intros e He. subst u. unfold fF. cbn [fT]. now rewrite (same_nF _ _ _ EF2), (same_nF _ _ _ EF1). }
  assert (Su : flat_surface n u).
  { apply (same_faces_flat n s u 1 0 0 1); auto; subst u; cbn [fT fvec]; auto.
    - now rewrite map_length, seq_length.
    - lra.
    - intros e He. rewrite Ev by auto. unfold papply. destruct (vv s e). cbn. f_equal; ring. }
  exists u. destruct M as [[M _]|[_ M]]; [|exfalso; apply M, Su]. split; auto. split; auto. split; auto.
  intros e He. split; auto. subst u. cbn [fT]. now rewrite (same_nV _ _ _ EV2), (same_nV _ _ _ EV1).
Qed.

Lemma frelabel_Ok n s r : flat_surface n s -> closed_surface n s -> wfp n r -> edge_map n r ->
  exists u, frelabel s r = Ok u /\ flat_surface n u /\
    forall e, e < n -> fF u (fw r e) = fw r (fF s e) /\ nV (fT u) (fw r e) = fw r (nV (fT s) e) /\ vv u (fw r e) = vv s e.
Proof.
  intros S C R EM. assert (W := fs_wf n s S). unfold frelabel.
  destruct (relabel_Ok n (fT s) r W R EM C) as (t1 & -> & W1 & EF1 & EV1). cbn [bind].
  assert (BW : forall e, e < n -> bw r e < n /\ fw r (bw r e) = e).
  { intros e He. destruct R as (_ & _ & _ & B). destruct (B e He). auto. }
  destruct (make_flat_spec n t1 (fun h => do e <- ppre r h; from_he s e) (fun e => vat' s (bw r e)) W1) as (t2 & W2 & EV2 & EF2 & M).
  { intros e He. rewrite (ppre_Ok n) by (auto; apply R). cbn [bind]. apply from_he_Ok. rewrite (fs_length n s S). now apply BW. }
  cbv zeta in M. remember (mkFlat t2 _) as u eqn:Eu.
  assert (Lt : forall e, e < n -> fw r e < n) by (intros; eapply fw_lt; eauto).
  assert (Ev : forall e, e < n -> vv u (fw r e) = vv s e).
  { intros e He. subst u. rewrite vv_map by auto. change (vden (vat' s (bw r (fw r e)))) with (vv s (bw r (fw r e))). f_equal. eapply bw_fw; eauto. }
  assert (Ef : forall e, e < n -> fF u (fw r e) = fw r (fF s e)).
  { intros e He. subst u. unfold fF. cbn [fT]. rewrite (same_nF _ _ _ EF2). now apply EF1. }
  assert (Su : flat_surface n u).
  { constructor.
    - subst u; auto.
    - subst u; cbn [fvec]. now rewrite map_length, seq_length.
    - intros x Hx. destruct (BW x Hx) as [Hb <-]. rewrite <- EM by auto. rewrite !Ev by (auto; now apply (neg_ltn n _ W)). now apply (fs_odd n s S).
    - intros x Hx. destruct (BW x Hx) as [Hb <-]. rewrite Ef by auto. intros B.
      assert (H1 := fF_lt n s _ S Hb). assert (H2 := fF_lt n s _ S H1). rewrite Ef, !Ev by auto. apply (fs_flat n s S _ Hb).
      intros E. apply B. now rewrite E. }
  exists u. destruct M as [[M _]|[_ M]]; [|exfalso; apply M, Su]. split; auto. split; auto.
  intros e He. split; auto. split; auto. subst u. cbn [fT]. rewrite (same_nV _ _ _ EV2). now apply EV1.
Qed.

Lemma fslit_Ok n s e : flat_surface n s -> e < n -> fF s e <> e -> fF s (neg e) <> neg e ->
  (forall b, first_boundary (fT s) e b -> first_boundary (fT s) (neg e) b -> False) ->
  exists u, fslit s e = Ok u /\ flat_surface (n + 2) u /\ slit_faces n (fT s) (fT u) e /\
    (forall i, i < n -> vv u i = vv s i) /\ vv u n = vv s e.
Proof.
  intros S He B1 B2 FB. assert (W := fs_wf n s S). unfold fslit.
  destruct (slit_Ok n (fT s) e W He B1 B2 FB) as (t1 & -> & W1 & SF). cbn [bind].
  rewrite (wf_size n _ W). destruct (wf_even _ _ W) as (m & Em).
  assert (E2 : 2 * (n / 2) = n) by (rewrite Em, div2_even; auto). rewrite E2.
  assert (En : neg n = n + 1) by (rewrite Em, neg_even; lia).
  destruct (make_flat_spec (n + 2) t1 (fun h => if h =? n then from_he s e else if h =? neg n then do v <- from_he s e; Ok (vneg v) else from_he s h)
    (fun h => if h =? n then vat' s e else if h =? neg n then vneg (vat' s e) else vat' s h) W1) as (t2 & W2 & EV2 & EF2 & M).
  { intros h Hh. rewrite En. assert (L := fs_length n s S). destruct (Nat.eqb_spec h n); [apply from_he_Ok; lia|].
    destruct (Nat.eqb_spec h (n + 1)); [rewrite from_he_Ok by lia; reflexivity|]. apply from_he_Ok. lia. }
  cbv zeta in M. remember (mkFlat t2 _) as u eqn:Eu.
  assert (Eo : forall i, i < n -> vv u i = vv s i).
  { intros i Hi. subst u. rewrite vv_map by lia. rewrite En. destruct (Nat.eqb_spec i n); [lia|]. destruct (Nat.eqb_spec i (n + 1)); [lia|]. reflexivity. }
  assert (Ee : vv u n = vv s e).
  { subst u. rewrite vv_map by lia. rewrite Nat.eqb_refl. reflexivity. }
  assert (Ee' : vv u (n + 1) = pneg (vv s e)).
  { subst u. rewrite vv_map by lia. rewrite En, Nat.eqb_refl. destruct (Nat.eqb_spec (n + 1) n); [lia|]. apply vden_neg. }
  assert (SF' : slit_faces n (fT s) (fT u) e).
  { subst u. cbn [fT]. unfold slit_faces in *. rewrite !(same_nF _ _ _ EF2).
    destruct SF as (F1 & F2 & F3 & F4 & F5 & F6). repeat (split; [assumption|]). intros i Hi D1 D2. rewrite (same_nF _ _ _ EF2). now apply F6. }
  assert (Su : flat_surface (n + 2) u).
  { constructor.
    - subst u; auto.
    - subst u; cbn [fvec]. now rewrite map_length, seq_length.
    - intros i Hi. destruct (Nat.eq_dec i n) as [->|]; [now rewrite En, Ee, Ee'|].
      destruct (Nat.eq_dec i (n + 1)) as [->|]. { rewrite <- En, neg_neg, En, Ee, Ee', pneg_pneg. reflexivity. }
      assert (Hi' : i < n) by lia. rewrite !Eo by (auto; now apply (neg_ltn n _ W)). now apply (fs_odd n s S).
    - destruct SF' as (F1 & F2 & F3 & F4 & F5 & F6). destruct (fs_flat n s S e He B1) as [Z C].
      assert (H1 := fF_lt n s e S He). assert (H2 := fF_lt n s _ S H1).
      assert (C1 := corner_area_next n s e S He). assert (C2 := corner_area_next n s _ S H1).
      assert (D1 := fF_nb n s e S He B1). assert (D2 := fF_nb n s _ S H1 D1). assert (F3e := fF3 n s e S He).
      pose proof (fs_flat n s S _ H1 D1) as [Z1 P1]. pose proof (fs_flat n s S _ H2 D2) as [Z2 P2].
      rewrite F3e in *. unfold fF in *.
      intros i Hi. fold (fF u i). unfold fF. intros NB.
      destruct (Nat.eq_dec i e) as [->|I1]; [contradiction|].
      destruct (Nat.eq_dec i (n + 1)) as [->|I2]; [contradiction|].
      destruct (Nat.eq_dec i n) as [->|I3]. { rewrite F3, F4, Ee, !Eo by auto. auto. }
      assert (Hi' : i < n) by lia.
      destruct (Nat.eq_dec i (nF (fT s) e)) as [->|I4]. { rewrite F4, F5, Ee, !Eo by auto. auto. }
      destruct (Nat.eq_dec i (nF (fT s) (nF (fT s) e))) as [->|I5]. { rewrite F5, F3, Ee, !Eo by auto. auto. }
      assert (E1 : nF (fT u) i = nF (fT s) i) by auto. rewrite E1 in *.
      assert (H1' := fF_lt n s i S Hi'). assert (H2' := fF_lt n s _ S H1'). assert (T3 := fF3 n s i S Hi'). unfold fF in *.
      assert (E1' : nF (fT u) (nF (fT s) i) = nF (fT s) (nF (fT s) i)).
      { apply F6; auto; intros X; rewrite X in T3; [|rewrite F3e in T3]; congruence. }
      rewrite E1', !Eo by auto. apply (fs_flat n s S i Hi' NB). }
  exists u. destruct M as [[M _]|[_ M]]; [|exfalso; apply M, Su]. auto.
Qed.
End flat.
