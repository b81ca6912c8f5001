(** * Linear maps acting on flat triangulations *)
From Coq Require Import ZArith Reals List Arith Bool Lia Lra Psatz Permutation.
From Verif Require Import Base HalfEdge HalfEdgeFacts Perm PermSpec PermFacts PermCycles PermLemmas
  IndexedSet Combinatorial CombinatorialSpec CombinatorialFacts CombinatorialFlip
  CombinatorialHistory CombinatorialOps ExactReal Vector PlaneSpec Plane VectorFacts FlatTri FlatSpec FlatFacts FlatSum.
Import ListNotations.
Local Open Scope nat_scope.

Section flat.
Context {K : ExactReal}.
Implicit Types (s u : flat K) (n e : nat).

Lemma pdet_papply a b c d p q : pdet (papply a b c d p) (papply a b c d q) = ((a * d - b * c) * pdet p q)%R.
Proof. unfold pdet, papply; cbn. ring. Qed.
Lemma padd_papply a b c d p q : padd (papply a b c d p) (papply a b c d q) = papply a b c d (padd p q).
Proof. unfold padd, papply; cbn. f_equal; ring. Qed.
Lemma pneg_papply a b c d p : pneg (papply a b c d p) = papply a b c d (pneg p).
Proof. unfold pneg, papply; cbn. f_equal; ring. Qed.
Lemma papply_zero a b c d : papply a b c d (0, 0)%R = (0, 0)%R.
Proof. unfold papply; cbn. f_equal; ring. Qed.
Lemma vden_apply (a b c d : K) v : vden (vapply a b c d v) = papply (den a) (den b) (den c) (den d) (vden v).
Proof. unfold vden, papply, vapply; cbn. now rewrite !den_add, !den_mul. Qed.

Lemma vv_map t (g : nat -> vec K) n e : e < n -> vv (mkFlat t (map g (seq 0 n))) e = vden (g e).
Proof. intros He. unfold vv. cbn [fvec]. now rewrite nth_map_seq. Qed.

(** A surface with the same faces and vectors transformed with positive determinant. *)
Lemma same_faces_flat n s u a b c d : flat_surface n s -> well_formed n (fT u) -> length (fvec u) = n ->
  (0 < a * d - b * c)%R -> (forall e, e < n -> fF u e = fF s e) -> (forall e, e < n -> vv u e = papply a b c d (vv s e)) ->
  flat_surface n u.
Proof.
  intros S W L D Ef Ev. constructor; auto.
  - intros e He. assert (Hn := neg_ltn n _ W e He). rewrite !Ev, (fs_odd n s S) by auto. symmetry. apply pneg_papply.
  - intros e He. assert (H1 := fF_lt n s e S He). assert (H2 := fF_lt n s _ S H1). rewrite (Ef e He), (Ef _ H1). intros B.
    destruct (fs_flat n s S e He B) as [Z C]. rewrite !Ev by auto. rewrite !padd_papply, Z, papply_zero, pdet_papply. split; auto.
    now apply Rmult_lt_0_compat.
Qed.

(** The mirror image. *)
Lemma reversed_faces_flat n s u a b c d : flat_surface n s -> well_formed n (fT u) -> length (fvec u) = n ->
  (a * d - b * c < 0)%R -> (forall e, e < n -> fF u (neg (fF s e)) = neg e) -> (forall e, e < n -> vv u e = papply a b c d (vv s e)) ->
  flat_surface n u.
Proof.
  intros S W L D Ef Ev. assert (NL := neg_ltn n _ W). constructor; auto.
  - intros e He. rewrite !Ev, (fs_odd n s S) by auto. symmetry. apply pneg_papply.
  - intros e He. assert (He' := NL e He).
    (* -e = F g, so that the face of e is e, -g, -f with f, g, -e in this order in the old face *)
    assert (X : exists f, f < n /\ fF s (fF s (fF s f)) = neg e /\ f = neg e) by (exists (neg e); split; auto; split; auto; now apply (fF3 n)).
    destruct X as (f & Hf & F3 & ->). assert (H1 := fF_lt n s _ S He'). assert (H2 := fF_lt n s _ S H1).
    assert (E1 : fF u e = neg (fF s (fF s (neg e)))).
    { rewrite <- (neg_neg e) at 1. rewrite <- (fF3 n s (neg e) S He') at 1. now apply Ef. }
    assert (E2 : fF u (fF u e) = neg (fF s (neg e))).
    { rewrite E1. now apply Ef. }
    rewrite E2, E1. intros B. assert (B' : fF s (neg e) <> neg e).
    { intros Q. apply B. rewrite !Q. apply neg_neg. }
    destruct (fs_flat n s S (neg e) He' B') as [Z C].
    rewrite !Ev by auto. rewrite !padd_papply, pdet_papply, !(fs_odd n s S) by auto. rewrite (fs_odd n s S e He) in *.
    revert Z C. destruct (vv s e) as [x y], (vv s (fF s (neg e))) as [x' y'], (vv s (fF s (fF s (neg e)))) as [x'' y''].
    unfold padd, pneg, pdet; cbn [fst snd]. intros Z C. injection Z as Z1 Z2.
    replace (x + - x'' + - x')%R with 0%R by lra. replace (y + - y'' + - y')%R with 0%R by lra. rewrite papply_zero. split; auto.
    assert (x'' = (x - x')%R) by lra. assert (y'' = (y - y')%R) by lra. subst x'' y''. nra.
Qed.

Lemma closed_has_boundary n s : flat_surface n s -> closed_surface n s ->
  has_boundary (fT s) = Ok false /\ boundary_of (fT s) (half_edges (fT s)) = Ok [].
Proof.
  intros S C. assert (W := fs_wf n s S). unfold has_boundary. rewrite (boundary_of_Ok n) by (auto; intros; now apply (half_edges_lt n (fT s))).
  replace (filter _ _) with (@nil nat); auto. symmetry.
  assert (Q : forall l, (forall e, In e l -> e < n) -> filter (fun e => nF (fT s) e =? e) l = []).
  { induction l as [|e l IH]; intros H; cbn; auto. assert (X := C e (H e (or_introl eq_refl))). apply Nat.eqb_neq in X. unfold fF in X. rewrite X. auto with datatypes. }
  apply Q. intros e. now apply (half_edges_lt n (fT s)).
Qed.

Definition mdet (a b c d : R) : R := (a * d - b * c)%R.

Lemma apply_matrix_Ok n s (a b c d : K) : flat_surface n s -> closed_surface n s -> mdet (den a) (den b) (den c) (den d) <> 0%R ->
  exists u, apply_matrix s a b c d = Ok u /\ flat_surface n u /\ closed_surface n u /\
    (forall e, e < n -> vv u e = papply (den a) (den b) (den c) (den d) (vv s e)) /\
    ((0 < mdet (den a) (den b) (den c) (den d))%R -> forall e, e < n -> fF u e = fF s e) /\
    ((mdet (den a) (den b) (den c) (den d) < 0)%R -> forall e, e < n -> fF u (neg (fF s e)) = neg e).
Proof.
  intros S C D. assert (W := fs_wf n s S). unfold apply_matrix. destruct (closed_has_boundary n s S C) as [HB BO].
  pose proof (reqb_spec K (rsub (rmul a d) (rmul b c)) (rofZ 0)) as Q. rewrite den_sub, !den_mul, den_ofZ in Q.
  destruct (reqb _ _); [exfalso; apply D; apply Q; auto|]. rewrite HB. cbn [bind].
  pose proof (rltb_spec K (rsub (rmul a d) (rmul b c)) (rofZ 0)) as R. rewrite den_sub, !den_mul, den_ofZ in R.
  assert (G : forall t1, well_formed n t1 -> exists t2, well_formed n t2 /\ tV t2 = tV t1 /\ tF t2 = tF t1 /\
     let u := mkFlat t2 (map (fun e => vapply a b c d (vat' s e)) (seq 0 n)) in
     ((make_flat t1 (fun e => do v <- from_he s e; Ok (vapply a b c d v)) = Ok u /\ triangles_flat n u) \/
      (make_flat t1 (fun e => do v <- from_he s e; Ok (vapply a b c d v)) = Throw /\ ~ triangles_flat n u))).
  { intros t1 W1. apply (make_flat_spec n t1 _ (fun e => vapply a b c d (vat' s e)) W1).
    intros e He. rewrite from_he_Ok by (rewrite (fs_length n s S); auto). reflexivity. }
  unfold mdet in *. destruct (rltb _ _).
  - assert (N : (den a * den d - den b * den c < 0)%R) by (apply R; auto).
    destruct (reverse_Ok n (fT s) W) as (t1 & Rv & W1 & _ & EF). unfold reverse in Rv.
    apply bind_Ok in Rv as (V & Pv & Rv). rewrite BO in Rv. cbn [bind map] in Rv. rewrite Pv. cbn [bind]. rewrite Rv. cbn [bind].
    destruct (G t1 W1) as (t2 & W2 & _ & EF2 & M). cbv zeta in M. remember (mkFlat t2 _) as u eqn:Eu.
    assert (Ev : forall e, e < n -> vv u e = papply (den a) (den b) (den c) (den d) (vv s e)).
    { intros e He. subst u. rewrite vv_map by auto. apply vden_apply. }
    assert (Ef : forall e, e < n -> fF u (neg (fF s e)) = neg e).
    { intros e He. subst u. unfold fF at 1. cbn [fT]. rewrite (same_nF _ _ _ EF2). now apply EF. }
    assert (Su : flat_surface n u).
    { eapply (reversed_faces_flat n s u); eauto; subst u; cbn [fT fvec]; auto. now rewrite map_length, seq_length. }
    exists u. destruct M as [[M _]|[_ M]]; [|exfalso; apply M, Su]. split; auto. split; auto. split; [|split; auto; split; auto; lra].
    intros e He E. assert (He' := neg_ltn n _ W e He).
    pose proof (pF_lt n _ W _ He') as Hp. pose proof (nF_pF n _ W _ He') as Ep. specialize (Ef _ Hp). unfold fF in Ef at 2. rewrite Ep, neg_neg, E in Ef.
    apply (C _ Hp). unfold fF. rewrite Ep. apply neg_inj. now rewrite neg_neg.
  - assert (P : (0 < den a * den d - den b * den c)%R).
    { destruct (Rtotal_order 0 (den a * den d - den b * den c)) as [|[|X]]; auto; [congruence|]. apply R in X. discriminate. }
    destruct (clone_Ok n (fT s) W) as (t1 & Cl & W1 & _ & EF). rewrite Cl. cbn [bind].
    destruct (G t1 W1) as (t2 & W2 & _ & EF2 & M). cbv zeta in M. remember (mkFlat t2 _) as u eqn:Eu.
    assert (Ev : forall e, e < n -> vv u e = papply (den a) (den b) (den c) (den d) (vv s e)).
    { intros e He. subst u. rewrite vv_map by auto. apply vden_apply. }
    assert (Ef : forall e, e < n -> fF u e = fF s e).
    { intros e He. subst u. unfold fF at 1. cbn [fT]. now rewrite (same_nF _ _ _ EF2), (same_nF _ _ _ EF). }
    assert (Su : flat_surface n u).
    { eapply (same_faces_flat n s u); eauto; subst u; cbn [fT fvec]; auto. now rewrite map_length, seq_length. }
    exists u. destruct M as [[M _]|[_ M]]; [|exfalso; apply M, Su]. split; auto. split; auto. split; [|split; auto; split; auto; lra].
    intros e He. rewrite Ef; auto.
Qed.

Lemma apply_matrix_Throw n s (a b c d : K) : flat_surface n s ->
  (mdet (den a) (den b) (den c) (den d) = 0%R \/ ~ closed_surface n s) -> apply_matrix s a b c d = Throw.
Proof.
  intros S H. unfold apply_matrix. pose proof (reqb_spec K (rsub (rmul a d) (rmul b c)) (rofZ 0)) as Q. rewrite den_sub, !den_mul, den_ofZ in Q.
  destruct (reqb _ _); auto. assert (D : mdet (den a) (den b) (den c) (den d) <> 0%R) by (intros X; apply Q in X; discriminate).
  destruct H as [H|H]; [contradiction|]. destruct (has_boundary_Ok n _ (fs_wf n s S)) as (hb & -> & B). cbn [bind].
  destruct hb; auto. exfalso. apply H. intros e He E. assert (X : false = true) by (apply B; eauto). discriminate.
Qed.

(** Areas. *)
Lemma area_sum_same n s u a b c d : flat_surface n s -> 
  (forall e, e < n -> fF u e = fF s e) -> (forall e, e < n -> vv u e = papply a b c d (vv s e)) ->
  area_sum n u = (mdet a b c d * area_sum n s)%R.
Proof.
  intros S Ef Ev. unfold area_sum. rewrite <- rsum_scale. apply rsum_ext. intros e I. apply in_seq in I. assert (He : e < n) by lia.
  unfold corner_area, triangle_area2. rewrite !Ef by auto. destruct (_ =? _); [lra|]. rewrite !Ev by (auto; now apply fF_lt). apply pdet_papply.
Qed.
Lemma area_sum_reversed n s u a b c d : flat_surface n s -> closed_surface n s -> closed_surface n u ->
  (forall e, e < n -> fF u (neg (fF s e)) = neg e) -> (forall e, e < n -> vv u e = papply a b c d (vv s e)) ->
  area_sum n u = (- mdet a b c d * area_sum n s)%R.
Proof.
  intros S C Cu Ef Ev. unfold area_sum.
  assert (NL := neg_ltn n _ (fs_wf n s S)).
  assert (B : bijection n (fun e => neg (fF s e)) (fun e => pF (fT s) (neg e))).
  { destruct (bijF n s S) as [B1 B2]. split; intros x Hx.
    - rewrite neg_neg. destruct (B1 x Hx). split; auto.
    - destruct (B2 _ (NL x Hx)) as [H1 H2]. rewrite H2. split; auto. apply neg_neg. }
  rewrite <- (reindex n _ _ (corner_area u) B), <- rsum_scale. apply rsum_ext. intros e I. apply in_seq in I. assert (He : e < n) by lia.
  assert (H1 := fF_lt n s e S He). unfold corner_area, triangle_area2.
  pose proof (Cu _ (NL _ H1)) as X. apply Nat.eqb_neq in X. rewrite X. pose proof (C e He) as Y. apply Nat.eqb_neq in Y. rewrite Y.
  rewrite Ef by auto. rewrite !Ev by auto. rewrite pdet_papply. rewrite !(fs_odd n s S) by auto. unfold mdet, pdet, pneg; cbn. ring.
Qed.

(** [scale]. *)
Lemma fscale_Ok n s c : flat_surface n s -> c <> 0%Z ->
  exists u, fscale s c = Ok u /\ flat_surface n u /\ (forall e, e < n -> fF u e = fF s e) /\
    (forall e, e < n -> nV (fT u) e = nV (fT s) e) /\
    (forall e, e < n -> vv u e = pscale (IZR c) (vv s e)).
Proof.
  intros S Hc. assert (W := fs_wf n s S). unfold fscale. destruct (clone_Ok n (fT s) W) as (t1 & -> & W1 & EV1 & EF1). cbn [bind].
  destruct (make_flat_spec n t1 (fun e => do v <- from_he s e; Ok (vscaleZ c v)) (fun e => vscaleZ c (vat' s e)) W1) as (t2 & W2 & EV2 & EF2 & M).
  { intros e He. rewrite from_he_Ok by (rewrite (fs_length n s S); auto). reflexivity. }
  cbv zeta in M. remember (mkFlat t2 _) as u eqn:Eu.
  assert (Ev : forall e, e < n -> vv u e = pscale (IZR c) (vv s e)).
  { intros e He. subst u. rewrite vv_map by auto. apply vden_scaleZ. }
  assert (Ef : forall e, e < n -> fF u e = fF s e).
  { intros e He. subst u. unfold fF at 1. cbn [fT]. now rewrite (same_nF _ _ _ EF2), (same_nF _ _ _ EF1). }
  assert (Su : flat_surface n u).
  { apply (same_faces_flat n s u (IZR c) 0 0 (IZR c)); auto; subst u; cbn [fT fvec]; auto.
    - now rewrite map_length, seq_length.
    - assert (IZR c <> 0%R) by (intros X; apply eq_IZR in X; auto). nra.
    - intros e He. rewrite Ev by auto. unfold pscale, papply. f_equal; ring. }
  exists u. destruct M as [[M _]|[_ M]]; [|exfalso; apply M, Su]. split; auto. split; auto. split; auto. split; auto.
  intros e He. subst u. cbn [fT]. now rewrite (same_nV _ _ _ EV2), (same_nV _ _ _ EV1).
Qed.

(** ** Equality *)
Lemma in_edges n t e : well_formed n t -> (In e (edges t) <-> e < n /\ exists k, e = 2 * k).
Proof.
  intros W. destruct (wf_even _ _ W) as (m & En). unfold edges. rewrite (wf_size n t W), En, div2_even, in_map_iff. split.
  - intros (k & <- & I). apply in_seq in I. split; [lia|]. now exists k.
  - intros (L & k & ->). exists k. split; auto. apply in_seq. lia.
Qed.

Lemma flat_eqb_spec n m s u : flat_surface n s -> flat_surface m u ->
  exists b, flat_eqb s u = Ok b /\
   (b = true <-> n = m /\ (forall e, e < n -> nV (fT s) e = nV (fT u) e) /\ forall e, e < n -> vv s e = vv u e).
Proof.
  intros S U. assert (W := fs_wf n s S). assert (Wu := fs_wf m u U). unfold flat_eqb, tri_eqb, peqb.
  assert (L1 := fwd_len _ _ (wfV _ _ W)). assert (L2 := fwd_len _ _ (wfV _ _ Wu)).
  destruct (list_eq_dec Nat.eq_dec (fwd (tV (fT s))) (fwd (tV (fT u)))) as [E|E]; cbn [negb].
  - assert (Enm : m = n) by congruence. clear L2. rewrite Enm in *. clear Enm.
    rewrite (omap_map _ (fun e => veqb (vat' s e) (vat' u e))).
    2: { intros e I. apply (in_edges n) in I as [He _]; auto. unfold positive.
         rewrite from_he_Ok by (now rewrite (fs_length n s S)). cbn [bind]. rewrite from_he_Ok by (now rewrite (fs_length n u U)). reflexivity. }
    cbn [bind]. eexists. split; [reflexivity|]. rewrite forallb_forall. split.
    + intros H. split; auto. split; [intros e He; unfold nV; now rewrite E|].
      assert (Pos : forall k, 2 * k < n -> vv s (2 * k) = vv u (2 * k)).
      { intros k Hk. apply veqb_spec. apply H. apply in_map_iff. exists (2 * k). split; auto. apply (in_edges n); eauto. }
      intros e He. destruct (he_cases e) as (k & [-> | ->]); auto. rewrite <- neg_even. 
      assert (2 * k < n) by lia. rewrite (fs_odd n s S), (fs_odd n u U) by auto. now rewrite Pos.
    + intros (_ & _ & H) b I. apply in_map_iff in I as (e & <- & I). apply (in_edges n) in I as [He _]; auto. apply veqb_spec. now apply H.
  - exists false. split; auto. split; [discriminate|]. intros (-> & H & _). exfalso. apply E. apply nth_ext_nat; [congruence|].
    rewrite L1. exact H.
Qed.

(** On a surface without boundary the faces determine the vertices. *)
Lemma closed_nV n s e : flat_surface n s -> closed_surface n s -> e < n -> nV (fT s) e = neg (fF s (fF s e)).
Proof. intros S C He. apply (nV_link' n _ (fs_wf n s S)); auto. now apply C. Qed.
End flat.
