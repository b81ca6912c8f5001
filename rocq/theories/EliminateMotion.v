(** * Moving a marked point along an edge into another vertex *)
From Coq Require Import ZArith QArith Qreals Reals List Arith Bool Lia Lra Psatz Permutation.
From Verif Require Import Base HalfEdge HalfEdgeFacts Perm PermSpec PermFacts PermCycles PermLemmas IndexedSet IndexedSetFacts Combinatorial CombinatorialSpec
  CombinatorialFacts CombinatorialFlip CombinatorialHistory CombinatorialOps Tracked ExactReal Vector PlaneSpec Plane VectorFacts Arb ArbFacts Quadratic QuadraticSpec QuadraticFacts
  FlatTri FlatSpec FlatFacts FlatSum FlatLinear FlatOps FlatAngle FlatSector FlatDelaunay Collapse Shift ShiftSpec ShiftFacts ShiftRun ShiftInvariants ShiftAngle
  CollapseSpec CollapseMotionSpec CollapseFacts CollapseRun CollapseVertices CollapseShift CollapseFlips EliminateSpec.
Import ListNotations.
Local Open Scope R_scope.

Section motion.
Context {K : ExactReal}.
Variable n : nat.
Implicit Types (s : flat K) (d : list (vec K)).

Lemma same_vertex_ext s (u : flat K) h x : flat_surface n s -> (forall h, (h < n)%nat -> fV u h = fV s h) -> (h < n)%nat -> same_vertex (fT u) h x <-> same_vertex (fT s) h x.
Proof.
  intros S EV.
  assert (It : forall k h, (h < n)%nat -> Nat.iter k (nV (fT u)) h = Nat.iter k (nV (fT s)) h).
  { induction k as [|k IH]; intros g H; auto. change (Nat.iter (Datatypes.S k) (nV (fT u)) g) with (nV (fT u) (Nat.iter k (nV (fT u)) g)).
    change (Nat.iter (Datatypes.S k) (nV (fT s)) g) with (nV (fT s) (Nat.iter k (nV (fT s)) g)). rewrite IH by auto. apply EV. apply (PermCycles.iter_lt n (nV (fT s)) (pV (fT s))); auto. apply (bijV n s S). }
  intros H. split; intros (k & E); exists k; rewrite <- E; [symmetry|]; now apply It.
Qed.
(** The vertex with the same half edges. *)
Lemma vertex_ext s (u : flat K) v : flat_surface n s -> flat_surface n u -> (forall h, (h < n)%nat -> fV u h = fV s h) -> In v (tverts (fT s)) ->
  exists v', In v' (tverts (fT u)) /\ forall h, (h < n)%nat -> scontains v' h = scontains v h.
Proof.
  intros S Su EV I. destruct (vertex_nonempty n s v S I) as (x & Hx & Cx). destruct (vertex_of n u x Su Hx) as (v' & I' & Cx'). exists v'. split; auto.
  intros h H. apply eq_true_iff_eq. rewrite (vertex_same n u v' x h Su I' Cx'), (vertex_same n s v x h S I Cx), (same_vertex_ext s u) by auto. tauto.
Qed.
Lemma angle_ext s (u : flat K) v v' : flat_surface n s -> flat_surface n u -> (forall h, (h < n)%nat -> fV u h = fV s h) -> (forall h, (h < n)%nat -> vv u h = vv s h) ->
  In v (tverts (fT s)) -> In v' (tverts (fT u)) -> (forall h, (h < n)%nat -> scontains v' h = scontains v h) -> angle u v' = angle s v.
Proof.
  intros S Su EV Evv I I' Es. rewrite (angle_Ok n u v' Su I'), (angle_Ok n s v S I). f_equal. f_equal.
  replace (members n v') with (members n v) by (unfold members; apply filter_ext_in; intros h Q; apply in_seq in Q; symmetry; apply Es; lia).
  apply filter_ext_in. intros h Q. apply members_In in Q as [Hh _]. rewrite EV, !Evv; auto. now apply (fV_lt n).
Qed.

(** A flip of a surface is the same as a flip by the program. *)
Lemma flipped_same s1 d1 e s2 d2 : flat_surface n s1 -> closed_surface n s1 -> closed_surface n s2 -> flipped_to n s1 d1 e s2 d2 ->
  exists s3, fflip s1 e = (s3, Ok tt) /\ flat_surface n s3 /\ closed_surface n s3 /\ (forall h, (h < n)%nat -> fV s2 h = fV s3 h) /\ (forall h, (h < n)%nat -> vv s2 h = vv s3 h).
Proof.
  intros S C C2 M. pose proof M as (CF & S2 & _ & (G1 & G2 & G3 & G4 & G5 & G6 & O) & Ve & _ & Vo). pose proof CF as (He & _).
  destruct (fflip_Ok n s1 e S He CF) as (s3 & E & S3 & _). destruct (flip_facts n s1 e s3 S He E) as (a & b & c & f & Ea & Eb & Ee & Ec & Ef & En & F1 & F2 & F3 & F4 & F5 & F6 & ND & Ha & Hb & Hc & Hf & Hn & Oi & _).
  assert (C3 := closed_flip n s1 e s3 S C He E).
  change (nF (fT s1) e) with (fF s1 e) in *. change (nF (fT s1) (neg e)) with (fF s1 (neg e)) in *. rewrite Ea, Ec in *.
  change (nF (fT s1) a) with (fF s1 a) in *. change (nF (fT s1) c) with (fF s1 c) in *. rewrite Eb, Ef in *.
  assert (EF : forall i, (i < n)%nat -> fF s2 i = fF s3 i).
  { intros i Hi. destruct (in_dec Nat.eq_dec i [e; a; b; neg e; c; f]) as [I|I].
    - unfold fF at 1. destruct I as [<-|[<-|[<-|[<-|[<-|[<-|[]]]]]]]; congruence.
    - rewrite (proj1 (Oi i Hi I)). apply (O i Hi I). }
  exists s3. split; auto. split; auto. split; auto. split.
  - intros i Hi. rewrite (fV_eq n s2 i S2 Hi (C2 i Hi)), (fV_eq n s3 i S3 Hi (C3 i Hi)). rewrite (EF i Hi), EF; auto. now apply (fF_lt n).
  - destruct (fflip_spec n s1 e s3 S He E) as (_ & _ & _ & Vo3 & Ve3). rewrite Ea, Eb, Ec in Ve3.
    intros i Hi. destruct (Nat.eq_dec i e) as [->|N1]; [congruence|]. destruct (Nat.eq_dec i (neg e)) as [->|N2].
    + rewrite (fs_odd n s2 S2), (fs_odd n s3 S3) by auto. congruence.
    + rewrite (proj1 (Vo i Hi N1 N2)). unfold vv. now rewrite Vo3.
Qed.

Lemma starts_next s v h : flat_surface n s -> closed_surface n s -> In v (tverts (fT s)) -> (h < n)%nat -> starts v (neg h) = starts v (fF s h).
Proof.
  intros S C I H. assert (H1 := fF_lt n s h S H). unfold starts. rewrite <- (vertex_next n s v (fF s h) S I H1). rewrite (fV_eq n s _ S H1 (C _ H1)).
  rewrite (fF3 n s h S H). reflexivity.
Qed.

Lemma move_into s1 d1 c s2 d2 e : flat_surface n s1 -> closed_surface n s1 -> shift_of n s1 d1 -> 0 < c <= 1 -> positive_until n s1 d1 c -> moved_to n s1 d1 c s2 d2 ->
  moves_into n s1 d1 e -> moves_into n s2 d2 e.
Proof.
  intros S C Sh Hc Pu M (He & v & I & Ce & Cn & A & E). pose proof M as (S2 & _ & Q). split; auto.
  assert (Hn := neg_ltn n _ (fs_wf n s1 S) e He).
  destruct (vertex_ext s1 s2 v S S2) as (v' & I' & Es); auto. { intros h H. apply (Q h H). }
  exists v'. split; auto. rewrite !Es by auto. split; auto. split; auto. split.
  - rewrite <- A. apply (moved_angle n s1 d1 c s2 d2 v v'); auto. lra.
  - intros h H. assert (Hh := neg_ltn n _ (fs_wf n s1 S) h H). destruct (Q h H) as (_ & _ & _ & ->). destruct (Q e He) as (_ & _ & -> & _). unfold moving. rewrite !E by auto.
    assert (Se : forall g, (g < n)%nat -> starts v' g = starts v g) by (intros g G; unfold starts; now rewrite Es). rewrite !Se by auto.
    assert (S1 : starts v e = 1) by (unfold starts; now rewrite Ce). assert (S0 : starts v (neg e) = 0) by (unfold starts; now rewrite Cn). rewrite S1, S0. destruct (vv s1 e). unfold padd, pscale; cbn. f_equal; ring.
Qed.

Lemma flip_into s1 d1 f s2 d2 e : flat_surface n s1 -> closed_surface n s1 -> closed_surface n s2 -> shift_of n s1 d1 -> f <> e -> f <> neg e -> flipped_to n s1 d1 f s2 d2 ->
  moves_into n s1 d1 e -> moves_into n s2 d2 e.
Proof.
  intros S C C2 Sh N1 N2 M (He & v & I & Ce & Cn & A & E). split; auto.
  assert (Hn := neg_ltn n _ (fs_wf n s1 S) e He).
  destruct (flipped_same s1 d1 f s2 d2 S C C2 M) as (s3 & Ef & S3 & C3 & EV & Evv).
  pose proof M as ((Hf & _) & S2 & Sh2 & _ & _ & Df & Vo). assert (Hnf := neg_ltn n _ (fs_wf n s1 S) f Hf).
  destruct (In_nth _ _ [] I) as (i & Hi & Ei). destruct (flip_members n s1 f s3 S Hf Ef) as (L & Mem). specialize (fun x => Mem i x Hi). rewrite Ei in Mem.
  assert (I3 : In (nth i (tverts (fT s3)) []) (tverts (fT s3))) by (apply nth_In; lia). set (v3 := nth i (tverts (fT s3)) []) in *.
  assert (A3 : angle s3 v3 = Ok 1%nat).
  { rewrite <- A, <- Ei. refine (proj2 (flip_angle n s1 f s3 i S Hf Ef Hi _)). intros h Q. apply C. rewrite Ei in Q. exact (vertex_lt n s1 v h S I Q). }
  destruct (vertex_ext s3 s2 v3 S3 S2 EV I3) as (v' & I' & Es). exists v'. split; auto.
  assert (Me : forall h, h <> f -> h <> neg f -> moved (fT s1) f h = h).
  { intros h Q1 Q2. unfold moved. now rewrite (proj2 (Nat.eqb_neq h f)), (proj2 (Nat.eqb_neq h (neg f))). }
  assert (N3 : e <> neg f) by (intros Q; apply N2; now rewrite Q, neg_neg).
  assert (N4 : neg e <> f) by auto. assert (N5 : neg e <> neg f) by (intros Q; apply N1; rewrite <- (neg_neg e), Q; now rewrite neg_neg).
  rewrite !Es, !Mem, !Me by auto. split; auto. split; auto. split.
  { rewrite <- A3. eapply angle_ext; eauto. }
  assert (Se : forall g, (g < n)%nat -> starts v' g = starts v (moved (fT s1) f g)) by (intros g G; unfold starts; now rewrite Es, Mem).
  assert (Ve : vv s2 e = vv s1 e) by (apply Vo; auto). rewrite Ve.
  assert (Qf : dd d2 f = pscale (starts v' (neg f) - starts v' f) (vv s1 e)).
  { rewrite Df. rewrite !Se by auto. unfold moved. rewrite !Nat.eqb_refl. destruct (Nat.eqb_spec (neg f) f) as [Q|_]; [exfalso; revert Q; apply neg_ne|].
    assert (H1 := fF_lt n s1 f S Hf). assert (H2 := fF_lt n s1 _ S H1). assert (H3 := fF_lt n s1 _ S Hnf). assert (H4 := fF_lt n s1 _ S H3).
    rewrite !E by auto. rewrite !(starts_next s1 v) by auto.
    rewrite (fF3 n s1 f S Hf). rewrite <- (starts_next s1 v (neg f)) by auto. rewrite neg_neg.
    change (nF (fT s1) (nF (fT s1) (neg f))) with (fF s1 (fF s1 (neg f))). change (nF (fT s1) (nF (fT s1) f)) with (fF s1 (fF s1 f)).
    destruct (vv s1 e). unfold padd, pscale, pneg; cbn. f_equal; ring. }
  intros h H. destruct (Nat.eq_dec h f) as [->|P1]; auto. destruct (Nat.eq_dec h (neg f)) as [->|P2].
  - destruct Sh2 as (_ & Od & _). rewrite Od, Qf, neg_neg by auto. destruct (vv s1 e). unfold pscale, pneg; cbn. f_equal; ring.
  - assert (Hh := neg_ltn n _ (fs_wf n s1 S) h H). rewrite !Se, !Me by (auto; intros Q; first [apply P2; rewrite <- Q; now rewrite neg_neg | apply P1; rewrite <- (neg_neg h), Q; now rewrite neg_neg]).
    rewrite (proj2 (Vo h H P1 P2)). now apply E.
Qed.

Lemma into_stays s d e m : flat_surface n s -> closed_surface n s -> shift_of n s d -> (m = e \/ m = neg e) -> moves_into n s d e -> forall s' d', deforms_without n m s d s' d' -> moves_into n s' d' e.
Proof.
  intros S C Sh Em J s' d'. induction 1 as [|s1 d1 c s2 d2 D1 IH Hc Pu M|s1 d1 f s2 d2 D1 IH N1 N2 M]; auto.
  - destruct (deforms_good n s d S C Sh s1 d1 (without_deforms n m s d s1 d1 D1)) as (S1 & C1 & Sh1). eapply move_into; eauto.
  - destruct (deforms_good n s d S C Sh s1 d1 (without_deforms n m s d s1 d1 D1)) as (S1 & C1 & Sh1).
    assert (D2 : deforms_without n m s d s2 d2) by (eapply without_flip; eauto).
    destruct (deforms_good n s d S C Sh s2 d2 (without_deforms n m s d s2 d2 D2)) as (S2 & C2 & Sh2).
    eapply (flip_into s1 d1 f s2 d2 e); eauto; destruct Em as [->| ->]; auto. now rewrite neg_neg in N2.
Qed.

(** The half edges that leave a marked point have different directions. *)
Lemma one_direction s v h g r : flat_surface n s -> closed_surface n s -> In v (tverts (fT s)) -> angle s v = Ok 1%nat -> scontains v h = true -> scontains v g = true ->
  0 < r -> vv s h = pscale r (vv s g) -> h = g.
Proof.
  intros S C I A Ch Cg Hr E. assert (Hh := vertex_lt n s v h S I Ch). assert (Hg := vertex_lt n s v g S I Cg).
  assert (In1 : inner_vertex s v) by (intros x Q; exact (C x (vertex_lt n s v x S I Q))).
  assert (Nz := vv_nonzero n s h S Hh (C h Hh)).
  destruct (cover n s v (vv s h) S I In1 Nz) as (k & l & Ak & Nl & Ll & L). assert (k = 1)%nat by congruence. subst k.
  assert (L1 : In h l).
  { apply L. split; [apply members_In; auto|]. apply (same_hits n s h (nth h (fvec s) vzero)); auto. exists 1. split; [lra|]. change (vden (nth h (fvec s) vzero)) with (vv s h). destruct (vv s h); unfold pscale; cbn; f_equal; ring. }
  assert (L2 : In g l).
  { apply L. split; [apply members_In; auto|]. apply (same_hits n s g (nth h (fvec s) vzero)); auto. exists r. auto. }
  destruct l as [|a [|b l]]; try discriminate. destruct L1 as [->|[]], L2 as [->|[]]. reflexivity.
Qed.

Lemma into_moving s d e (u : R) : moves_into n s d e -> moving s d u e = pscale (1 - u) (vv s e).
Proof. intros (He & v & I & Ce & Cn & A & E). unfold moving. rewrite E by auto. unfold starts. rewrite Ce, Cn. destruct (vv s e). unfold padd, pscale; cbn. f_equal; ring. Qed.

Lemma into_ends s d e : flat_surface n s -> closed_surface n s -> shift_of n s d -> moves_into n s d e -> ends_in_point n s d (edge_at e).
Proof.
  intros S C Sh J. pose proof J as (He & v & I & Ce & Cn & A & E). assert (Hn := neg_ltn n _ (fs_wf n s S) e He).
  assert (Me := fun u => into_moving s d e u J).
  assert (Mn : forall u, moving s d u (neg e) = pscale (- (1 - u)) (vv s e)).
  { intros u. rewrite (mv_neg n s d S Sh) by auto. rewrite Me. destruct (vv s e). unfold pneg, pscale; cbn. f_equal; ring. }
  assert (Dv : ~ same_vertex (fT s) e (neg e)).
  { intros Q. assert (Z : scontains v (neg e) = true) by (apply (vertex_same n s v e (neg e) S I Ce); auto). congruence. }
  assert (Dv' : ~ same_vertex (fT s) (neg e) e).
  { intros Q. destruct (vertex_of n s (neg e) S Hn) as (w & Iw & Cw). assert (Z : scontains w e = true) by (apply (vertex_same n s w (neg e) e S Iw Cw); auto).
    assert (Z' : scontains v (neg e) = true) by (apply (vertex_same n s v e (neg e) S I Ce); split; auto; split; auto; apply (vertex_same n s w e (neg e) S Iw Z); auto). congruence. }
  assert (Em : edge_at e = e \/ edge_at e = neg e) by (unfold edge_at; destruct (Nat.even e); auto).
  assert (Ev : Nat.even (edge_at e) = true).
  { unfold edge_at. destruct (Nat.even e) eqn:Q; auto. revert Q. he_case e; rewrite ?neg_even, ?neg_odd; intros Q; [|apply Nat.even_spec; eexists; reflexivity]. rewrite Nat.even_mul in Q. discriminate. }
  assert (Area : forall u h, (h < n)%nat -> (h = e \/ h = neg e) -> 0 <= u < 1 -> 0 < pdet (moving s d u h) (moving s d u (fF s h))).
  { intros u h H Eh U. assert (D0 := proj2 (fs_flat n s S h H (C h H))). assert (Hf := fF_lt n s h S H).
    assert (X : exists k k', moving s d u h = pscale k (vv s h) /\ moving s d u (fF s h) = padd (vv s (fF s h)) (pscale k' (vv s h)) /\ 0 < k).
    { destruct Eh as [->| ->].
      - exists (1 - u). eexists. split; [apply Me|]. split; [|lra]. unfold moving. rewrite E by auto. f_equal. unfold pscale; cbn. rewrite <- !Rmult_assoc. reflexivity.
      - exists (1 - u), (- (u * (starts v (neg (fF s (neg e))) - starts v (fF s (neg e))))). rewrite Mn. rewrite (fs_odd n s S) by auto. split; [destruct (vv s e); unfold pneg, pscale; cbn; f_equal; ring|].
        split; [|lra]. unfold moving. rewrite E by auto. destruct (vv s e); unfold pneg, pscale; cbn; f_equal; f_equal; ring. }
    destruct X as (k & k' & -> & -> & Hk). replace (pdet _ _) with (k * pdet (vv s h) (vv s (fF s h))) by (destruct (vv s h), (vv s (fF s h)); unfold pdet, pscale, padd; cbn; ring).
    now apply Rmult_lt_0_compat. }
  split; [destruct Em as [->| ->]; auto|]. split; auto. split; [|split; [|split]].
  - destruct Em as [->| ->]; apply (ends_collapsible n); auto. now rewrite neg_neg.
  - destruct Em as [->| ->]; [rewrite Me|rewrite Mn]; unfold pscale; f_equal; ring.
  - assert (Ov : forall u h, 0 <= u <= 1 -> (h < n)%nat -> h <> e -> h <> neg e -> moving s d u h <> (0, 0)).
    { intros u h U H N1 N2 Q. assert (Hh := neg_ltn n _ (fs_wf n s S) h H). unfold moving in Q. rewrite E in Q by auto. assert (Nz := vv_nonzero n s h S H (C h H)).
      assert (X : forall k, padd (vv s h) (pscale u (pscale k (vv s e))) = (0, 0) -> vv s h = pscale (- (u * k)) (vv s e)).
      { intros k Q'. destruct (vv s h), (vv s e). unfold padd, pscale in *; cbn in *. injection Q' as Q1 Q2. f_equal; lra. }
      apply X in Q. unfold starts in Q. destruct (scontains v (neg h)) eqn:C1, (scontains v h) eqn:C2; cbn in Q.
      - apply Nz. rewrite Q. unfold pscale; f_equal; ring.
      - assert (0 < u). { destruct (Req_dec u 0) as [->|]; [|lra]. exfalso. apply Nz. rewrite Q. unfold pscale; f_equal; ring. }
        apply N2. rewrite <- (neg_neg h). f_equal. apply (one_direction s v (neg h) e u); auto. rewrite (fs_odd n s S), Q by auto. unfold pscale, pneg; cbn; f_equal; ring.
      - assert (0 < u). { destruct (Req_dec u 0) as [->|]; [|lra]. exfalso. apply Nz. rewrite Q. unfold pscale; f_equal; ring. }
        apply N1. apply (one_direction s v h e u); auto. rewrite Q. unfold pscale; cbn; f_equal; ring.
      - apply Nz. rewrite Q. unfold pscale; f_equal; ring. }
    intros u h U H N1 N2. apply Ov; auto; destruct Em as [Q|Q]; rewrite Q in *; rewrite ?neg_neg in *; auto.
  - intros u U. destruct Em as [->| ->]; rewrite ?neg_neg; split; apply Area; auto.
Qed.

Lemma into_parallel s d e h : flat_surface n s -> closed_surface n s -> shift_of n s d -> moves_into n s d e -> (h < n)%nat -> falling (corner s d h).
Proof. intros S C Sh (He & v & I & Ce & Cn & A & E) H. apply (parallel_falling n s d h (vv s e)); auto. intros g G. eexists. now apply E. Qed.

Lemma into_fine s d e : flat_surface n s -> closed_surface n s -> shift_of n s d -> moves_into n s d e -> collapse_fine n falling (edge_at e) s d.
Proof.
  intros S C Sh J s' d' D. assert (Em : edge_at e = e \/ edge_at e = neg e) by (unfold edge_at; destruct (Nat.even e); auto).
  assert (J' := into_stays s d e (edge_at e) S C Sh Em J s' d' D). destruct (deforms_good n s d S C Sh s' d' (without_deforms _ _ _ _ _ _ D)) as (S' & C' & Sh').
  split; [now apply into_ends|]. intros h H. now apply (into_parallel s' d' e).
Qed.
End motion.
