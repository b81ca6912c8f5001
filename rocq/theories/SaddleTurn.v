(** * Turning around a vertex *)
From Coq Require Import ZArith Reals List Arith Bool Lia Lra Psatz Permutation.
From Verif Require Import Base HalfEdge HalfEdgeFacts Perm PermSpec PermFacts PermCycles PermLemmas
  IndexedSet IndexedSetSpec IndexedSetFacts Combinatorial CombinatorialSpec CombinatorialFacts CombinatorialFlip
  CombinatorialHistory CombinatorialOps ExactReal Vector PlaneSpec Plane VectorFacts FlatTri FlatSpec FlatFacts FlatSum FlatDelaunay FlatAngle
  FlatLinear Chain ChainSpec Saddle SaddleSpec SaddleFacts.
Import ListNotations.
Local Open Scope R_scope.

(** [w] is [u] turned by the angle [a] and scaled; there is no bound on the angle. *)
Definition at_angle (u w : pt) (a : R) : Prop := exists r, 0 < r /\ w = pscale r (protate a u).

Lemma at_angle_det u w a : at_angle u w a -> exists r, 0 < r /\ pdet u w = r * pdot u u * sin a /\ pdot u w = r * pdot u u * cos a.
Proof. intros (r & Hr & ->). exists r. split; auto. unfold pdot, pdet, pscale, protate; cbn [fst snd]. split; ring. Qed.
Lemma at_angle_trans u v w a b : at_angle u v a -> at_angle v w b -> at_angle u w (a + b).
Proof.
  intros (r & Hr & ->) (q & Hq & ->). exists (q * r). split; [nra|].
  rewrite protate_scale, protate_add, pscale_scale. f_equal. f_equal. lra.
Qed.
Lemma protate_0 u : protate 0 u = u.
Proof. destruct u as [x y]. unfold protate; cbn [fst snd]. rewrite cos_0, sin_0. f_equal; ring. Qed.
Lemma at_angle_back u w a : at_angle u w a -> at_angle w u (- a).
Proof.
  intros (r & Hr & ->). exists (/ r). split; [now apply Rinv_0_lt_compat|]. rewrite protate_scale, protate_add, pscale_scale.
  replace (- a + a) with 0 by lra. rewrite protate_0. replace (/ r * r) with 1 by (field; lra). destruct u; unfold pscale; cbn; f_equal; ring.
Qed.
Lemma at_angle_refl u : at_angle u u 0.
Proof. exists 1. split; [lra|]. rewrite protate_0. destruct u; unfold pscale; cbn; f_equal; ring. Qed.

(** The sign of the sine. *)
Lemma sin_shift k d : sin (INR k * PI + d) = (if Nat.even k then 1 else -1) * sin d.
Proof.
  revert d. induction k as [|k IH]; intros d; [cbn [Nat.even INR]; replace (0 * PI + d) with d by lra; lra|].
  rewrite S_INR. replace ((INR k + 1) * PI + d) with (INR k * PI + (d + PI)) by lra. rewrite IH, neg_sin, Nat.even_succ, <- Nat.negb_even.
  destruct (Nat.even k); cbn [negb]; lra.
Qed.

Definition within_k (k : nat) (a : R) : Prop := INR k * PI <= a < (INR k + 1) * PI.
Definition sgn_k (k : nat) : CCW := if Nat.even k then COUNTERCLOCKWISE else CLOCKWISE.
Lemma sgn_S k : sgn_k (S k) = ccw_neg (sgn_k k).
Proof. unfold sgn_k. rewrite Nat.even_succ, <- Nat.negb_even. now destruct (Nat.even k). Qed.

(** The loop counts when we cross or reach a multiple of pi. *)
Lemma count_step {K : ExactReal} (u w : vec K) k a b : vden u <> (0, 0) -> within_k k a -> a < b < a + PI -> at_angle (vden u) (vden w) b ->
  (ccw_eqb (ccw u w) COLLINEAR || negb (ccw_eqb (ccw u w) (sgn_k k)) = true -> within_k (S k) b) /\
  (ccw_eqb (ccw u w) COLLINEAR || negb (ccw_eqb (ccw u w) (sgn_k k)) = false -> within_k k b).
Proof.
  intros Hu (A1 & A2) (B1 & B2) At. apply pdot_pos in Hu. destruct (at_angle_det _ _ _ At) as (r & Hr & D & _).
  assert (Q : 0 < r * pdot (vden u) (vden u)) by nra. set (q := r * pdot (vden u) (vden u)) in *. clearbody q. clear At Hu.
  assert (Cs := ccw_cases u w). rewrite D in Cs. clear D. pose proof PI_RGT_0.
  unfold within_k. rewrite S_INR.
  assert (X1 : b < (INR k + 1) * PI -> 0 < (if Nat.even k then 1 else -1) * sin b).
  { intros L. replace b with (INR k * PI + (b - INR k * PI)) by lra. rewrite sin_shift. assert (0 < sin (b - INR k * PI)) by (apply sin_gt_0; lra).
    destruct (Nat.even k); lra. }
  assert (X2 : (INR k + 1) * PI <= b -> (if Nat.even k then 1 else -1) * sin b <= 0).
  { intros L. replace b with (INR k * PI + ((b - (INR k + 1) * PI) + PI)) by lra. rewrite sin_shift, neg_sin.
    assert (0 <= sin (b - (INR k + 1) * PI)) by (apply sin_ge_0; lra). destruct (Nat.even k); lra. }
  unfold sgn_k. destruct (Rlt_or_le b ((INR k + 1) * PI)) as [L|L].
  - specialize (X1 L). clear X2. assert (Y : ccw u w = if Nat.even k then COUNTERCLOCKWISE else CLOCKWISE).
    { destruct (Nat.even k), (ccw u w); auto; exfalso; nra. }
    rewrite Y. destruct (Nat.even k); cbn; split; intros; try discriminate; lra.
  - specialize (X2 L). clear X1. split; [intros _; lra|]. intros E. exfalso. destruct (Nat.even k), (ccw u w); cbn in E; try discriminate; nra.
Qed.

Section turn.
Context {K : ExactReal}.
Variable n : nat.
Variable s : flat K.
Hypothesis S0 : flat_surface n s.
Variable h : nat.
Hypothesis Hh : (h < n)%nat.
Hypothesis Inner : inner_at s h.
Local Notation it i := (Nat.iter i (fV s) h).

Lemma it_lt i : (it i < n)%nat.
Proof. eapply iter_lt; eauto. apply (bijV n s S0). Qed.
Lemma it_inner i : fF s (it i) <> it i.
Proof. apply Inner. exists i. reflexivity. Qed.
Lemma it_det i : 0 < pdet (vv s (it i)) (vv s (it (S i))).
Proof. apply (corner_det n s (it i) S0 (it_lt i) (it_inner i)). Qed.
Lemma it_nz i : vv s (it i) <> (0, 0).
Proof. apply (det_nonzero _ _ (it_det i)). Qed.

Variable alpha : nat -> R.
Hypothesis Corners : forall i, turn (vv s (it i)) (vv s (it (S i))) (alpha (it i)).
Local Notation G := (turned s alpha h).

Lemma alpha_bounds i : 0 < alpha (it i) < PI.
Proof. eapply turn_pos; [apply Corners|apply it_nz|apply it_det]. Qed.
Lemma turned_S i : G (S i) = G i + alpha (it i).
Proof. unfold turned. rewrite seq_S, map_app, rsum_app. cbn [map rsum plus]. lra. Qed.
Lemma turned_0 : G 0 = 0.
Proof. reflexivity. Qed.
Lemma turned_lt i j : (i < j)%nat -> G i < G j.
Proof. induction 1 as [|j L IH]; rewrite turned_S; [|]; pose proof (alpha_bounds i); try pose proof (alpha_bounds j); lra. Qed.
Lemma turned_lt_iff i j : G i < G j -> (i < j)%nat.
Proof.
  intros L. destruct (Nat.lt_trichotomy i j) as [H|[H|H]]; auto; [subst; lra|]. apply turned_lt in H. lra.
Qed.
Lemma turned_angle i : at_angle (vv s h) (vv s (it i)) (G i).
Proof.
  induction i as [|i IH]; [apply at_angle_refl|]. rewrite turned_S. eapply at_angle_trans; eauto. apply Corners.
Qed.

Variables (g j p : nat) (u v : vec K) (ou ov : R).
Hypothesis Tu : turn (vv s h) (vden u) ou.
Hypothesis Tv : turn (vv s g) (vden v) ov.
Hypothesis Ou : ou < alpha h.
Hypothesis Ov : ov < alpha g.
Hypothesis Jg : it j = g.
Hypothesis Per : period (fV s) h p.
Hypothesis A0 : 0 <= G j + ov - ou < G p.

Lemma j_le_p : (j <= p)%nat.
Proof.
  assert (L : G j < G (S p)).
  { rewrite turned_S. destruct Per as (_ & -> & _). destruct Tv. lra. }
  apply turned_lt_iff in L. lia.
Qed.
Lemma j_bounds : (0 < j < p)%nat \/ (j = 0%nat /\ ou <= ov) \/ (j = p /\ g = h /\ ov < ou).
Proof.
  pose proof j_le_p. destruct (Nat.eq_dec j 0) as [->|N0]; [right; left; split; auto; rewrite turned_0 in A0; lra|].
  destruct (Nat.eq_dec j p) as [E|N1]; [right; right|left; lia]. split; auto. split; [|rewrite E in A0; lra].
  rewrite <- Jg, E. apply Per.
Qed.
Lemma it_ne i : (0 < i < j)%nat -> it i <> g.
Proof.
  intros L E. rewrite <- Jg in E. pose proof j_le_p.
  replace j with (i + (j - i))%nat in E by lia. apply (iter_cancel n (fV s) (pV (fT s))) in E; auto; [|now apply bijV].
  destruct Per as (_ & _ & P2). apply (P2 (j - i)%nat); auto. lia.
Qed.

Lemma u_nz : vden u <> (0, 0).
Proof. eapply turn_nonzero; [|apply Tu]. apply (it_nz 0). Qed.
Lemma at_u : at_angle (vv s h) (vden u) ou.
Proof. apply Tu. Qed.
Lemma it_at_u i : at_angle (vden u) (vv s (it i)) (G i - ou).
Proof. replace (G i - ou) with (- ou + G i) by lra. eapply at_angle_trans; [apply at_angle_back, at_u|apply turned_angle]. Qed.
Lemma v_at_u : at_angle (vden u) (vden v) (G j + ov - ou).
Proof. replace (G j + ov - ou) with (G j - ou + ov) by lra. eapply at_angle_trans; [apply it_at_u|]. rewrite Jg. apply Tv. Qed.
Lemma alpha_g : alpha g < PI.
Proof. rewrite <- Jg. apply alpha_bounds. Qed.

(** Comparing directions in the sector of the target. *)
Lemma compare_angles (a b : vec K) x : vden a <> (0, 0) -> at_angle (vden a) (vden b) x -> - PI < x < PI ->
  (ccw a b = COLLINEAR <-> x = 0) /\ (ccw a b = CLOCKWISE <-> x < 0).
Proof.
  intros Na At Bx. apply pdot_pos in Na. destruct (at_angle_det _ _ _ At) as (r & Hr & D & _).
  assert (Q : 0 < r * pdot (vden a) (vden a)) by nra. assert (Cs := ccw_cases a b). rewrite D in Cs. set (q := r * pdot _ _) in *. clearbody q.
  destruct (Rtotal_order x 0) as [L|[->|L]].
  - assert (sin x < 0) by (apply sin_lt_0_var; lra). destruct (ccw a b); (split; split; intros; try discriminate; try lra); auto; exfalso; nra.
  - rewrite sin_0 in Cs. destruct (ccw a b); (split; split; intros; try discriminate; try lra); auto; exfalso; nra.
  - assert (0 < sin x) by (apply sin_gt_0; lra). destruct (ccw a b); (split; split; intros; try discriminate; try lra); auto; exfalso; nra.
Qed.

(** The final part of the loop: the sector has been reached. *)
Lemma turn_loop_last fuel (w : vec K) x k : at_angle (vden u) (vden w) x -> vden w <> (0, 0) -> 0 <= G j + ov - ou - x < PI -> within_k k x ->
  exists r, turn_loop (S (S fuel)) s u g v g w (sgn_k k) k = Ok r /\ within_k r (G j + ov - ou).
Proof.
  intros At Nw D W.
  assert (Av : at_angle (vden w) (vden v) (G j + ov - ou - x)).
  { replace (G j + ov - ou - x) with (- x + (G j + ov - ou)) by lra. eapply at_angle_trans; [apply at_angle_back, At|apply v_at_u]. }
  destruct (compare_angles w v _ Nw Av) as [C1 C2]; [lra|]. cbn [turn_loop]. rewrite Nat.eqb_refl. cbn [andb].
  destruct (Req_dec (G j + ov - ou - x) 0) as [Z|NZ].
  - apply C1 in Z as Z'. rewrite Z'. cbn [ccw_eqb]. exists k. split; auto. replace (G j + ov - ou) with x by lra. exact W.
  - destruct (ccw w v) eqn:Cw; [|exfalso; apply NZ; now apply C1|exfalso; assert (G j + ov - ou - x < 0) by (now apply C2); lra].
    cbn [ccw_eqb negb bind].
    destruct (count_step u v k x (G j + ov - ou) u_nz W) as [S1 S2]; [lra|apply v_at_u|].
    assert (Cv : ccw v v = COLLINEAR). { apply ccw_spec. unfold pdet. ring. }
    destruct (ccw_eqb (ccw u v) COLLINEAR || negb (ccw_eqb (ccw u v) (sgn_k k))) eqn:E; rewrite Nat.eqb_refl, Cv; cbn [andb ccw_eqb].
    + exists (S k). auto.
    + exists k. auto.
Qed.

Lemma turn_loop_Ok : forall d i (w : vec K) k fuel, (i + d = j)%nat -> (d + 2 <= fuel)%nat -> within_k k (if (i =? 0)%nat then 0 else G i - ou) ->
  vden w = (if (i =? 0)%nat then vden u else vv s (it i)) ->
  exists r, turn_loop fuel s u g v (it i) w (sgn_k k) k = Ok r /\ within_k r (G j + ov - ou).
Proof.
  pose proof j_bounds as JB. pose proof alpha_g as AG.
  assert (B0 := proj1 Tu). assert (B1 := proj1 Tv).
  induction d as [|d IH]; intros i w k fuel Ed Hf W Dw.
  - assert (i = j) by lia. subst i. destruct fuel as [|[|fuel]]; try lia. rewrite Jg.
    apply (turn_loop_last fuel w (if (j =? 0)%nat then 0 else G j - ou)); auto.
    + rewrite Dw. destruct (j =? 0)%nat; [apply at_angle_refl|apply it_at_u].
    + rewrite Dw. destruct (j =? 0)%nat; [apply u_nz|apply it_nz].
    + destruct (Nat.eqb_spec j 0) as [E|N]; [|lra]. destruct JB as [JB|[[_ JB]|[JB (_ & JB2)]]]; [lia|rewrite E, turned_0; lra|].
      exfalso. destruct Per. lia.
  - destruct fuel as [|fuel]; [lia|]. cbn [turn_loop].
    assert (Stay : ((it i =? g)%nat && ccw_eqb (ccw w v) COLLINEAR = false) /\ ((it i =? g)%nat && negb (ccw_eqb (ccw w v) CLOCKWISE) = false)).
    { destruct (Nat.eq_dec i 0) as [->|Ni].
      - cbn [Nat.eqb] in Dw. destruct (Nat.eqb_spec (it 0) g) as [E|N]; [|auto]. cbn [andb].
        assert (JP : j = p /\ ov < ou).
        { destruct JB as [JB|[JB|JB]]; [|lia|tauto]. exfalso. destruct Per as (_ & _ & P2). apply (P2 j JB). rewrite Jg. auto. }
        assert (Av : at_angle (vden w) (vden v) (ov - ou)).
        { rewrite Dw. replace (ov - ou) with (- ou + ov) by lra. eapply at_angle_trans; [apply at_angle_back, at_u|]. cbn in E. rewrite E. apply Tv. }
        destruct (compare_angles w v (ov - ou)) as [C1 C2]; auto; [rewrite Dw; apply u_nz| |].
        + pose proof (alpha_bounds 0) as A. cbn in A. lra.
        + assert (Cw : ccw w v = CLOCKWISE) by (apply C2; lra). rewrite Cw. auto.
      - destruct (Nat.eqb_spec (it i) g) as [E|N]; [|auto]. exfalso. apply (it_ne i); auto. lia. }
    destruct Stay as [-> ->]. rewrite (nextV_Ok n) by (try apply S0; apply it_lt). cbn [bind].
    change (nV (fT s) (it i)) with (it (S i)). rewrite from_he_Ok by (rewrite (fs_length n s S0); apply it_lt). cbn [bind].
    assert (Dn : vden (vat' s (it (S i))) = vv s (it (S i))) by reflexivity.
    destruct (count_step u (vat' s (it (S i))) k (if (i =? 0)%nat then 0 else G i - ou) (G (S i) - ou) u_nz W) as [S1 S2].
    + rewrite turned_S. pose proof (alpha_bounds i). destruct (Nat.eqb_spec i 0) as [->|]; [rewrite turned_0; cbn in *; lra|lra].
    + rewrite Dn. apply it_at_u.
    + destruct (_ || _).
      * rewrite <- sgn_S. apply IH; try lia; auto.
      * apply IH; try lia; auto.
Qed.
End turn.

Section main.
Context {K : ExactReal}.
Variable n : nat.
Variable s : flat K.
Hypothesis S0 : flat_surface n s.

Lemma sector_offset h (d : pt) o a : (h < n)%nat -> fF s h <> h -> turn (vv s h) (vv s (fV s h)) a -> turn (vv s h) d o -> sector_contains s h d -> o < a.
Proof.
  intros Hh N A O C. assert (D := corner_det n s h S0 Hh N). destruct (det_nonzero _ _ D) as [N1 _].
  assert (P := turn_pos _ _ _ A N1 D). apply (in_sector_angles d (vv s h) (vv s (fV s h)) o a) in C; auto. lra.
Qed.

Lemma turn_angle_Ok h g (u v : vec K) a : (h < n)%nat -> (g < n)%nat -> inner_at s h ->
  sector_contains s h (vden u) -> sector_contains s g (vden v) -> total_turn n s h (vden u) g (vden v) a ->
  exists k, turn_angle s h u g v = Ok k /\ within_k k a.
Proof.
  intros Hh Hg In Cu Cv (alpha & ou & ov & j & p & Co & Tu & Tv & Jg & Per & -> & B).
  assert (W := fs_wf n s S0). unfold turn_angle.
  destruct (vertex_source_Ok n (fT s) h W Hh) as (x & Ex & _). destruct (vertex_source_Ok n (fT s) g W Hg) as (y & Ey & _).
  rewrite Ex, Ey. cbn [bind]. assert (Sv : vertex_eqb x y = true) by (apply (vertex_eqb_spec n (fT s) h g); auto; exists j; auto).
  rewrite Sv. cbn [negb]. rewrite (wf_size n _ W).
  assert (Gin : fF s g <> g) by (apply In; exists j; auto).
  assert (Ou : ou < alpha h) by (apply (sector_offset h (vden u) ou (alpha h)); auto; [apply (In h); exists 0%nat; auto|apply (Co 0%nat)]).
  assert (Ov : ov < alpha g) by (apply (sector_offset g (vden v) ov (alpha g)); auto; subst g; apply (Co j)).
  assert (JP : (j <= p)%nat) by (apply (j_le_p n s S0 h Hh In alpha Co g j p v ou ov); auto).
  assert (PN : (p <= n)%nat).
  { pose proof (orbit_list_NoDup n _ _ h p (bijV n s S0) Hh Per) as ND. rewrite <- (orbit_list_length (fV s) h p), <- (seq_length n 0).
    apply NoDup_incl_length; auto. intros z J. apply orbit_list_In in J as (i & _ & <-). apply in_seq. split; [lia|]. apply (it_lt n s S0 h Hh). }
  destruct (turn_loop_Ok n s S0 h Hh In alpha Co g j p u v ou ov Tu Tv Ou Ov Jg Per B j 0 u 0 (3 * n + 3)) as (r & E & R); auto; try lia.
  - unfold within_k. cbn. pose proof PI_RGT_0. lra.
  - exists r. split; auto.
Qed.
End main.

(** The angle exists, is unique, and the sum around the vertex is a multiple of 2 pi. *)
Section exist.
Context {K : ExactReal}.
Variable n : nat.
Variable s : flat K.
Hypothesis S0 : flat_surface n s.

Lemma total_turn_exists h g (u v : pt) : (h < n)%nat -> inner_at s h -> same_vertex (fT s) h g ->
  sector_contains s h u -> sector_contains s g v -> u <> (0, 0) -> v <> (0, 0) -> exists a, total_turn n s h u g v a.
Proof.
  intros Hh In Sv Cu Cv Nu Nv. destruct (all_corners_exist n s S0) as (alpha & Al).
  assert (Co : forall i, turn (vv s (Nat.iter i (fV s) h)) (vv s (Nat.iter (S i) (fV s) h)) (alpha (Nat.iter i (fV s) h))).
  { intros i. apply Al; [now apply it_lt|now apply it_inner]. }
  destruct (exists_period n _ _ h (bijV n s S0) Hh) as (p & _ & Per).
  assert (J : exists j, (j < p)%nat /\ Nat.iter j (fV s) h = g).
  { destruct Sv as (k & <-). apply orbit_list_In. apply orbit_list_iter; auto. apply orbit_list_In. exists 0%nat. split; auto. apply Per. }
  destruct J as (j & Lj & Jg).
  destruct (turn_exists (vv s h) u) as (ou & Tu); auto; [apply (it_nz n s S0 h Hh In 0)|].
  destruct (turn_exists (vv s g) v) as (ov & Tv); auto; [rewrite <- Jg; apply (it_nz n s S0 h Hh In j)|].
  assert (Ou : ou < alpha h) by (apply (sector_offset n s S0 h u ou (alpha h)); auto; [apply (In h); exists 0%nat; auto|apply (Co 0%nat)]).
  assert (Ov : ov < alpha g).
  { apply (sector_offset n s S0 g v ov (alpha g)); subst g; [now apply it_lt|apply In; now exists j|apply (Co j)|exact Tv|exact Cv]. }
  assert (B0 := proj1 Tu). assert (B1 := proj1 Tv).
  assert (Lt := turned_lt n s S0 h Hh In alpha Co). assert (Ts := turned_S s h alpha).
  assert (T1 : turned s alpha h 1 = alpha h) by (rewrite Ts; cbn; lra).
  assert (Le : turned s alpha h (S j) <= turned s alpha h p) by (destruct (Nat.eq_dec (S j) p) as [->|]; [lra|left; apply Lt; lia]).
  rewrite Ts, Jg in Le.
  destruct (Rle_or_lt 0 (turned s alpha h j + ov - ou)) as [L|L].
  - exists (turned s alpha h j + ov - ou). exists alpha, ou, ov, j, p. repeat split; auto; try apply Per; try apply Co; try apply Tu; try apply Tv; lra.
  - assert (j = 0)%nat as ->.
    { destruct j as [|j]; auto. exfalso. assert (turned s alpha h 1 <= turned s alpha h (S j)) by (destruct j; [lra|left; apply Lt; lia]). lra. }
    cbn in Jg, L. exists (turned s alpha h p + ov - ou). exists alpha, ou, ov, p, p.
    assert (turned s alpha h 1 <= turned s alpha h p) by (destruct Per as (P0 & _); destruct p as [|[|p]]; [lia|lra|left; apply Lt; lia]).
    repeat split; auto; try apply Per; try apply Co; try apply Tu; try apply Tv; try lra. rewrite <- Jg. apply Per.
Qed.

Lemma total_turn_unique h g (u v : pt) a b : (h < n)%nat -> inner_at s h -> sector_contains s h u -> sector_contains s g v ->
  total_turn n s h u g v a -> total_turn n s h u g v b -> a = b.
Proof.
  intros Hh In Cu Cv (al & ou & ov & j & p & Co & Tu & Tv & Jg & Per & -> & B) (al' & ou' & ov' & j' & p' & Co' & Tu' & Tv' & Jg' & Per' & -> & B').
  assert (Nh := it_nz n s S0 h Hh In).
  assert (Ea : forall i, al (Nat.iter i (fV s) h) = al' (Nat.iter i (fV s) h)) by (intros i; eapply turn_unique; [apply Nh|apply Co|apply Co']).
  assert (Et : forall i, turned s al h i = turned s al' h i) by (intros i; unfold turned; f_equal; apply map_ext; auto).
  assert (ou = ou') by (eapply turn_unique; [apply (Nh 0%nat)|apply Tu|apply Tu']). subst ou'.
  assert (ov = ov') by (eapply turn_unique; [|apply Tv|apply Tv']; rewrite <- Jg; apply Nh). subst ov'.
  assert (p = p'). { destruct Per as (P0 & P1 & P2), Per' as (Q0 & Q1 & Q2). destruct (Nat.lt_trichotomy p p') as [L|[L|L]]; auto; exfalso; [apply (Q2 p)|apply (P2 p')]; auto. }
  subst p'. rewrite <- !Et in *.
  assert (X : j = j' \/ (j = 0 /\ j' = p)%nat \/ (j = p /\ j' = 0)%nat).
  { assert (Ov : ov < al g).
    { apply (sector_offset n s S0 g v ov (al g)); subst g; [now apply it_lt|apply In; now exists j|apply (Co j)|exact Tv|exact Cv]. }
    assert (Ou : ou < al h) by (apply (sector_offset n s S0 h u ou (al h)); auto; [apply (In h); exists 0%nat; auto|apply (Co 0%nat)]).
    assert (LE : forall q, Nat.iter q (fV s) h = g -> turned s al h q + ov - ou < turned s al h p -> (q <= p)%nat).
    { intros q Hq Lq. assert (L : turned s al h q < turned s al h (S p)).
      { rewrite turned_S. destruct Per as (_ & -> & _). destruct Tv. lra. }
      apply (turned_lt_iff n s S0 h Hh In al Co) in L. lia. }
    pose proof (LE j Jg ltac:(lra)). pose proof (LE j' Jg' ltac:(lra)).
    destruct Per as (P0 & P1 & P2).
    assert (D : forall a b, (a < b <= p)%nat -> Nat.iter a (fV s) h = Nat.iter b (fV s) h -> (a = 0 /\ b = p)%nat).
    { intros x y L E. replace y with (x + (y - x))%nat in E by lia. apply (iter_cancel n (fV s) (pV (fT s))) in E; auto; [|now apply bijV].
      destruct (Nat.eq_dec (y - x) p) as [|N]; [lia|]. exfalso. apply (P2 (y - x)%nat); auto. lia. }
    destruct (Nat.lt_trichotomy j j') as [L|[L|L]]; auto.
    - right. left. apply D; [lia|congruence].
    - right. right. destruct (D j' j) as [E1 E2]; [lia|congruence|]. auto. }
  destruct X as [->|[(-> & ->)|(-> & ->)]]; [lra| |]; exfalso.
  - change (turned s al h 0) with 0 in *. lra.
  - change (turned s al h 0) with 0 in *. lra.
Qed.

Lemma turned_total h v alpha p k : (h < n)%nat -> inner_at s h -> In v (tverts (fT s)) -> scontains v h = true ->
  (forall i, turn (vv s (Nat.iter i (fV s) h)) (vv s (Nat.iter (S i) (fV s) h)) (alpha (Nat.iter i (fV s) h))) ->
  period (fV s) h p -> angle s v = Ok k -> turned s alpha h p = 2 * PI * INR k /\ (1 <= k)%nat.
Proof.
  intros Hh Inn I C Co Per E.
  assert (Mem : forall x, scontains v x = true -> exists i, Nat.iter i (fV s) h = x).
  { intros x Cx. apply (vertex_same n s v h x S0 I C) in Cx. apply Cx. }
  assert (N : inner_vertex s v). { intros x Cx. destruct (Mem x Cx) as (i & <-). now apply it_inner. }
  assert (A : corners n s v alpha). { intros x Hx Cx. destruct (Mem x Cx) as (i & <-). apply Co. }
  destruct (angle_total n s v alpha S0 I N A) as (k' & E' & L & T & _). rewrite E in E'. injection E' as <-. split; auto. rewrite <- T.
  unfold turned. rewrite <- (map_map (fun i => Nat.iter i (fV s) h) alpha). apply rsum_perm, Permutation_map.
  exact (orbit_members n s v h p S0 I C Hh Per).
Qed.
End exist.
