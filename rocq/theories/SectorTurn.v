(** * Sectors between two directions at a vertex *)
From Coq Require Import ZArith Reals List Arith Bool Lia Lra Psatz.
From Verif Require Import Base HalfEdge HalfEdgeFacts Perm PermSpec PermFacts PermCycles IndexedSet Combinatorial CombinatorialSpec
  CombinatorialFacts CombinatorialHistory CombinatorialOps CombinatorialProps ExactReal Vector PlaneSpec Plane VectorFacts VectorProps
  FlatTri FlatSpec FlatFacts FlatSum FlatAngle FlatProps Chain ChainSpec ChainFacts Saddle SaddleSpec SaddleFacts SaddleTurn
  Search SearchSpec SearchPlane SearchProps SectorSpec SectorFacts SectorProps.
Import ListNotations.
Local Open Scope R_scope.

Section turn.
Context {K : ExactReal}.
Variables (n : nat) (s : flat K) (S0 : flat_surface n s).
Variables (hb he : nat) (b e : vec K).
Hypothesis Hb : (hb < n)%nat.
Hypothesis Inner : inner_at s hb.
Hypothesis Cb : sector_contains s hb (vden b).
Hypothesis Ce : sector_contains s he (vden e).
Local Notation it i := (Nat.iter i (fV s) hb).
Variable alpha : nat -> R.
Hypothesis Corners : forall i, turn (vv s (it i)) (vv s (it (Datatypes.S i))) (alpha (it i)).
Local Notation G := (turned s alpha hb).
Variable p : nat.
Hypothesis Per : period (fV s) hb p.
Variable ou : R.
Hypothesis Tu : turn (vv s hb) (vden b) ou.

(** The angle from the start to the direction at the angle [ov] in the sector reached with [j] steps. *)
Definition position (j : nat) (ov : R) : R := G j + ov - ou + (match j with O => if Rlt_dec ov ou then G p else 0 | _ => 0 end).
Lemma G_lt i j : (i < j)%nat -> G i < G j.
Proof. apply (turned_lt n s S0 hb Hb Inner alpha Corners). Qed.
Lemma G_le i j : (i <= j)%nat -> G i <= G j.
Proof. intros L. destruct (Nat.eq_dec i j) as [->|]; [lra|]. left. apply G_lt. lia. Qed.
Lemma G_S i : G (Datatypes.S i) = G i + alpha (it i).
Proof. apply turned_S. Qed.
Lemma ou_bounds : 0 <= ou < alpha hb.
Proof. split; [apply Tu|]. apply (sector_offset n s S0 hb (vden b) ou (alpha hb)); auto; [apply Inner; now exists 0%nat|apply (Corners 0)]. Qed.
Lemma offset j v ov : turn (vv s (it j)) v ov -> sector_contains s (it j) v -> 0 <= ov < alpha (it j).
Proof.
  intros T C. split; [apply T|]. apply (sector_offset n s S0 (it j) v ov (alpha (it j))); auto; [now apply (it_lt n s S0)|now apply it_inner|apply (Corners j)].
Qed.
Lemma position_turn j v ov : (j < p)%nat -> turn (vv s (it j)) v ov -> sector_contains s (it j) v -> total_turn n s hb (vden b) (it j) v (position j ov).
Proof.
  intros Lj Tv Cv. pose proof ou_bounds as Bu. pose proof (offset j v ov Tv Cv) as Bv. pose proof (G_le (Datatypes.S j) p ltac:(lia)) as Lp. rewrite G_S in Lp.
  assert (G1 : G 1 = alpha hb) by (rewrite G_S; unfold turned; cbn; lra). assert (Lp' : G 1 <= G p) by (apply G_le; lia). unfold position. destruct j as [|j].
  - change (it 0) with hb in Tv, Cv, Bv, Lp |- *. unfold turned in Lp at 1. cbn [seq map rsum] in Lp. change (G 0) with 0. destruct (Rlt_dec ov ou).
    + exists alpha, ou, ov, p, p. split; [exact Corners|]. split; auto. split; auto. split; [apply Per|]. split; auto. split; [lra|lra].
    + exists alpha, ou, ov, 0%nat, p. split; [exact Corners|]. split; auto. split; auto. split; [auto|]. split; auto. change (G 0) with 0. split; [lra|lra].
  - assert (L1 : G 1 <= G (Datatypes.S j)) by (apply G_le; lia). exists alpha, ou, ov, (Datatypes.S j), p. split; [exact Corners|]. split; auto. split; auto. split; auto. split; auto. split; lra.
Qed.
Variable k : nat.
Hypothesis Lk : (k < p)%nat.
Hypothesis Ek : it k = he.
Variable ow : R.
Hypothesis Tw : turn (vv s he) (vden e) ow.

Lemma between_iff j v ov : (j < p)%nat -> turn (vv s (it j)) v ov -> sector_contains s (it j) v ->
  (turns_between n s hb (vden b) he (vden e) (it j) v <-> position j ov < position k ow \/ (position j ov = 0 /\ position k ow = 0)).
Proof.
  intros Lj Tv Cv. pose proof (position_turn j v ov Lj Tv Cv) as T1. assert (T2 : total_turn n s hb (vden b) (it k) (vden e) (position k ow)) by (apply position_turn; rewrite ?Ek; auto).
  rewrite Ek in T2. split.
  - intros (a & c & Ta & Tc & H). rewrite (total_turn_unique n s S0 _ _ _ _ _ _ Hb Inner Cb Cv Ta T1), (total_turn_unique n s S0 _ _ _ _ _ _ Hb Inner Cb Ce Tc T2) in H. exact H.
  - intros H. eexists _, _. split; [exact T1|]. split; [exact T2|auto].
Qed.

Lemma G0 : G 0 = 0.
Proof. reflexivity. Qed.
Lemma G1 : G 1 = alpha hb.
Proof. unfold turned. cbn. lra. Qed.
(** The cases. *)
Lemma same_start v ov : k = 0%nat -> turn (vv s hb) v ov -> sector_contains s hb v -> (turns_between n s hb (vden b) he (vden e) hb v <-> in_sector v (vden b) (vden e)).
Proof.
  intros E0 Tv Cv. assert (P0 : (0 < p)%nat) by apply Per. rewrite (between_iff 0 v ov P0 Tv Cv).
  assert (Eh : he = hb) by (rewrite <- Ek, E0; reflexivity). assert (Tw' : turn (vv s hb) (vden e) ow) by (rewrite <- Eh; exact Tw). assert (Ce' : sector_contains s hb (vden e)) by (rewrite <- Eh; exact Ce).
  pose proof (it_nz n s S0 hb Hb Inner 0) as Nh. change (it 0) with hb in Nh. assert (Nv : v <> (0, 0)) by (now apply (turn_nonzero (vv s hb) v ov)).
  rewrite (in_sector_between (vv s hb) Nh v (vden b) (vden e) ov ou ow); auto. pose proof ou_bounds as Bu. pose proof (offset 0 v ov Tv Cv) as Bv. change (it 0) with hb in Bv.
  assert (Bw := offset 0 (vden e) ow Tw' Ce'). change (it 0) with hb in Bw. pose proof (G_le 1 p ltac:(lia)) as Lp. rewrite G1 in Lp.
  unfold position, between. rewrite E0, G0. set (g := G p) in *. clearbody g. clear - Bu Bv Bw Lp. destruct (Rlt_dec ov ou), (Rlt_dec ow ou); lra.
Qed.
Lemma same_other j v ov : k = 0%nat -> (0 < j < p)%nat -> turn (vv s (it j)) v ov -> sector_contains s (it j) v -> (turns_between n s hb (vden b) he (vden e) (it j) v <-> pdet (vden b) (vden e) < 0).
Proof.
  intros E0 Lj Tv Cv. rewrite (between_iff j v ov) by (auto; lia).
  assert (Eh : he = hb) by (rewrite <- Ek, E0; reflexivity). assert (Tw' : turn (vv s hb) (vden e) ow) by (rewrite <- Eh; exact Tw). assert (Ce' : sector_contains s hb (vden e)) by (rewrite <- Eh; exact Ce).
  pose proof (it_nz n s S0 hb Hb Inner 0) as Nh. change (it 0) with hb in Nh. destruct (det_angles (vv s hb) Nh _ _ _ _ Tu Tw') as (_ & Dt & _). rewrite Dt. clear Dt.
  pose proof ou_bounds as Bu. pose proof (offset j v ov Tv Cv) as Bv. assert (Bw := offset 0 (vden e) ow Tw' Ce'). change (it 0) with hb in Bw.
  pose proof (G_le 1 j ltac:(lia)) as L1. rewrite G1 in L1. pose proof (G_le (Datatypes.S j) p ltac:(lia)) as L2. rewrite G_S in L2.
  assert (Ba : alpha hb < PI) by (apply (alpha_bounds n s S0 hb Hb Inner alpha Corners 0)).
  unfold position. rewrite E0, G0. destruct j as [|j]; [lia|]. set (g := G p) in *. set (gj := G (Datatypes.S j)) in *. clearbody g gj. clear - Bu Bv Bw L1 L2 Ba. destruct (Rlt_dec ow ou); lra.
Qed.
Lemma other_start v ov : (0 < k)%nat -> turn (vv s hb) v ov -> sector_contains s hb v -> (turns_between n s hb (vden b) he (vden e) hb v <-> in_sector v (vden b) (vv s (fV s hb))).
Proof.
  intros L0 Tv Cv. assert (P0 : (0 < p)%nat) by apply Per. rewrite (between_iff 0 v ov P0 Tv Cv).
  pose proof (it_nz n s S0 hb Hb Inner 0) as Nh. change (it 0) with hb in Nh. assert (Nv : v <> (0, 0)) by (now apply (turn_nonzero (vv s hb) v ov)).
  rewrite (in_sector_between (vv s hb) Nh v (vden b) _ ov ou (alpha hb)); auto; [|apply (Corners 0)]. pose proof ou_bounds as Bu. pose proof (offset 0 v ov Tv Cv) as Bv. change (it 0) with hb in Bv.
  assert (Bw := offset k (vden e) ow). rewrite Ek in Bw. specialize (Bw Tw Ce). pose proof (G_le 1 k ltac:(lia)) as L1. rewrite G1 in L1. pose proof (G_le (Datatypes.S k) p ltac:(lia)) as L2. rewrite G_S, Ek in L2.
  unfold position, between. rewrite G0. destruct k as [|k']; [lia|]. set (g := G p) in *. set (gk := G (Datatypes.S k')) in *. clearbody g gk. clear - Bu Bv Bw L1 L2. destruct (Rlt_dec ov ou); lra.
Qed.
Lemma other_end v ov : (0 < k)%nat -> turn (vv s he) v ov -> sector_contains s he v -> (turns_between n s hb (vden b) he (vden e) he v <-> ov < ow).
Proof.
  intros L0 Tv Cv. pose proof (between_iff k v ov Lk) as Bi. rewrite Ek in Bi. rewrite (Bi Tv Cv). pose proof (offset k v ov) as Bv. rewrite Ek in Bv. specialize (Bv Tv Cv).
  assert (Bw := offset k (vden e) ow). rewrite Ek in Bw. specialize (Bw Tw Ce). pose proof ou_bounds as Bu. pose proof (G_le 1 k ltac:(lia)) as L1. rewrite G1 in L1.
  unfold position. destruct k as [|k']; [lia|]. set (gk := G (Datatypes.S k')) in *. clearbody gk. clear - Bu Bv Bw L1. lra.
Qed.
Lemma other_other j v ov : (0 < k)%nat -> (0 < j < p)%nat -> j <> k -> turn (vv s (it j)) v ov -> sector_contains s (it j) v -> (turns_between n s hb (vden b) he (vden e) (it j) v <-> (j < k)%nat).
Proof.
  intros L0 Lj Nj Tv Cv. rewrite (between_iff j v ov) by (auto; lia). pose proof (offset j v ov Tv Cv) as Bv. assert (Bw := offset k (vden e) ow). rewrite Ek in Bw. specialize (Bw Tw Ce). pose proof ou_bounds as Bu.
  pose proof (G_le 1 j ltac:(lia)) as L1. rewrite G1 in L1. pose proof (G_le 1 k ltac:(lia)) as L2. rewrite G1 in L2.
  unfold position. destruct k as [|k']; [lia|]. destruct j as [|j]; [lia|]. destruct (Nat.lt_trichotomy j k') as [L|[L|L]]; [|lia|].
  - pose proof (G_le (Datatypes.S (Datatypes.S j)) (Datatypes.S k') ltac:(lia)) as L3. rewrite G_S in L3. split; [lia|]. intros _. left. lra.
  - pose proof (G_le (Datatypes.S (Datatypes.S k')) (Datatypes.S j) ltac:(lia)) as L3. rewrite G_S, Ek in L3. split; [|lia]. intros H. exfalso. lra.
Qed.

(** The loop around the vertex. *)
Lemma it_inj i j : (i < p)%nat -> (j < p)%nat -> it i = it j -> i = j.
Proof.
  assert (X : forall i j, (i < j < p)%nat -> it i <> it j).
  { intros a c L E. replace c with (a + (c - a))%nat in E by lia. apply (iter_cancel n (fV s) (pV (fT s))) in E; auto; [|now apply bijV]. destruct Per as (_ & _ & P2). apply (P2 (c - a)%nat); auto. lia. }
  intros Li Lj E. destruct (Nat.lt_trichotomy i j) as [L|[L|L]]; auto; exfalso; [apply (X i j); auto|apply (X j i); auto].
Qed.
Lemma meets_end_Ok : forall d f j, (0 < j)%nat -> (j + d = p)%nat -> (d < f)%nat -> meets_end f s (it j) hb he = Ok ((j <=? k) && negb (k =? 0))%nat.
Proof.
  induction d as [|d IH]; intros f j L0 E Lf; destruct f as [|f]; try lia; cbn [meets_end].
  - replace j with p by lia. destruct Per as (_ & P1 & _). rewrite P1, Nat.eqb_refl. f_equal. destruct (Nat.leb_spec p k); [lia|]. reflexivity.
  - assert (Lj : (j < p)%nat) by lia. assert (P0 : (0 < p)%nat) by lia. destruct (Nat.eqb_spec (it j) hb) as [X|X]; [apply (it_inj j 0) in X; lia|].
    destruct (Nat.eqb_spec (it j) he) as [Y|Y].
    + rewrite <- Ek in Y. apply it_inj in Y; auto. subst k. rewrite Nat.leb_refl. destruct (Nat.eqb_spec j 0); [lia|]. reflexivity.
    + rewrite (nextV_Ok n (fT s) _ (fs_wf n s S0)) by now apply (it_lt n s S0). cbn [bind]. change (nV (fT s) (it j)) with (it (Datatypes.S j)). rewrite (IH f (Datatypes.S j)) by lia. f_equal.
      assert (j <> k) by congruence. destruct (Nat.leb_spec (Datatypes.S j) k), (Nat.leb_spec j k); auto; lia.
Qed.
End turn.
