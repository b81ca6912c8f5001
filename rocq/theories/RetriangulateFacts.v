(** * Turning by a given angle *)
From Coq Require Import ZArith Reals List Arith Bool Lia Lra Psatz.
From Verif Require Import Base HalfEdge HalfEdgeFacts Perm PermSpec PermFacts PermCycles PermLemmas IndexedSet IndexedSetFacts Combinatorial CombinatorialSpec CombinatorialFacts
  CombinatorialHistory CombinatorialOps ExactReal Vector PlaneSpec Plane VectorFacts FlatTri FlatSpec FlatFacts FlatSum FlatAngle FlatLinear Chain ChainSpec Saddle SaddleSpec SaddleFacts SaddleTurn
  Retriangulate.
Import ListNotations.
Local Open Scope R_scope.

(** What comparing two directions says about the angle between them. *)
Lemma angle_signs {K : ExactReal} (a b : vec K) x : vden a <> (0, 0) -> at_angle (vden a) (vden b) x ->
  exists q, 0 < q /\ pdet (vden a) (vden b) = q * sin x /\ pdot (vden a) (vden b) = q * cos x.
Proof.
  intros N A. apply pdot_pos in N. destruct (at_angle_det _ _ _ A) as (r & Hr & D & E). exists (r * pdot (vden a) (vden a)). repeat split; auto. nra.
Qed.
Lemma angle_same {K : ExactReal} (a b : vec K) x : vden a <> (0, 0) -> at_angle (vden a) (vden b) x -> 0 <= x < 2 * PI ->
  ccw_eqb (ccw a b) COLLINEAR && orientation_eqb (orientation a b) SAME = true <-> x = 0.
Proof.
  intros N A B. destruct (angle_signs a b x N A) as (q & Q & D & E). assert (Cc := ccw_cases a b). assert (Co := orientation_cases a b). rewrite D in Cc. rewrite E in Co.
  rewrite andb_true_iff, ccw_eqb_spec, orientation_eqb_spec. pose proof PI_RGT_0. split.
  - intros (E1 & E2). rewrite E1 in Cc. rewrite E2 in Co. assert (S0 : sin x = 0) by nra. assert (C0 : 0 < cos x) by nra.
    destruct (Rtotal_order x PI) as [L|[->|L]].
    + destruct (Req_dec x 0) as [|N0]; auto. assert (0 < sin x) by (apply sin_gt_0; lra). lra.
    + rewrite cos_PI in C0. lra.
    + assert (sin x < 0) by (apply sin_lt_0; lra). lra.
  - intros ->. rewrite sin_0, cos_0 in *. split.
    + destruct (ccw a b); auto; exfalso; lra.
    + destruct (orientation a b); auto; exfalso; lra.
Qed.
Lemma angle_left {K : ExactReal} (a b : vec K) x : vden a <> (0, 0) -> at_angle (vden a) (vden b) x -> 0 < x < PI -> ccw a b = COUNTERCLOCKWISE.
Proof. intros N A B. destruct (angle_signs a b x N A) as (q & Q & D & E). assert (Cc := ccw_cases a b). rewrite D in Cc. assert (0 < sin x) by (apply sin_gt_0; lra). destruct (ccw a b); auto; exfalso; nra. Qed.
Lemma angle_right {K : ExactReal} (a b : vec K) x : vden a <> (0, 0) -> at_angle (vden a) (vden b) x -> - PI < x < 0 -> ccw a b = CLOCKWISE.
Proof. intros N A B. destruct (angle_signs a b x N A) as (q & Q & D & E). assert (Cc := ccw_cases a b). rewrite D in Cc. assert (sin x < 0) by (apply sin_lt_0_var; lra). destruct (ccw a b); auto; exfalso; nra. Qed.
Lemma angle_not_right {K : ExactReal} (a b : vec K) x : vden a <> (0, 0) -> at_angle (vden a) (vden b) x -> 0 <= x <= PI -> ccw a b <> CLOCKWISE.
Proof. intros N A B X. destruct (angle_signs a b x N A) as (q & Q & D & E). assert (Cc := ccw_cases a b). rewrite D, X in Cc. assert (0 <= sin x) by (apply sin_ge_0; lra). nra. Qed.
Lemma angle_not_left {K : ExactReal} (a b : vec K) x : vden a <> (0, 0) -> at_angle (vden a) (vden b) x -> - PI <= x <= 0 -> ccw a b <> COUNTERCLOCKWISE.
Proof.
  intros N A B X. destruct (angle_signs a b x N A) as (q & Q & D & E). assert (Cc := ccw_cases a b). rewrite D, X in Cc. assert (0 <= sin (- x)) by (apply sin_ge_0; lra). rewrite sin_neg in *. nra.
Qed.
Lemma at_angle_period u w a : at_angle u w a <-> at_angle u w (a - 2 * PI).
Proof.
  assert (E : protate (a - 2 * PI) u = protate a u).
  { unfold protate. assert (C := cos_period (a - 2 * PI) 1). assert (S := sin_period (a - 2 * PI) 1). change (INR 1) with 1 in *. replace (a - 2 * PI + 2 * 1 * PI) with a in * by lra. now rewrite C, S. }
  unfold at_angle. rewrite E. tauto.
Qed.

Section turn.
Context {K : ExactReal}.
Variable n : nat.
Variable s : flat K.
Hypothesis S0 : flat_surface n s.
Variable h : nat.
Hypothesis Hh : (h < n)%nat.
Hypothesis Inner : inner_at s h.
Local Notation it i := (Nat.iter i (fV s) h).
Variable alpha : nat -> R.
Hypothesis Corners : forall i, turn (vv s (it i)) (vv s (it (S i))) (alpha (it i)).
Local Notation G := (turned s alpha h).
Local Notation ahead w x := (at_angle (vv s h) (vden w) x).

Lemma ahead_between (w to : vec K) x y : ahead w x -> ahead to y -> at_angle (vden w) (vden to) (y - x).
Proof. intros A B. replace (y - x) with (- x + y) by lra. eapply at_angle_trans; [apply at_angle_back, A|exact B]. Qed.
Lemma ahead_it i : ahead (vat' s (it i)) (G i).
Proof. exact (turned_angle s h alpha Corners i). Qed.
Lemma next_it i : nextAtVertex (fT s) (it i) = Ok (it (S i)).
Proof. apply (nextV_Ok n); [apply S0|]. apply (it_lt n s S0 h Hh). Qed.
Lemma from_it i : from_he s (it i) = Ok (vat' s (it i)).
Proof. apply from_he_Ok. rewrite (fs_length n s S0). apply (it_lt n s S0 h Hh). Qed.
Lemma previous_it i : previousAtVertex (fT s) (it (S i)) = Ok (it i).
Proof.
  rewrite (prevV_Ok n); [|apply S0|apply (it_lt n s S0 h Hh)]. f_equal. change (it (S i)) with (nV (fT s) (it i)). apply (pV_nV n (fT s) (fs_wf n s S0)), (it_lt n s S0 h Hh).
Qed.
Lemma step_it i : G i < G (S i) < G i + PI.
Proof. rewrite turned_S. pose proof (alpha_bounds n s S0 h Hh Inner alpha Corners i). lra. Qed.
Lemma nz_it i : vden (vat' s (it i)) <> (0, 0).
Proof. apply (it_nz n s S0 h Hh Inner i). Qed.

Lemma turn_to_run (to : vec K) y : ahead to y -> forall d i (w : vec K) x fuel, ahead w x -> vden w <> (0, 0) -> G i <= x < G (S i) -> x <= y < x + 2 * PI -> y < G (S (i + d)) -> (d < fuel)%nat ->
  exists j, turn_to fuel s (it i) w to = Ok (it j) /\ G j <= y < G (S j).
Proof.
  intros At d. induction d as [|d IH]; intros i w x fuel Aw Nw Bx By Yd F; (destruct fuel as [|fuel]; [lia|]); cbn [turn_to].
  all: assert (Ab := ahead_between w to x y Aw At); assert (An := ahead_between (vat' s (it (S i))) to (G (S i)) y (ahead_it (S i)) At); pose proof (step_it i) as St; pose proof PI_RGT_0.
  all: assert (Sm := angle_same w to (y - x) Nw Ab ltac:(lra)).
  all: destruct (ccw_eqb (ccw w to) COLLINEAR && orientation_eqb (orientation w to) SAME); [assert (Q0 : y - x = 0) by (now apply Sm); exists i; split; auto; lra|].
  all: assert (N : x < y) by (destruct (Req_dec y x); [exfalso; destruct Sm as (_ & Sm); discriminate Sm; lra|lra]).
  all: destruct (Rlt_or_le y (G (S i))) as [L|L].
  1, 3: assert (E1 := angle_left w to (y - x) Nw Ab ltac:(lra)); assert (E2 := angle_right _ to _ (nz_it (S i)) An ltac:(lra)); rewrite E1, next_it; cbn [ccw_eqb bind]; rewrite from_it; cbn [bind]; rewrite E2; cbn [ccw_eqb];
        exists i; split; auto; lra.
  - exfalso. rewrite Nat.add_0_r in Yd. lra.
  - assert (Go : (if ccw_eqb (ccw w to) COUNTERCLOCKWISE then do next <- nextAtVertex (fT s) (it i); do w0 <- from_he s next; Ok (ccw_eqb (ccw w0 to) CLOCKWISE) else Ok false) = Ok false).
    { destruct (ccw_eqb (ccw w to) COUNTERCLOCKWISE) eqn:E; auto. rewrite next_it. cbn [bind]. rewrite from_it. cbn [bind].
      assert (Lt : y - x < PI). { destruct (Rlt_or_le (y - x) PI) as [|Ge]; auto. exfalso. apply ccw_eqb_spec in E. revert E. apply (angle_not_left w to (y - x - 2 * PI)); auto; [now apply at_angle_period in Ab|lra]. }
      assert (Q := angle_not_right _ to _ (nz_it (S i)) An ltac:(lra)). destruct (ccw (vat' s (it (S i))) to); auto. congruence. }
    rewrite Go. cbn [bind]. rewrite next_it. cbn [bind]. rewrite from_it. cbn [bind].
    apply (IH (S i) _ (G (S i))); auto using ahead_it, nz_it; try lra; try lia; [pose proof (step_it (S i)); lra|]. now replace (S i + d)%nat with (i + S d)%nat by lia.
Qed.

(** The first half edge on a given side. *)
Lemma turn_until_run side (u : vec K) : forall d i fuel, (forall m, (i <= m < i + d)%nat -> ccw u (vat' s (it m)) <> side) -> ccw u (vat' s (it (i + d))) = side -> (d < fuel)%nat ->
  turn_until side fuel s (it i) u = Ok (it (i + d)).
Proof.
  induction d as [|d IH]; intros i fuel No E F; (destruct fuel as [|fuel]; [lia|]); cbn [turn_until]; rewrite from_it; cbn [bind].
  - rewrite Nat.add_0_r in *. assert (Q : ccw_eqb (ccw u (vat' s (it i))) side = true) by now apply ccw_eqb_spec. now rewrite Q.
  - assert (Q : ccw_eqb (ccw u (vat' s (it i))) side = false). { destruct (ccw_eqb _ _) eqn:X; auto. apply ccw_eqb_spec in X. exfalso. apply (No i); auto; lia. }
    rewrite Q. cbn [negb]. rewrite next_it. cbn [bind]. replace (i + S d)%nat with (S i + d)%nat in * by lia. apply IH; auto; try lia. intros m L. apply No. lia.
Qed.
Lemma turned_le i j : (i <= j)%nat -> G i <= G j.
Proof. intros L. destruct (Nat.eq_dec i j) as [->|]; [lra|]. left. apply (turned_lt n s S0 h Hh Inner alpha Corners). lia. Qed.
(** The sector that is reached at a given angle. *)
Lemma locate y : forall d i, G i <= y -> y < G (i + d) -> exists j, (i <= j < i + d)%nat /\ G j <= y < G (S j).
Proof.
  induction d as [|d IH]; intros i L U; [rewrite Nat.add_0_r in U; lra|]. destruct (Rlt_or_le y (G (S i))) as [Q|Q]; [exists i; split; [lia|lra]|].
  destruct (IH (S i)) as (j & B & C); auto; [now replace (S i + d)%nat with (i + S d)%nat by lia|]. exists j. split; auto. lia.
Qed.

Variable p : nat.
Hypothesis Per : period (fV s) h p.
Hypothesis Tot : 2 * PI <= G p.
Lemma it_period i : it (i + p) = it i.
Proof. destruct Per as (_ & E & _). induction i as [|i IH]; [exact E|]. change (fV s (it (i + p)) = fV s (it i)). now rewrite IH. Qed.
Lemma turned_period i : G (i + p) = G i + G p.
Proof. induction i as [|i IH]; [change (G p = 0 + G p); lra|]. change (S i + p)%nat with (S (i + p)). rewrite !turned_S, it_period, IH. lra. Qed.

Lemma full_turn_run (u : vec K) x i fuel : ahead u x -> vden u <> (0, 0) -> G i <= x < G (S i) -> (p + 1 < fuel)%nat ->
  exists j, (forall k, full_turns (S k) fuel s (it i) u = full_turns k fuel s (it j) u) /\ G j <= x + 2 * PI < G (S j).
Proof.
  intros Au Nu B F. pose proof PI_RGT_0. pose proof (step_it i) as Si.
  assert (Up : x + 2 * PI < G (S i + p)) by (rewrite turned_period; lra).
  destruct (locate (x + PI) p (S i)) as (j1 & L1 & B1); [lra|lra|]. destruct (locate (x + 2 * PI) p (S i)) as (j2 & L2 & B2); [lra|lra|].
  assert (J : (j1 < j2)%nat). { pose proof (step_it j1). assert (~ (j2 <= j1)%nat); [|lia]. intros L. assert (G (S j2) <= G (S j1)) by (apply turned_le; lia). lra. }
  assert (At : forall m, at_angle (vden u) (vden (vat' s (it m))) (G m - x)) by (intros m; apply ahead_between; auto using ahead_it).
  exists j2. split; [|exact B2]. intros k. cbn [full_turns].
  assert (E1 : turn_until COUNTERCLOCKWISE fuel s (it i) u = Ok (it (i + 1))).
  { apply turn_until_run; [|rewrite Nat.add_1_r; apply (angle_left _ _ _ Nu (At (S i))); lra|lia]. intros m L. replace m with i by lia. apply (angle_not_left _ _ _ Nu (At i)). lra. }
  rewrite E1. cbn [bind]. rewrite Nat.add_1_r.
  assert (E2 : turn_until CLOCKWISE fuel s (it (S i)) u = Ok (it (S i + (S j1 - S i)))).
  { apply turn_until_run; [| |lia].
    - intros m L. assert (Q1 := turned_le (S i) m ltac:(lia)). assert (Q2 := turned_le m j1 ltac:(lia)). apply (angle_not_right _ _ _ Nu (At m)). lra.
    - replace (S i + (S j1 - S i))%nat with (S j1) by lia. pose proof (step_it j1). apply (angle_right u _ (G (S j1) - x - 2 * PI)); auto; [exact (proj1 (at_angle_period _ _ _) (At _))|lra]. }
  rewrite E2. cbn [bind]. replace (S i + (S j1 - S i))%nat with (S j1) by lia.
  assert (E3 : turn_until COUNTERCLOCKWISE fuel s (it (S j1)) u = Ok (it (S j1 + (S j2 - S j1)))).
  { apply turn_until_run; [| |lia].
    - intros m L. assert (Q1 := turned_le (S j1) m ltac:(lia)). assert (Q2 := turned_le m j2 ltac:(lia)). apply (angle_not_left u _ (G m - x - 2 * PI)); auto; [exact (proj1 (at_angle_period _ _ _) (At _))|lra].
    - replace (S j1 + (S j2 - S j1))%nat with (S j2) by lia. pose proof (step_it j2). apply (angle_left u _ (G (S j2) - x - 2 * PI)); auto; [exact (proj1 (at_angle_period _ _ _) (At _))|lra]. }
  rewrite E3. cbn [bind]. replace (S j1 + (S j2 - S j1))%nat with (S j2) by lia. now rewrite previous_it.
Qed.
Lemma full_turns_run (u : vec K) fuel : vden u <> (0, 0) -> (p + 1 < fuel)%nat -> forall k x i, ahead u x -> G i <= x < G (S i) ->
  exists j, full_turns k fuel s (it i) u = Ok (it j) /\ G j <= x + INR k * (2 * PI) < G (S j).
Proof.
  intros Nu F. induction k as [|k IH]; intros x i A B; [exists i; cbn [full_turns INR]; split; auto; lra|].
  destruct (full_turn_run u x i fuel A Nu B F) as (j & E & Bj). rewrite E. destruct (IH (x + 2 * PI) j) as (m & Em & Bm); auto.
  - apply at_angle_period. now replace (x + 2 * PI - 2 * PI) with x by lra.
  - exists m. split; auto. rewrite S_INR. lra.
Qed.
Lemma transfer (u v : vec K) fuel k x a : ahead u x -> vden u <> (0, 0) -> G 0 <= x < G 1 -> at_angle (vden u) (vden v) a -> INR k * (2 * PI) <= a < (INR k + 1) * (2 * PI) -> (p + 1 < fuel)%nat ->
  exists j, (do h <- full_turns k fuel s h u; turn_to fuel s h u v) = Ok (it j) /\ G j <= x + a < G (S j).
Proof.
  intros A N B V Ba F. destruct (full_turns_run u fuel N F k x 0 A B) as (j & E & Bj). change (it 0) with h in E. rewrite E. cbn [bind].
  assert (Au : ahead u (x + INR k * (2 * PI))).
  { clear - A. induction k as [|k IH]; [cbn; now replace (x + 0 * (2 * PI)) with x by lra|]. apply at_angle_period. rewrite S_INR. now replace (x + (INR k + 1) * (2 * PI) - 2 * PI) with (x + INR k * (2 * PI)) by lra. }
  apply (turn_to_run v (x + a)) with (d := p) (x := x + INR k * (2 * PI)); auto; try lra; try lia.
  - eapply at_angle_trans; eauto.
  - change (S (j + p)) with (S j + p)%nat. rewrite turned_period. pose proof PI_RGT_0. nra.
Qed.
End turn.
