(** * Facts about vectors *)
From Coq Require Import ZArith QArith Qround Qreals List Bool Reals Lra Lia Psatz.
From Verif Require Import Base ExactReal Vector PlaneSpec Plane.
Import ListNotations.
Local Open Scope R_scope.

Section vectors.
Context {K : ExactReal}.
Notation V := (vec K).
Implicit Types (u v w : V).

Lemma vden_zero : vden (@vzero K) = (0, 0).
Proof. unfold vden, vzero; cbn [vx vy]. now rewrite !den_ofZ. Qed.
Lemma vden_add v w : vden (vadd v w) = padd (vden v) (vden w).
Proof. unfold vden, vadd, padd; cbn [vx vy fst snd]. now rewrite !den_add. Qed.
Lemma vden_neg v : vden (vneg v) = pneg (vden v).
Proof. unfold vden, vneg, pneg; cbn [vx vy fst snd]. now rewrite !den_opp. Qed.
Lemma vden_sub v w : vden (vsub v w) = padd (vden v) (pneg (vden w)).
Proof. unfold vsub. now rewrite vden_add, vden_neg. Qed.
Lemma vden_scaleZ c v : vden (vscaleZ c v) = pscale (IZR c) (vden v).
Proof. unfold vden, vscaleZ, pscale; cbn [vx vy fst snd]. rewrite !den_mul, !den_ofZ. f_equal; ring. Qed.
Lemma vden_scale c v : vden (vscale c v) = pscale (den c) (vden v).
Proof. unfold vden, vscale, pscale; cbn [vx vy fst snd]. rewrite !den_mul. f_equal; ring. Qed.
Lemma den_dot v w : den (vdot v w) = pdot (vden v) (vden w).
Proof. unfold vden, vdot, pdot; cbn [vx vy fst snd]. now rewrite den_add, !den_mul. Qed.

Lemma veqb_spec v w : veqb v w = true <-> vden v = vden w.
Proof.
  unfold veqb, vden. rewrite andb_true_iff, !reqb_spec. split; [intros [-> ->]; auto|]. intros H. injection H. auto.
Qed.

Lemma vnonzero_spec v : vnonzero v = true <-> vden v <> (0, 0).
Proof.
  unfold vnonzero. rewrite orb_true_iff, !negb_true_iff. unfold vden. split.
  - intros [H|H] E; injection E as E1 E2; apply not_true_iff_false in H; apply H; apply reqb_spec; now rewrite den_ofZ.
  - intros H. destruct (reqb_reflect (vx v) (rofZ 0)) as [E|E]; auto.
    destruct (reqb_reflect (vy v) (rofZ 0)) as [F|F]; auto. exfalso. apply H. rewrite den_ofZ in E, F. now rewrite E, F.
Qed.

Lemma ccw_cases v w : match ccw v w with
  | COUNTERCLOCKWISE => 0 < pdet (vden v) (vden w)
  | COLLINEAR => pdet (vden v) (vden w) = 0
  | CLOCKWISE => pdet (vden v) (vden w) < 0
  end.
Proof.
  unfold ccw, pdet, vden; cbn [fst snd].
  destruct (reqb_reflect (rmul (vx v) (vy w)) (rmul (vx w) (vy v))) as [E|E]; rewrite !den_mul in E.
  - nra.
  - destruct (rltb_reflect (rmul (vx w) (vy v)) (rmul (vx v) (vy w))) as [L|L]; rewrite !den_mul in L; nra.
Qed.

Lemma ccw_spec v w :
  (ccw v w = COUNTERCLOCKWISE <-> 0 < pdet (vden v) (vden w)) /\
  (ccw v w = COLLINEAR <-> pdet (vden v) (vden w) = 0) /\
  (ccw v w = CLOCKWISE <-> pdet (vden v) (vden w) < 0).
Proof.
  pose proof (ccw_cases v w) as H. destruct (ccw v w); repeat split; intros; try discriminate; auto; lra.
Qed.

Lemma orientation_cases v w : match orientation v w with
  | SAME => 0 < pdot (vden v) (vden w)
  | ORTHOGONAL => pdot (vden v) (vden w) = 0
  | OPPOSITE => pdot (vden v) (vden w) < 0
  end.
Proof.
  unfold orientation. destruct (reqb_reflect (vdot v w) (rofZ 0)) as [E|E]; rewrite den_ofZ, den_dot in E; auto.
  destruct (rltb_reflect (rofZ 0) (vdot v w)) as [L|L]; rewrite den_ofZ, den_dot in L; auto. lra.
Qed.

Lemma orientation_spec v w :
  (orientation v w = SAME <-> 0 < pdot (vden v) (vden w)) /\
  (orientation v w = ORTHOGONAL <-> pdot (vden v) (vden w) = 0) /\
  (orientation v w = OPPOSITE <-> pdot (vden v) (vden w) < 0).
Proof.
  pose proof (orientation_cases v w) as H. destruct (orientation v w); repeat split; intros; try discriminate; auto; lra.
Qed.

Lemma ccw_eqb_spec a b : ccw_eqb a b = true <-> a = b.
Proof. destruct a, b; cbn; split; congruence. Qed.
Lemma orientation_eqb_spec a b : orientation_eqb a b = true <-> a = b.
Proof. destruct a, b; cbn; split; congruence. Qed.

(** Nonzero collinear vectors are not orthogonal. *)
Lemma collinear_not_orthogonal p q : p <> (0, 0) -> q <> (0, 0) -> pdet p q = 0 -> pdot p q <> 0.
Proof.
  intros Hp Hq D E. apply pdot_pos in Hp. apply pdot_pos in Hq.
  assert (X : pdot p p * pdot q q = pdot p q * pdot p q + pdet p q * pdet p q) by (unfold pdot, pdet; ring).
  rewrite D, E in X. nra.
Qed.

Lemma bool_iff_true (b : bool) (P : Prop) : (b = true <-> P) -> (negb b = true <-> ~ P).
Proof. intros H. rewrite negb_true_iff, <- H. destruct b; split; congruence. Qed.

Lemma inSector_Ok v b e : vden v <> (0, 0) -> vden b <> (0, 0) -> vden e <> (0, 0) ->
  exists r, inSector v b e = Ok r /\ (r = true <-> sector_by_signs (vden v) (vden b) (vden e)).
Proof.
  intros Hv Hb He. unfold inSector. cbn [inSector_fuel].
  assert (Zv := proj2 (vnonzero_spec v) Hv). assert (Zb := proj2 (vnonzero_spec b) Hb). assert (Ze := proj2 (vnonzero_spec e) He).
  rewrite Zv, Zb, Ze. cbn [negb].
  assert (Cbe := ccw_cases b e). assert (Ceb := ccw_cases e b).
  assert (Cbv := ccw_cases b v). assert (Cvb := ccw_cases v b).
  assert (Cve := ccw_cases v e). assert (Cev := ccw_cases e v).
  assert (Obe := orientation_cases b e). assert (Obv := orientation_cases b v). assert (Ovb := orientation_cases v b).
  assert (A1 : pdet (vden e) (vden b) = - pdet (vden b) (vden e)) by (unfold pdet; ring).
  assert (A2 : pdet (vden v) (vden b) = - pdet (vden b) (vden v)) by (unfold pdet; ring).
  assert (A3 : pdet (vden e) (vden v) = - pdet (vden v) (vden e)) by (unfold pdet; ring).
  assert (A4 : pdot (vden v) (vden b) = pdot (vden b) (vden v)) by (unfold pdot; ring).
  assert (N := collinear_not_orthogonal _ _ Hb He).
  unfold sector_by_signs. rewrite A1 in Ceb. rewrite A2 in Cvb |- *. rewrite A3 in Cev |- *. rewrite A4 in Ovb.
  set (be := pdet (vden b) (vden e)) in *. set (bv := pdet (vden b) (vden v)) in *. set (ve := pdet (vden v) (vden e)) in *.
  set (obe := pdot (vden b) (vden e)) in *. set (obv := pdot (vden b) (vden v)) in *. clearbody be bv ve obe obv.
  destruct (ccw b e); destruct (ccw e b); try (exfalso; lra).
  - (* counterclockwise *)
    eexists. split; [reflexivity|]. clear - Cbe Cbv Cve. destruct (ccw b v), (ccw v e); cbn; split; intros H; try discriminate; try (left; lra); try (exfalso; lra); try (exfalso; intuition lra); auto.
  - (* collinear *)
    destruct (orientation b e).
    + eexists. split; [reflexivity|]. clear - Cbe Cvb Ovb Obe.
      destruct (ccw v b), (orientation v b); cbn; split; intros H; try discriminate; try (exfalso; intuition lra); auto; right; left; lra.
    + exfalso. exact (N Cbe Obe).
    + clear - Cbe Cbv Obv Obe. destruct (ccw b v); [| |]; eexists; (split; [reflexivity|]).
      * split; auto. intros _. right. right. left. split; auto.
      * destruct (orientation b v); cbn; split; intros H; try discriminate; try (exfalso; intuition lra); auto.
        right. right. left. split; auto.
      * split; intros H; try discriminate. exfalso. intuition lra.
  - (* clockwise *)
    cbn [bind]. eexists. split; [reflexivity|]. clear - Cbe Cvb Cev.
    destruct (ccw e v), (ccw v b); cbn; split; intros H; try discriminate; try (exfalso; intuition lra); try (right; right; right; split; auto; lra); auto.
Qed.

Lemma inSector_zero v b e : vden v = (0, 0) \/ vden b = (0, 0) \/ vden e = (0, 0) -> inSector v b e = Throw.
Proof.
  intros H. unfold inSector; cbn [inSector_fuel].
  assert (Z : forall w, vden w = (0, 0) -> vnonzero w = false).
  { intros w Hw. apply not_true_iff_false. intros Q. now apply vnonzero_spec in Q. }
  destruct H as [H|[H|H]]; rewrite (Z _ H); cbn; destruct (vnonzero b), (vnonzero e); reflexivity.
Qed.

(** Slopes. *)
Definition slope_less (p q : pt) : Prop := fst p <> 0 /\ (fst q = 0 \/ (fst q <> 0 /\ snd p / fst p < snd q / fst q)).

Lemma div_lt_iff a b c d : b <> 0 -> d <> 0 -> (a / b < c / d <-> (0 < b * d /\ a * d < c * b) \/ (b * d < 0 /\ c * b < a * d)).
Proof.
  intros Hb Hd. assert (E : (c / d - a / b) * (b * d) = c * b - a * d) by (field; auto).
  assert (N : b * d <> 0) by (apply Rmult_integral_contrapositive_currified; auto).
  set (k := b * d) in *. set (z := c / d - a / b) in *.
  assert (Z : a / b < c / d <-> 0 < z) by (unfold z; split; lra). rewrite Z. clearbody z k.
  destruct (Rtotal_order k 0) as [L|[L|L]]; [|contradiction|].
  - split; [intros H; right; split; auto; nra|]. intros [H|H]; [lra|]. nra.
  - split; [intros H; left; split; auto; nra|]. intros [H|H]; [|lra]. nra.
Qed.

Lemma compareSlope_spec v w : compareSlope v w = true <-> slope_less (vden v) (vden w).
Proof.
  unfold compareSlope, slope_less, vden; cbn [fst snd].
  destruct (reqb_reflect (vx w) (rofZ 0)) as [E|E]; rewrite den_ofZ in E.
  - rewrite negb_true_iff. destruct (reqb_reflect (vx v) (rofZ 0)) as [F|F]; rewrite den_ofZ in F; split; intros H; try discriminate; auto.
    exfalso. tauto.
  - destruct (reqb_reflect (vx v) (rofZ 0)) as [F|F]; rewrite den_ofZ in F.
    + split; [discriminate|]. tauto.
    + assert (T : forall A : Prop, (fst (den (vx v), den (vy v)) <> 0 /\ (den (vx w) = 0 \/ (den (vx w) <> 0 /\ A))) <-> A) by (intros; cbn; tauto).
      rewrite (T (den (vy v) / den (vx v) < den (vy w) / den (vx w))). rewrite div_lt_iff by auto.
      destruct (rltb_reflect (vx v) (rofZ 0)) as [L1|L1]; destruct (rltb_reflect (vx w) (rofZ 0)) as [L2|L2]; rewrite den_ofZ in L1, L2; cbn [Bool.eqb].
      all: rewrite rltb_spec, !den_mul.
      * assert (0 < den (vx v) * den (vx w)) by nra. split; [intros; left; lra|]. intros [H0|H0]; lra.
      * assert (den (vx v) * den (vx w) < 0) by nra. split; [intros; right; lra|]. intros [H0|H0]; lra.
      * assert (den (vx v) * den (vx w) < 0) by nra. split; [intros; right; lra|]. intros [H0|H0]; lra.
      * assert (0 < den (vx v) * den (vx w)) by nra. split; [intros; left; lra|]. intros [H0|H0]; lra.
Qed.

Lemma compareLength_spec v w : compareLength v w = true <-> plength (vden v) < plength (vden w).
Proof.
  unfold compareLength, plength. rewrite rltb_spec, !den_dot.
  assert (P : forall p, 0 <= pdot p p) by (intros; unfold pdot; nra). split; intros H.
  - apply sqrt_lt_1; auto.
  - apply sqrt_lt_0_alt. auto.
Qed.

Lemma vgtb_spec v b : (0 <= b)%Z -> (vgtb v b = true <-> IZR b < pdot (vden v) (vden v)).
Proof.
  intros Hb. unfold vgtb, bnonzero, bsquared. rewrite negb_involutive. destruct (Z.eqb_spec b 0) as [->|N].
  - rewrite vnonzero_spec. split.
    + apply pdot_pos.
    + intros H E. rewrite E in H. unfold pdot in H; cbn in H. lra.
  - rewrite rltb_spec, den_ofZ, den_add, !den_mul. reflexivity.
Qed.

Lemma vltb_spec v b : (0 <= b)%Z -> (vltb v b = true <-> pdot (vden v) (vden v) < IZR b).
Proof.
  intros Hb. unfold vltb, bnonzero, bsquared. rewrite negb_involutive. destruct (Z.eqb_spec b 0) as [->|N].
  - split; [discriminate|]. intros H. unfold pdot in H. exfalso. nra.
  - rewrite rltb_spec, den_ofZ, den_add, !den_mul. reflexivity.
Qed.

Lemma area2_from_den cur area ps : den (area2_from cur area ps) =
  den area + snd (fold_left (fun (s : pt * R) v => let n := padd (fst s) (vden v) in (n, snd s + pdet (fst s) n)) ps (vden cur, 0)).
Proof.
  assert (G : forall ps c a s, snd (fold_left (fun (s : pt * R) v => let n := padd (fst s) (vden v) in (n, snd s + pdet (fst s) n)) ps (c, s + a)) =
    s + snd (fold_left (fun (s : pt * R) v => let n := padd (fst s) (vden v) in (n, snd s + pdet (fst s) n)) ps (c, a))).
  { clear. induction ps as [|p r IH]; intros c a s; cbn; auto. rewrite <- IH. f_equal. f_equal. f_equal. ring. }
  revert cur area. induction ps as [|p r IH]; intros cur area; cbn [area2_from fold_left fst snd].
  - cbn. ring.
  - rewrite IH. rewrite vden_add, den_add, den_sub, !den_mul.
    rewrite <- (Rplus_0_r (0 + pdet (vden cur) (padd (vden cur) (vden p)))). rewrite G. unfold pdet at 2. rewrite <- vden_add. unfold vden; cbn [fst snd]. ring.
Qed.
End vectors.
