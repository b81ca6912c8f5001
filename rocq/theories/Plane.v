(** * Facts about the plane *)
From Coq Require Import Reals Lra Lia Psatz.
From Verif Require Import ExactReal Vector PlaneSpec.
Local Open Scope R_scope.

Lemma pt_eq (u v : pt) : fst u = fst v -> snd u = snd v -> u = v.
Proof. destruct u, v; cbn; congruence. Qed.

Lemma pdot_pos u : u <> (0, 0) -> 0 < pdot u u.
Proof.
  destruct u as [x y]; intros H; unfold pdot; cbn [fst snd].
  destruct (Req_dec x 0) as [->|Hx]; [destruct (Req_dec y 0) as [->|Hy]; [congruence|]|]; nra.
Qed.

Lemma pdot_zero u : pdot u u = 0 -> u = (0, 0).
Proof.
  destruct u as [x y]; unfold pdot; cbn [fst snd]. intros H. apply pt_eq; cbn [fst snd]; nra.
Qed.

Lemma sin2_cos2' a : sin a * sin a + cos a * cos a = 1.
Proof. pose proof (sin2_cos2 a). unfold Rsqr in *. lra. Qed.

Lemma turn_nonzero u v a : u <> (0, 0) -> turn u v a -> v <> (0, 0).
Proof.
  intros Hu ((A & B) & r & Hr & ->) H. apply pdot_pos in Hu. destruct u as [x y]. unfold pdot in Hu; cbn [fst snd] in Hu.
  unfold pscale, protate in H; cbn [fst snd] in H.
  injection H as H1 H2. pose proof (sin2_cos2' a).
  assert (E1 : cos a * x - sin a * y = 0) by nra. assert (E2 : sin a * x + cos a * y = 0) by nra.
  assert (X : x = 0). { replace x with ((sin a * sin a + cos a * cos a) * x) by nra.
    replace ((sin a * sin a + cos a * cos a) * x) with (cos a * (cos a * x - sin a * y) + sin a * (sin a * x + cos a * y)) by ring.
    rewrite E1, E2. ring. }
  assert (Y : y = 0). { replace y with ((sin a * sin a + cos a * cos a) * y) by nra.
    replace ((sin a * sin a + cos a * cos a) * y) with (cos a * (sin a * x + cos a * y) - sin a * (cos a * x - sin a * y)) by ring.
    rewrite E1, E2. ring. }
  subst. lra.
Qed.

(** Polar coordinates. *)
Lemma polar x y : x * x + y * y = 1 -> exists a, 0 <= a < 2 * PI /\ cos a = x /\ sin a = y.
Proof.
  intros H. pose proof PI_RGT_0 as HP. assert (Hx : -1 <= x <= 1) by (split; nra).
  destruct (acos_bound x) as [A B].
  assert (C : cos (acos x) = x) by (apply cos_acos; lra).
  assert (S : sin (acos x) = sqrt (1 - x * x)). { rewrite sin_acos by lra. reflexivity. }
  assert (Y : 1 - x * x = y * y) by lra. rewrite Y in S.
  destruct (Rle_or_lt 0 y) as [L|L].
  - exists (acos x). split; [lra|]. split; auto. rewrite S. apply sqrt_square. auto.
  - assert (0 < acos x).
    { destruct (Req_dec (acos x) 0) as [E|]; [|lra]. rewrite E, cos_0 in C. subst x. nra. }
    exists (2 * PI - acos x). split; [lra|]. split.
    + replace (2 * PI - acos x) with (- acos x + 2 * PI) by lra. rewrite cos_plus, cos_2PI, sin_2PI, cos_neg. lra.
    + replace (2 * PI - acos x) with (- acos x + 2 * PI) by lra. rewrite sin_plus, cos_2PI, sin_2PI, sin_neg.
      replace (y * y) with ((- y) * (- y)) in S by ring. rewrite sqrt_square in S by lra. lra.
Qed.

Lemma turn_exists u v : u <> (0, 0) -> v <> (0, 0) -> exists a, turn u v a.
Proof.
  intros Hu Hv. apply pdot_pos in Hu. apply pdot_pos in Hv.
  set (p := pdot u v). set (q := pdet u v).
  assert (E : p * p + q * q = pdot u u * pdot v v). { unfold p, q, pdot, pdet. ring. }
  assert (P : 0 < pdot u u * pdot v v) by nra.
  set (s := sqrt (pdot u u * pdot v v)). assert (Hs : 0 < s) by (apply sqrt_lt_R0; auto).
  assert (Es : s * s = pdot u u * pdot v v) by (apply sqrt_sqrt; lra).
  destruct (polar (p / s) (q / s)) as (a & Ha & Ca & Sa).
  { replace (p / s * (p / s) + q / s * (q / s)) with ((p * p + q * q) / (s * s)) by (field; lra).
    rewrite E, Es. field. lra. }
  exists a. split; auto. exists (s / pdot u u). split; [apply Rdiv_lt_0_compat; auto|].
  destruct u as [ux uy], v as [wx wy]. unfold pscale, protate; cbn [fst snd]. rewrite Ca, Sa.
  unfold p, q, pdot, pdet in *; cbn [fst snd] in *.
  apply pt_eq; cbn [fst snd]; field; split; lra.
Qed.

Lemma turn_dot u v a : turn u v a -> exists r, 0 < r /\ pdot u v = r * pdot u u * cos a /\ pdet u v = r * pdot u u * sin a.
Proof.
  intros (_ & r & Hr & ->). exists r. split; auto. unfold pdot, pdet, pscale, protate; cbn [fst snd]. split; ring.
Qed.

Lemma turn_det b v e a c : turn b v a -> turn b e c ->
  exists r, 0 < r /\ pdet v e = r * pdot b b * sin (c - a) /\ pdot v e = r * pdot b b * cos (c - a).
Proof.
  intros (_ & r & Hr & ->) (_ & s & Hs & ->). exists (r * s). split; [nra|].
  rewrite sin_minus, cos_minus. unfold pdot, pdet, pscale, protate; cbn [fst snd]. pose proof (sin2_cos2' a). split; ring.
Qed.

(** Signs of [sin] and [cos] on the circle. *)
Lemma sin_pos_iff a : 0 <= a < 2 * PI -> (0 < sin a <-> 0 < a < PI).
Proof.
  pose proof PI_RGT_0 as HP. intros Ha. split.
  - intros S. destruct (Req_dec a 0) as [->|]; [rewrite sin_0 in S; lra|]. split; [lra|].
    destruct (Rlt_or_le a PI) as [|L]; auto. destruct (Req_dec a PI) as [->|]; [rewrite sin_PI in S; lra|].
    assert (sin a < 0) by (apply sin_lt_0; lra). lra.
  - intros H. apply sin_gt_0; lra.
Qed.

Lemma sin_neg_iff a : 0 <= a < 2 * PI -> (sin a < 0 <-> PI < a).
Proof.
  pose proof PI_RGT_0 as HP. intros Ha. split.
  - intros S. destruct (Rlt_or_le PI a) as [|L]; auto. assert (0 <= sin a) by (apply sin_ge_0; lra). lra.
  - intros H. apply sin_lt_0; lra.
Qed.

Lemma sin_ge_iff a : 0 <= a < 2 * PI -> (0 <= sin a <-> a <= PI).
Proof.
  intros Ha. pose proof (sin_neg_iff a Ha) as N. split; intros H; apply Rnot_lt_le; intros L; apply N in L; lra.
Qed.

Lemma sin_zero_iff a : 0 <= a < 2 * PI -> (sin a = 0 <-> a = 0 \/ a = PI).
Proof.
  intros Ha. split.
  - intros S. pose proof (sin_pos_iff a Ha). pose proof (sin_neg_iff a Ha).
    destruct (Req_dec a 0); auto. destruct (Rtotal_order a PI) as [|[|]]; auto; [assert (0 < sin a) by (apply H; lra); lra|].
    assert (sin a < 0) by (apply H0; lra). lra.
  - intros [-> | ->]; [apply sin_0|apply sin_PI].
Qed.

Lemma sin_sub_pos x : - PI < x < PI -> (0 < sin x <-> 0 < x).
Proof.
  intros Hx. split.
  - intros S. destruct (Rlt_or_le 0 x) as [|L]; auto. destruct (Req_dec x 0) as [->|]; [rewrite sin_0 in S; lra|].
    assert (sin x < 0) by (apply sin_lt_0_var; lra). lra.
  - intros H. apply sin_gt_0; lra.
Qed.

(** ** Sectors by signs of determinants *)

Lemma turn_unique u v a a' : u <> (0, 0) -> turn u v a -> turn u v a' -> a = a'.
Proof.
  intros Hu T T'. apply pdot_pos in Hu. destruct (turn_det u v v a a' T T') as (r & Hr & D & C).
  destruct T as ((A1 & A2) & _). destruct T' as ((A1' & A2') & _).
  assert (E : pdet v v = 0) by (unfold pdet; ring).
  assert (K : 0 < r * pdot u u) by (apply Rmult_lt_0_compat; auto).
  assert (S : sin (a' - a) = 0). { rewrite E in D. symmetry in D. apply Rmult_integral in D. destruct D; [lra|auto]. }
  assert (C' : 0 <= cos (a' - a)). { assert (0 <= pdot v v) by (unfold pdot; nra). apply Rnot_lt_le. intros L.
    assert (r * pdot u u * cos (a' - a) < 0) by (apply Ropp_lt_cancel; rewrite Ropp_0, Ropp_mult_distr_r; apply Rmult_lt_0_compat; lra). lra. }
  pose proof PI_RGT_0.
  destruct (Rtotal_order (a' - a) 0) as [L|[L|L]]; try lra; exfalso.
  - assert (B : 0 <= a - a' < 2 * PI) by lra. assert (S' : sin (a - a') = 0) by (replace (a - a') with (- (a' - a)) by lra; rewrite sin_neg; lra).
    apply sin_zero_iff in S'; auto. destruct S' as [S'|S']; [lra|]. replace (a' - a) with (- PI) in C' by lra. rewrite cos_neg, cos_PI in C'. lra.
  - assert (B : 0 <= a' - a < 2 * PI) by lra. apply sin_zero_iff in S; auto. destruct S as [S|S]; [lra|]. rewrite S, cos_PI in C'. lra.
Qed.

Definition sector_by_signs (v b e : pt) : Prop :=
  (0 < pdet b e /\ 0 <= pdet b v /\ 0 < pdet v e) \/
  (pdet b e = 0 /\ 0 < pdot b e /\ pdet b v = 0 /\ 0 < pdot b v) \/
  (pdet b e = 0 /\ pdot b e < 0 /\ (0 < pdet b v \/ (pdet b v = 0 /\ 0 < pdot b v))) \/
  (pdet b e < 0 /\ ~ (0 <= pdet e v /\ 0 < pdet v b)).

Lemma pos_scale k x : 0 < k -> (0 < k * x <-> 0 < x) /\ (0 <= k * x <-> 0 <= x) /\ (k * x < 0 <-> x < 0) /\ (k * x = 0 <-> x = 0).
Proof. intros. repeat split; intros; nra. Qed.

Lemma cos_0_pi_pos a : a = 0 \/ a = PI -> (0 < cos a <-> a = 0).
Proof. intros [-> | ->]; rewrite ?cos_0, ?cos_PI; pose proof PI_RGT_0; lra. Qed.

Lemma in_sector_signs v b e : v <> (0, 0) -> b <> (0, 0) -> e <> (0, 0) -> (in_sector v b e <-> sector_by_signs v b e).
Proof.
  intros Hv Hb He. destruct (turn_exists b v Hb Hv) as (a & Ta). destruct (turn_exists b e Hb He) as (c & Tc).
  assert (E : in_sector v b e <-> (a < c \/ (a = 0 /\ c = 0))).
  { split.
    - intros (a' & c' & Ta' & Tc' & H). rewrite <- (turn_unique b v a a') in H by auto.
      rewrite <- (turn_unique b e c c') in H by auto. auto.
    - intros H. exists a, c. auto. }
  rewrite E. clear E.
  destruct (turn_dot b v a Ta) as (r & Hr & Dv & Sv). destruct (turn_dot b e c Tc) as (s & Hs & De & Se).
  destruct (turn_det b v e a c Ta Tc) as (q & Hq & Sq & _).
  apply pdot_pos in Hb. destruct Ta as (Ra & _). destruct Tc as (Rc & _). pose proof PI_RGT_0 as HP.
  unfold sector_by_signs. replace (pdet e v) with (- pdet v e) by (unfold pdet; ring).
  replace (pdet v b) with (- pdet b v) by (unfold pdet; ring).
  rewrite Dv, Sv, De, Se, Sq.
  assert (Kr : 0 < r * pdot b b) by nra. assert (Ks : 0 < s * pdot b b) by nra. assert (Kq : 0 < q * pdot b b) by nra.
  set (kr := r * pdot b b) in *. set (ks := s * pdot b b) in *. set (kq := q * pdot b b) in *. clearbody kr ks kq.
  pose proof (sin_pos_iff a Ra) as Pa. pose proof (sin_neg_iff a Ra) as Na. pose proof (sin_zero_iff a Ra) as Za.
  pose proof (sin_pos_iff c Rc) as Pc. pose proof (sin_neg_iff c Rc) as Nc. pose proof (sin_zero_iff c Rc) as Zc.
  destruct (pos_scale kr (sin a) Kr) as (R1 & R2 & R3 & R4). destruct (pos_scale kr (cos a) Kr) as (R5 & _).
  destruct (pos_scale ks (sin c) Ks) as (S1 & _ & S3 & S4). destruct (pos_scale ks (cos c) Ks) as (S5 & _ & S7 & _).
  destruct (pos_scale kq (sin (c - a)) Kq) as (Q1 & _ & _ & _).
  assert (Q2 : 0 <= - (kq * sin (c - a)) <-> ~ 0 < sin (c - a)) by (rewrite <- Q1; clear; split; lra).
  assert (R6 : 0 < - (kr * sin a) <-> sin a < 0) by (rewrite <- R3; clear; split; lra).
  rewrite R1, R2, R4, R5, S1, S3, S4, S5, S7, Q1, Q2, R6.
  pose proof (sin_ge_iff a Ra) as Ga.
  rewrite Ga, Pa, Na, Za, Pc, Nc, Zc.
  clear - Ra Rc HP.
  destruct (Rtotal_order c PI) as [L|[L|L]].
  - destruct (Rle_lt_or_eq_dec 0 c) as [N|<-]; [lra| |].
    2: { rewrite cos_0. split.
      * intros [H|[-> _]]; [lra|]. right. left. split; auto. split; [lra|]. split; auto. rewrite cos_0. lra.
      * intros [H|[(_ & _ & H1 & H2)|[H|H]]]; try lra. apply cos_0_pi_pos in H2; auto. }
    split.
      * intros H. left. split; [lra|]. split; [lra|]. apply sin_sub_pos; lra.
      * intros [(_ & H1 & H2)|[H|[H|H]]]; try (exfalso; intuition lra). left. apply (proj1 (sin_sub_pos (c - a) ltac:(lra))) in H2; lra.
  - subst c. rewrite cos_PI. split.
    + intros H. right. right. left. split; auto. split; [lra|]. destruct (Req_dec a 0) as [->|]; [|lra].
      right. split; auto. rewrite cos_0. lra.
    + intros [H|[H|[(_ & _ & H)|H]]]; try (exfalso; intuition lra). left. destruct H as [H|(H1 & H2)]; [lra|]. apply cos_0_pi_pos in H2; auto. lra.
  - split.
    + intros H. right. right. right. split; auto. intros (H1 & H2). apply H1. apply sin_gt_0; lra.
    + intros [H|[H|[H|(_ & H)]]]; try (exfalso; intuition lra). left. apply Rnot_le_lt. intros H1. apply H. split; [|lra].
      intros H2. assert (- PI < c - a < PI) by lra. apply (proj1 (sin_sub_pos (c - a) ltac:(lra))) in H2; lra.
Qed.
