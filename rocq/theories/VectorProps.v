(** * Properties of vectors: orientations, sectors, slopes, lengths and bounds *)
From Coq Require Import ZArith QArith Qreals Reals List Bool Lra Lia Psatz.
From Verif Require Import Base ExactReal Vector PlaneSpec Plane VectorFacts.
Local Open Scope R_scope.

Section props.
Context {K : ExactReal}.
Implicit Types v w b e : vec K.

(** ** C14: orientation predicates are exact *)
Theorem C14_ccw_exact v w :
  (ccw v w = COUNTERCLOCKWISE <-> 0 < pdet (vden v) (vden w)) /\
  (ccw v w = COLLINEAR <-> pdet (vden v) (vden w) = 0) /\
  (ccw v w = CLOCKWISE <-> pdet (vden v) (vden w) < 0).
Proof. apply ccw_spec. Qed.

Theorem C14_orientation_exact v w :
  (orientation v w = SAME <-> 0 < pdot (vden v) (vden w)) /\
  (orientation v w = ORTHOGONAL <-> pdot (vden v) (vden w) = 0) /\
  (orientation v w = OPPOSITE <-> pdot (vden v) (vden w) < 0).
Proof. apply orientation_spec. Qed.

(** Exchanging the arguments reverses the answer of [ccw] and does not change [orientation]. *)
Theorem C14_antisymmetric v w :
  (ccw v w = COUNTERCLOCKWISE <-> ccw w v = CLOCKWISE) /\
  (ccw v w = COLLINEAR <-> ccw w v = COLLINEAR) /\
  orientation v w = orientation w v.
Proof.
  assert (A : pdet (vden w) (vden v) = - pdet (vden v) (vden w)) by (unfold pdet; ring).
  assert (B : pdot (vden w) (vden v) = pdot (vden v) (vden w)) by (unfold pdot; ring).
  pose proof (ccw_cases v w) as C1. pose proof (ccw_cases w v) as C2. rewrite A in C2.
  pose proof (orientation_cases v w) as O1. pose proof (orientation_cases w v) as O2. rewrite B in O2.
  destruct (ccw v w), (ccw w v), (orientation v w), (orientation w v); try (exfalso; lra); repeat split; congruence.
Qed.

(** Neither answer depends on the (positive) lengths of the vectors. *)
Theorem C14_scaling_invariant v w (a b : K) : 0 < den a -> 0 < den b ->
  ccw (vscale a v) (vscale b w) = ccw v w /\ orientation (vscale a v) (vscale b w) = orientation v w.
Proof.
  intros Ha Hb. assert (P : 0 < den a * den b) by nra.
  assert (A : pdet (vden (vscale a v)) (vden (vscale b w)) = den a * den b * pdet (vden v) (vden w)).
  { rewrite !vden_scale. unfold pdet, pscale; cbn. ring. }
  assert (B : pdot (vden (vscale a v)) (vden (vscale b w)) = den a * den b * pdot (vden v) (vden w)).
  { rewrite !vden_scale. unfold pdot, pscale; cbn. ring. }
  pose proof (ccw_cases (vscale a v) (vscale b w)) as C1. pose proof (ccw_cases v w) as C2. rewrite A in C1.
  pose proof (orientation_cases (vscale a v) (vscale b w)) as O1. pose proof (orientation_cases v w) as O2. rewrite B in O1.
  destruct (ccw (vscale a v) (vscale b w)), (ccw v w), (orientation (vscale a v) (vscale b w)), (orientation v w);
    try (exfalso; nra); auto.
Qed.

(** ** C16: sectors *)
Theorem C16_sector v b e : vden v <> (0, 0) -> vden b <> (0, 0) -> vden e <> (0, 0) ->
  exists r, inSector v b e = Ok r /\ (r = true <-> in_sector (vden v) (vden b) (vden e)).
Proof.
  intros Hv Hb He. destruct (inSector_Ok v b e Hv Hb He) as (r & E & S). exists r. split; auto.
  rewrite S. symmetry. apply in_sector_signs; auto.
Qed.

Theorem C16_zero_rejected v b e : vden v = (0, 0) \/ vden b = (0, 0) \/ vden e = (0, 0) -> inSector v b e = Throw.
Proof. apply inSector_zero. Qed.

(** When [b] and [e] do not have the same direction, every direction is in exactly one of [b, e) and [e, b). *)
Theorem C16_partition v b e : vden v <> (0, 0) -> vden b <> (0, 0) -> vden e <> (0, 0) ->
  ~ (exists r, 0 < r /\ vden e = pscale r (vden b)) ->
  exists r, inSector v b e = Ok r /\ inSector v e b = Ok (negb r).
Proof.
  intros Hv Hb He N. destruct (inSector_Ok v b e Hv Hb He) as (r & E & _). exists r. split; auto. revert E.
  unfold inSector. cbn [inSector_fuel].
  rewrite (proj2 (vnonzero_spec v) Hv), (proj2 (vnonzero_spec b) Hb), (proj2 (vnonzero_spec e) He). cbn [negb].
  pose proof (ccw_cases b e) as C1. pose proof (ccw_cases e b) as C2.
  assert (DE : pdet (vden e) (vden b) = - pdet (vden b) (vden e)) by (unfold pdet; ring). rewrite DE in C2.
  destruct (ccw b e), (ccw e b); try (exfalso; lra); cbn [bind].
  - intros Q. now injection Q as <-.
  - pose proof (orientation_cases b e) as O1. pose proof (orientation_cases e b) as O2.
    assert (OE : pdot (vden e) (vden b) = pdot (vden b) (vden e)) by (unfold pdot; ring). rewrite OE in O2.
    pose proof (pdot_pos _ Hb) as P.
    destruct (orientation b e).
    { exfalso. apply N. exists (pdot (vden b) (vden e) / pdot (vden b) (vden b)).
      split; [apply Rdiv_lt_0_compat; auto|]. clear - C1 P. unfold pdet, pdot, pscale in *. destruct (vden b) as [x y], (vden e) as [z t]; cbn in *.
      assert (Y : y * (x * t - y * z) = 0) by (rewrite C1; ring). assert (X : x * (x * t - y * z) = 0) by (rewrite C1; ring).
      apply pt_eq; cbn; apply (Rmult_eq_reg_r (x * x + y * y)); try lra.
      - transitivity ((x * z + y * t) * x); [lra|field; lra].
      - transitivity ((x * z + y * t) * y); [lra|field; lra]. }
    { exfalso. exact (collinear_not_orthogonal _ _ Hb He C1 O1). }
    destruct (orientation e b); try (exfalso; lra). cbn [bind].
    assert (E1 : pdet (vden e) (vden v) * pdot (vden b) (vden b) = pdot (vden b) (vden e) * pdet (vden b) (vden v) - pdet (vden b) (vden e) * pdot (vden b) (vden v)) by (unfold pdet, pdot; ring).
    assert (E2 : pdot (vden e) (vden v) * pdot (vden b) (vden b) = pdot (vden b) (vden e) * pdot (vden b) (vden v) + pdet (vden b) (vden e) * pdet (vden b) (vden v)) by (unfold pdet, pdot; ring).
    rewrite C1 in E1, E2.
    pose proof (ccw_cases b v) as C3. pose proof (ccw_cases e v) as C4. pose proof (orientation_cases b v) as O3. pose proof (orientation_cases e v) as O4.
    assert (M1 := collinear_not_orthogonal _ _ Hb Hv).
    set (ev := pdet (vden e) (vden v)) in *. set (bb := pdot (vden b) (vden b)) in *. set (be := pdot (vden b) (vden e)) in *.
    set (bv := pdet (vden b) (vden v)) in *. set (oev := pdot (vden e) (vden v)) in *. set (obv := pdot (vden b) (vden v)) in *.
    clearbody ev bb be bv oev obv. clear - P C3 C4 O3 O4 E1 E2 M1 O1.
    destruct (ccw b v), (ccw e v); try (exfalso; nra); intros Q; injection Q as <-; auto.
    f_equal. destruct (orientation b v), (orientation e v); auto; exfalso; try nra; apply M1; auto.
  - destruct (Datatypes.andb _ _); cbn [bind negb]; intros Q; injection Q as <-; reflexivity.
Qed.

(** ** C17: CompareSlope and CompareLength *)
Theorem C17_slope v w : compareSlope v w = true <->
  fst (vden v) <> 0 /\ (fst (vden w) = 0 \/ (fst (vden w) <> 0 /\ snd (vden v) / fst (vden v) < snd (vden w) / fst (vden w))).
Proof. apply compareSlope_spec. Qed.

Theorem C17_slope_strict_weak_order :
  (forall v, compareSlope v v = false) /\
  (forall u v w, compareSlope u v = true -> compareSlope v w = true -> compareSlope u w = true) /\
  (forall u v w, compareSlope u v = false -> compareSlope v u = false -> compareSlope v w = false -> compareSlope w v = false ->
    compareSlope u w = false /\ compareSlope w u = false).
Proof.
  assert (F : forall a b, compareSlope a b = false <-> ~ slope_less (vden a) (vden b)).
  { intros a b. rewrite <- compareSlope_spec. destruct (compareSlope a b); split; congruence. }
  split; [|split].
  - intros v. apply F. intros (A & [B|(_ & B)]); [auto|lra].
  - intros u v w. rewrite !compareSlope_spec. intros (A & B) (C & D). split; auto. destruct B as [B|(_ & B)]; [contradiction|].
    destruct D as [D|(D & E)]; auto. right. split; auto. lra.
  - intros u v w. rewrite !F. unfold slope_less. intros A B C D.
    destruct (Req_dec (fst (vden u)) 0) as [U|U], (Req_dec (fst (vden v)) 0) as [V|V], (Req_dec (fst (vden w)) 0) as [W|W]; try tauto.
    assert (A' : ~ snd (vden u) / fst (vden u) < snd (vden v) / fst (vden v)) by tauto.
    assert (B' : ~ snd (vden v) / fst (vden v) < snd (vden u) / fst (vden u)) by tauto.
    assert (C' : ~ snd (vden v) / fst (vden v) < snd (vden w) / fst (vden w)) by tauto.
    assert (D' : ~ snd (vden w) / fst (vden w) < snd (vden v) / fst (vden v)) by tauto.
    split; intros (_ & [X|(_ & X)]); auto; lra.
Qed.

Theorem C17_length v w : compareLength v w = true <-> plength (vden v) < plength (vden w).
Proof. apply compareLength_spec. Qed.

(** ** C18: bounds *)
(** The length that a bound denotes. *)
Definition blength (b : bound) : R := sqrt (IZR b).

Lemma pdot_ge p : 0 <= pdot p p.
Proof. unfold pdot. nra. Qed.

Theorem C18_enclosure v :
  (0 <= blower v)%Z /\ blength (blower v) <= plength (vden v) <= blength (bupper v) /\
  pdot (vden v) (vden v) - 1 < IZR (blower v) /\ IZR (bupper v) < pdot (vden v) (vden v) + 1.
Proof.
  unfold blength, plength. rewrite <- den_dot.
  pose proof (rfloor_spec K (vdot v v)) as [F1 F2]. pose proof (rceil_spec _ (vdot v v)) as [G1 G2].
  fold (blower v) in F1, F2. fold (bupper v) in G1, G2.
  assert (P : 0 <= den (vdot v v)) by (rewrite den_dot; apply pdot_ge).
  assert (N : (0 <= blower v)%Z) by (apply Z.lt_succ_r, lt_IZR; rewrite succ_IZR; lra).
  apply IZR_le in N as N'. split; auto. split; [split; apply sqrt_le_1; lra|]. lra.
Qed.

(** [v > b] and [v < b] compare the length exactly; every Bound has a nonnegative square. *)
Theorem C18_comparison v (b : bound) : (0 <= b)%Z ->
  (vgtb v b = true <-> blength b < plength (vden v)) /\ (vltb v b = true <-> plength (vden v) < blength b).
Proof.
  intros H. apply IZR_le in H as H'. unfold blength, plength. pose proof (pdot_ge (vden v)).
  rewrite vgtb_spec, vltb_spec by auto. split; split; intros X; solve [apply sqrt_lt_1; lra | apply sqrt_lt_0_alt; lra].
Qed.
End props.

Lemma sqrt_square_Z x : sqrt (IZR (x * x)) = Rabs (IZR x).
Proof. rewrite mult_IZR. apply sqrt_Rsqr_abs. Qed.

(** Bounds are created from integers, pairs of integers or vectors; they denote nonnegative lengths. *)
Theorem C18_constructors x y :
  (0 <= bound1 x)%Z /\ blength (bound1 x) = Rabs (IZR x) /\
  (0 <= bound2 x y)%Z /\ blength (bound2 x y) = plength (IZR x, IZR y).
Proof.
  unfold blength, bound1, bound2, plength, pdot; cbn [fst snd]. split; [nia|]. split; [apply sqrt_square_Z|]. split; [nia|].
  now rewrite plus_IZR, !mult_IZR.
Qed.

Theorem C18_total_order (a b : bound) : (0 <= a)%Z -> (0 <= b)%Z ->
  (beqb a b = true <-> blength a = blength b) /\ (bltb a b = true <-> blength a < blength b).
Proof.
  intros A B. apply IZR_le in A as A'. apply IZR_le in B as B'. unfold beqb, bltb, blength. rewrite Z.eqb_eq, Z.ltb_lt. split; split; intros H.
  - congruence.
  - apply sqrt_inj in H; auto. now apply eq_IZR.
  - apply sqrt_lt_1; auto. now apply IZR_lt.
  - apply sqrt_lt_0_alt in H. now apply lt_IZR.
Qed.

Theorem C18_scaling (b : bound) c : (0 <= b)%Z -> (0 <= bmul b c)%Z /\ blength (bmul b c) = Rabs (IZR c) * blength b.
Proof.
  intros H. apply IZR_le in H as H'. unfold bmul, blength. split; [nia|]. rewrite mult_IZR, sqrt_mult, sqrt_square_Z; auto; [ring|].
  apply IZR_le. nia.
Qed.

Theorem C18_positive (b : bound) : (0 <= b)%Z -> (bnonzero b = true <-> 0 < blength b).
Proof.
  intros H. apply IZR_le in H as H'. unfold bnonzero, blength. rewrite negb_true_iff, Z.eqb_neq. split; intros X.
  - apply sqrt_lt_R0. apply IZR_lt. lia.
  - intros ->. rewrite sqrt_0 in X. lra.
Qed.

(** The truncating implementation for mpq_class computes floor and ceiling, too. *)
Theorem C18_mpq (v : vec ExactQ) : blowerQ v = blower v /\ bupperQ v = bupper v.
Proof.
  assert (Hs : Q2R (Qred (vdot v v)) = den (vdot v v)) by (apply Qeq_eqR, Qred_correct).
  assert (P : 0 <= den (vdot v v)) by (rewrite den_dot; apply pdot_ge).
  unfold blowerQ, bupperQ. set (s := Qred (vdot v v)) in *. 
  assert (N : (0 <= Qnum s)%Z).
  { rewrite <- Hs in P. rewrite <- RMicromega.Q2R_0 in P. apply Rle_Qle in P. clear - P. clearbody s. unfold Qle in P. cbn in P. lia. }
  pose proof (rfloor_spec ExactQ (vdot v v)) as F. pose proof (rceil_spec _ (vdot v v)) as G.
  change (rfloor (vdot v v)) with (blower v) in F. change (rceil (vdot v v)) with (bupper v) in G.
  rewrite <- Hs in F, G. clearbody s. clear Hs P.
  pose proof (Z.quot_rem' (Qnum s) (Zpos (Qden s))) as E. pose proof (Z.rem_bound_pos (Qnum s) (Zpos (Qden s)) N eq_refl) as B.
  set (q := Z.quot (Qnum s) (Zpos (Qden s))) in *. set (r := Z.rem (Qnum s) (Zpos (Qden s))) in *.
  assert (D : 0 < IZR (Zpos (Qden s))) by (apply IZR_lt; lia).
  assert (ES : Q2R s * IZR (Zpos (Qden s)) = IZR (Zpos (Qden s)) * IZR q + IZR r).
  { unfold Q2R. rewrite Rmult_assoc, Rinv_l, Rmult_1_r by lra. rewrite <- mult_IZR, <- plus_IZR. now rewrite <- E. }
  destruct B as [B1 B2]. apply IZR_le in B1 as B1'. apply IZR_lt in B2 as B2'.
  clearbody q r. set (x := Q2R s) in *. set (n := IZR (Zpos (Qden s))) in *. clearbody x.
  assert (U : IZR q <= x) by nra. assert (V : x < IZR q + 1) by nra. 
  destruct F as [F1 F2]. destruct G as [G1 G2].
  assert (FL : q = blower v).
  { apply Z.le_antisymm; apply Z.lt_succ_r, lt_IZR; rewrite succ_IZR; lra. }
  split; auto. destruct (Z.eqb_spec r 0) as [->|R]; cbn [negb].
  - assert (x = IZR q) by nra. apply Z.le_antisymm; apply Z.lt_succ_r, lt_IZR; rewrite succ_IZR; lra.
  - assert (0 < r)%Z by lia. apply IZR_lt in H. assert (IZR q < x) by nra.
    apply Z.le_antisymm; apply Z.lt_succ_r, lt_IZR; rewrite succ_IZR, plus_IZR || rewrite succ_IZR; rewrite ?plus_IZR; lra.
Qed.

(** ** Examples *)
Definition zv (x y : Z) : vec ExactZ := @mkVec ExactZ x y.
Definition qv (x y : Q) : vec ExactQ := @mkVec ExactQ x y.

Example C14_ex : ccw (zv 1000000007 1000000009) (zv 1000000009 1000000011) = CLOCKWISE /\
  orientation (zv 3 4) (zv (-4) 3) = ORTHOGONAL /\ ccw (qv (1#3) (1#7)) (qv 7 3) = COLLINEAR /\
  ccw (vscale (2#1 : ExactQ)%Q (qv (1#3) (1#7))) (qv 7 4) = COUNTERCLOCKWISE.
Proof. vm_compute. repeat split. Qed.
Example C16_ex : inSector (zv 1 0) (zv 1 0) (zv 0 1) = Ok true /\ inSector (zv 0 1) (zv 1 0) (zv 0 1) = Ok false /\
  inSector (zv (-1) (-1)) (zv 0 1) (zv 1 0) = Ok true /\ inSector (zv (-1) 0) (zv 1 0) (zv (-1) 0) = Ok false /\
  inSector (zv 0 3) (zv 1 0) (zv (-1) 0) = Ok true /\ inSector (zv 0 0) (zv 1 0) (zv (-1) 0) = Throw.
Proof. vm_compute. repeat split. Qed.
Example C16_partition_ex : vden (zv 5 (-1)) <> (0, 0) /\ ~ (exists r, 0 < r /\ vden (zv (-2) 0) = pscale r (vden (zv 1 0))) /\
  inSector (zv 5 (-1)) (zv 1 0) (zv (-2) 0) = Ok false /\ inSector (zv 5 (-1)) (zv (-2) 0) (zv 1 0) = Ok true.
Proof.
  split; [intros H; injection H; intros; lra|]. split; [|vm_compute; split; reflexivity].
  intros (r & P & H). injection H; intros. lra.
Qed.
Example C17_ex : compareSlope (zv 1 (-5)) (zv (-2) (-1)) = true /\ compareSlope (zv (-2) (-1)) (zv 0 (-1)) = true /\
  compareSlope (zv 1 2) (zv (-2) (-4)) = false /\ compareSlope (zv (-2) (-4)) (zv 1 2) = false /\ compareLength (zv 3 4) (zv 0 6) = true.
Proof. vm_compute. repeat split. Qed.
Example C18_ex : blower (qv (3#2) 0) = 2%Z /\ bupper (qv (3#2) 0) = 3%Z /\ blowerQ (qv (3#2) 0) = 2%Z /\ bupperQ (qv (3#2) 0) = 3%Z /\
  bupperQ (qv 2 0) = 4%Z /\ vgtb (zv 3 4) (bound1 5) = false /\ vltb (zv 3 4) (bound1 5) = false /\ vltb (zv 3 4) (bound2 5 1) = true /\
  bmul (bound1 5) (-2) = bound1 10.
Proof. vm_compute. repeat split. Qed.

Print Assumptions C14_ccw_exact.
Print Assumptions C14_orientation_exact.
Print Assumptions C14_antisymmetric.
Print Assumptions C14_scaling_invariant.
Print Assumptions C16_sector.
Print Assumptions C16_zero_rejected.
Print Assumptions C16_partition.
Print Assumptions C17_slope.
Print Assumptions C17_slope_strict_weak_order.
Print Assumptions C17_length.
Print Assumptions C18_enclosure.
Print Assumptions C18_comparison.
Print Assumptions C18_constructors.
Print Assumptions C18_total_order.
Print Assumptions C18_scaling.
Print Assumptions C18_positive.
Print Assumptions C18_mpq.
