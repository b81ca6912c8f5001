(** * Soundness of the interval filters *)
From Coq Require Import ZArith QArith Qreals Qabs Reals List Bool Lra Lia Psatz.
From Verif Require Import Base ExactReal Vector PlaneSpec Plane VectorFacts Arb.
Local Open Scope R_scope.

Definition pwithin (p : pt) (v : avec) : Prop := within (fst p) (ax v) /\ within (snd p) (ay v).

Lemma Qle_bool_R a b : Qle_bool a b = true <-> Q2R a <= Q2R b.
Proof. rewrite Qle_bool_iff. split; [apply Qle_Rle|apply Rle_Qle]. Qed.
Lemma Qle_bool_R' a b : Qle_bool a b = false <-> Q2R b < Q2R a.
Proof. rewrite <- not_true_iff_false, Qle_bool_R. split; lra. Qed.
Lemma Qltb_R a b : Qltb a b = true <-> Q2R a < Q2R b.
Proof. unfold Qltb. rewrite negb_true_iff. apply Qle_bool_R'. Qed.
Lemma Qltb_R' a b : Qltb a b = false <-> Q2R b <= Q2R a.
Proof. unfold Qltb. rewrite negb_false_iff. apply Qle_bool_R. Qed.
Lemma Qeq_bool_R a b : Qeq_bool a b = true <-> Q2R a = Q2R b.
Proof. rewrite Qeq_bool_iff. split; [apply Qeq_eqR|apply eqR_Qeq]. Qed.

Lemma Q2R_lo b : Q2R (lo b) = Q2R (mid b) - Q2R (rad b).
Proof. apply Q2R_minus. Qed.
Lemma Q2R_hi b : Q2R (hi b) = Q2R (mid b) + Q2R (rad b).
Proof. apply Q2R_plus. Qed.
Lemma Q2R_0 : Q2R 0 = 0.
Proof. unfold Q2R; cbn. lra. Qed.
Lemma Q2R_inject z : Q2R (inject_Z z) = IZR z.
Proof. unfold Q2R; cbn. lra. Qed.

Lemma within_Z z : within (IZR z) (arb_Z z).
Proof. unfold within. rewrite Q2R_lo, Q2R_hi. cbn [mid rad arb_Z]. rewrite Q2R_inject, Q2R_0. lra. Qed.

Lemma is_exact_within b x : is_exact b = true -> within x b -> x = Q2R (mid b).
Proof. unfold is_exact, within. rewrite Qeq_bool_R, Q2R_0, Q2R_lo, Q2R_hi. intros -> H. lra. Qed.

Lemma overlaps_false a b : overlaps a b = false <-> Q2R (hi b) < Q2R (lo a) \/ Q2R (hi a) < Q2R (lo b).
Proof. unfold overlaps. rewrite andb_false_iff, !Qle_bool_R'. tauto. Qed.

Lemma arb_lt_sound a b x y r : within x a -> within y b -> arb_lt a b = Some r -> (r = true <-> x < y).
Proof.
  unfold arb_lt, within. intros Hx Hy. destruct (Qltb (hi a) (lo b)) eqn:E.
  - apply Qltb_R in E. intros Q. injection Q as <-. split; auto. intros _. lra.
  - destruct (Qle_bool (hi b) (lo a)) eqn:F; [|discriminate]. apply Qle_bool_R in F. intros Q. injection Q as <-.
    split; [discriminate|]. lra.
Qed.

Lemma arb_eq_sound a b x y r : within x a -> within y b -> arb_eq a b = Some r -> (r = true <-> x = y).
Proof.
  unfold arb_eq. intros Hx Hy. destruct (is_exact a && is_exact b && Qeq_bool (mid a) (mid b)) eqn:E.
  - apply andb_true_iff in E as [E E3]. apply andb_true_iff in E as [E1 E2]. apply Qeq_bool_R in E3.
    intros Q. injection Q as <-. split; auto. intros _. rewrite (is_exact_within a x), (is_exact_within b y); auto.
  - destruct (overlaps a b) eqn:F; [discriminate|]. apply overlaps_false in F. intros Q. injection Q as <-.
    unfold within in *. split; [discriminate|]. intros ->. destruct F; lra.
Qed.

Lemma arb_ne_sound a b x y r : within x a -> within y b -> arb_ne a b = Some r -> (r = true <-> x <> y).
Proof.
  unfold arb_ne. intros Hx Hy. destruct (arb_eq a b) as [s|] eqn:E; [|discriminate]. cbn. intros Q. injection Q as <-.
  apply (arb_eq_sound a b x y) in E; auto. rewrite negb_true_iff, <- E. destruct s; split; congruence.
Qed.

Section filters.
Variable A : ArbOps.

Definition ccw_true (c : CCW) (p q : pt) : Prop :=
  match c with
  | COUNTERCLOCKWISE => 0 < pdet p q
  | COLLINEAR => pdet p q = 0
  | CLOCKWISE => pdet p q < 0
  end.

Lemma accw_sound v w p q c : pwithin p v -> pwithin q w -> accw A v w = Some c -> ccw_true c p q.
Proof.
  intros [P1 P2] [Q1 Q2]. unfold accw.
  pose proof (amul_sound A _ _ _ _ P1 Q2) as Ha. pose proof (amul_sound A _ _ _ _ Q1 P2) as Hb.
  set (a := amul A (ax v) (ay w)) in *. set (b := amul A (ax w) (ay v)) in *.
  destruct (overlaps a b) eqn:O.
  - destruct (is_exact a && is_exact b) eqn:E; [|discriminate]. destruct (ball_equal a b) eqn:B; [|discriminate].
    intros X. injection X as <-. cbn. apply andb_true_iff in E as [E1 E2]. unfold ball_equal in B. apply andb_true_iff in B as [B _].
    apply Qeq_bool_R in B. apply (is_exact_within a) in Ha; auto. apply (is_exact_within b) in Hb; auto. unfold pdet. lra.
  - apply overlaps_false in O. unfold within in Ha, Hb. rewrite !Q2R_lo, !Q2R_hi in Ha. rewrite !Q2R_lo, !Q2R_hi in Hb. rewrite !Q2R_lo, !Q2R_hi in O. clearbody a b.
    destruct (Qltb (mid a) (mid b)) eqn:M; intros X; injection X as <-; cbn; unfold pdet.
    + apply Qltb_R in M. destruct O; lra.
    + apply Qltb_R' in M. destruct O; lra.
Qed.

Lemma adot_sound v w p q : pwithin p v -> pwithin q w -> within (pdot p q) (adot A v w).
Proof. intros [P1 P2] [Q1 Q2]. unfold adot, pdot. apply aadd_sound; apply amul_sound; auto. Qed.

Lemma aorientation_sound v w p q o : pwithin p v -> pwithin q w -> aorientation A v w = Some o ->
  match o with SAME => 0 < pdot p q | ORTHOGONAL => pdot p q = 0 | OPPOSITE => pdot p q <= 0 end.
Proof.
  intros P Q. pose proof (adot_sound v w p q P Q) as D. unfold aorientation. pose proof (within_Z 0) as Z.
  destruct (arb_gt (adot A v w) (arb_Z 0)) as [g|] eqn:G; [|discriminate].
  apply (arb_lt_sound _ _ 0 (pdot p q)) in G; auto. destruct g.
  - intros X. injection X as <-. now apply G.
  - destruct (arb_eq (adot A v w) (arb_Z 0)) as [[|]|] eqn:E; intros X; injection X as <-.
    + apply (arb_eq_sound _ _ (pdot p q) 0) in E; auto. now apply E.
    + apply Rnot_lt_le. intros L. apply G in L. discriminate.
    + apply Rnot_lt_le. intros L. apply G in L. discriminate.
Qed.

Lemma anonzero_sound v p r : pwithin p v -> anonzero v = Some r -> (r = true <-> p <> (0, 0)).
Proof.
  intros [P1 P2]. unfold anonzero. pose proof (within_Z 0) as Z.
  assert (X : forall b, arb_ne (ax v) (arb_Z 0) = Some b -> (b = true <-> fst p <> 0)) by (intros; eapply arb_ne_sound; eauto).
  assert (Y : forall b, arb_ne (ay v) (arb_Z 0) = Some b -> (b = true <-> snd p <> 0)) by (intros; eapply arb_ne_sound; eauto).
  assert (N : p <> (0, 0) <-> fst p <> 0 \/ snd p <> 0).
  { destruct p as [x y]; cbn [fst snd]. split.
    - intros H. destruct (Req_dec x 0) as [->|]; auto. right. congruence.
    - intros [H|H] E; injection E; auto. }
  rewrite N. destruct (arb_ne (ax v) (arb_Z 0)) as [[|]|], (arb_ne (ay v) (arb_Z 0)) as [[|]|];
    try specialize (X _ eq_refl); try specialize (Y _ eq_refl); intros Q; try discriminate; injection Q as <-; cbn; tauto.
Qed.

Lemma agt_sound v p b r : (0 <= b)%Z -> pwithin p v -> agt A v b = Some r -> (r = true <-> IZR b < pdot p p).
Proof.
  intros Hb P. unfold agt, bnonzero. rewrite negb_involutive. pose proof (adot_sound v v p p P P) as D.
  assert (G : forall s, arb_gt (adot A v v) (arb_Z b) = Some s -> (s = true <-> IZR b < pdot p p)).
  { intros s. apply arb_lt_sound; auto. apply within_Z. }
  destruct (Z.eqb_spec b 0) as [->|N]; [|apply G].
  destruct (anonzero v) as [s|] eqn:E; [|apply G]. intros Q. injection Q as <-.
  rewrite (anonzero_sound v p s P E). split.
  - apply pdot_pos.
  - intros H X. rewrite X in H. unfold pdot in H; cbn in H. lra.
Qed.

Lemma alt_sound v p b r : (0 <= b)%Z -> pwithin p v -> alt A v b = Some r -> (r = true <-> pdot p p < IZR b).
Proof.
  intros Hb P. unfold alt, bnonzero. rewrite negb_involutive. pose proof (adot_sound v v p p P P) as D.
  destruct (Z.eqb_spec b 0) as [->|N].
  - intros Q. injection Q as <-. split; [discriminate|]. unfold pdot. nra.
  - apply arb_lt_sound; auto. apply within_Z.
Qed.

Context {K : ExactReal}.
Variable arb : K -> ball.
Hypothesis arb_sound : forall x, within (den x) (arb x).

Lemma approx_within v : pwithin (vden v) (approx arb v).
Proof. split; apply arb_sound. Qed.

Lemma ccw_filtered_exact v w : ccw_filtered A arb v w = ccw v w.
Proof.
  unfold ccw_filtered. destruct (accw A (approx arb v) (approx arb w)) as [c|] eqn:E; auto.
  apply (accw_sound _ _ (vden v) (vden w)) in E; try apply approx_within.
  pose proof (ccw_spec v w) as (H1 & H2 & H3). symmetry. destruct c; cbn in E; [now apply H1|now apply H2|now apply H3].
Qed.

Lemma bool_ext (a b : bool) : (a = true <-> b = true) -> a = b.
Proof. destruct a, b; intuition. Qed.

Lemma vgtb_filtered_exact v b : (0 <= b)%Z -> vgtb_filtered A arb v b = vgtb v b.
Proof.
  intros Hb. unfold vgtb_filtered. destruct (negb (bnonzero b)) eqn:Z; [unfold vgtb; now rewrite Z|].
  destruct (agt A (approx arb v) b) as [c|] eqn:E; auto.
  apply (agt_sound _ (vden v)) in E; auto using approx_within. apply bool_ext. now rewrite vgtb_spec.
Qed.

Lemma vltb_filtered_exact v b : (0 <= b)%Z -> vltb_filtered A arb v b = vltb v b.
Proof.
  intros Hb. unfold vltb_filtered. destruct (negb (bnonzero b)) eqn:Z; [unfold vltb; now rewrite Z|].
  destruct (alt A (approx arb v) b) as [c|] eqn:E; auto.
  apply (alt_sound _ (vden v)) in E; auto using approx_within. apply bool_ext. now rewrite vltb_spec.
Qed.

Lemma compareLength_filtered_exact v w : compareLength_filtered A arb v w = compareLength v w.
Proof.
  unfold compareLength_filtered. destruct (arb_lt _ _) as [c|] eqn:E; auto.
  pose proof (adot_sound _ _ _ _ (approx_within v) (approx_within v)) as Dv.
  pose proof (adot_sound _ _ _ _ (approx_within w) (approx_within w)) as Dw.
  apply (arb_lt_sound _ _ _ _ _ Dv Dw) in E. apply bool_ext. rewrite E. unfold compareLength. now rewrite rltb_spec, !den_dot.
Qed.
End filters.

(** ** Exact ball arithmetic over the rationals, an instance of [ArbOps] *)
Definition qmul (a b : ball) : ball :=
  mkBall (mid a * mid b) (Qabs (mid a) * rad b + Qabs (mid b) * rad a + rad a * rad b).
Definition qadd (a b : ball) : ball := mkBall (mid a + mid b) (rad a + rad b).

Lemma Q2R_abs q : Q2R (Qabs q) = Rabs (Q2R q).
Proof.
  apply Qabs_case; intros H; apply Qle_Rle in H; rewrite Q2R_0 in H.
  - rewrite Rabs_right; lra.
  - rewrite Rabs_left1 by lra. apply Q2R_opp.
Qed.

Lemma within_abs x b : within x b <-> Rabs (x - Q2R (mid b)) <= Q2R (rad b).
Proof.
  unfold within. rewrite Q2R_lo, Q2R_hi. split.
  - intros H. apply Rabs_le. lra.
  - unfold Rabs. destruct (Rcase_abs (x - Q2R (mid b))); lra.
Qed.

Lemma qmul_sound a b x y : within x a -> within y b -> within (x * y) (qmul a b).
Proof.
  rewrite !within_abs. unfold qmul; cbn [mid rad]. rewrite !Q2R_plus, !Q2R_mult, !Q2R_abs.
  set (m := Q2R (mid a)). set (n := Q2R (mid b)). set (r := Q2R (rad a)). set (s := Q2R (rad b)). intros Hx Hy.
  replace (x * y - m * n) with (m * (y - n) + n * (x - m) + (x - m) * (y - n)) by ring.
  eapply Rle_trans; [apply Rabs_triang|]. eapply Rle_trans; [apply Rplus_le_compat_r, Rabs_triang|].
  rewrite !Rabs_mult. pose proof (Rabs_pos m). pose proof (Rabs_pos n). pose proof (Rabs_pos (x - m)). pose proof (Rabs_pos (y - n)).
  apply Rplus_le_compat; [apply Rplus_le_compat; apply Rmult_le_compat_l; auto|]. apply Rmult_le_compat; auto.
Qed.

Lemma qadd_sound a b x y : within x a -> within y b -> within (x + y) (qadd a b).
Proof.
  unfold within. rewrite !Q2R_lo, !Q2R_hi. unfold qadd; cbn [mid rad]. rewrite !Q2R_plus. lra.
Qed.

Definition QArb : ArbOps := mkArbOps qmul qadd qmul_sound qadd_sound.
