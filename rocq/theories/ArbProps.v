(** * C15: interval filtered predicates *)
From Coq Require Import ZArith QArith Qreals Reals List Bool Lra Lia Psatz.
From Verif Require Import Base ExactReal Vector PlaneSpec Plane VectorFacts VectorProps Arb ArbFacts.
Local Open Scope R_scope.

(** A definite answer of [ccw] is right for all points [p], [q] in the balls. *)
Theorem C15_ccw : forall (A : ArbOps) v w p q c,
  within (fst p) (ax v) -> within (snd p) (ay v) -> within (fst q) (ax w) -> within (snd q) (ay w) ->
  accw A v w = Some c ->
  match c with
  | COUNTERCLOCKWISE => 0 < pdet p q
  | COLLINEAR => pdet p q = 0
  | CLOCKWISE => pdet p q < 0
  end.
Proof. intros A v w p q c P1 P2 Q1 Q2 E. exact (accw_sound A v w p q c (conj P1 P2) (conj Q1 Q2) E). Qed.
Print Assumptions C15_ccw.

(** So the filter does not change [ccw] on exact vectors. *)
Theorem C15_ccw_filtered : forall (A : ArbOps) (K : ExactReal) (arb : K -> ball), (forall x, within (den x) (arb x)) ->
  forall v w, ccw_filtered A arb v w = ccw v w.
Proof. intros A K arb S v w. now apply ccw_filtered_exact. Qed.
Print Assumptions C15_ccw_filtered.

(** The comparisons of the length with a bound. *)
Theorem C15_length : forall (A : ArbOps) v p (b : bound) r, (0 <= b)%Z -> within (fst p) (ax v) -> within (snd p) (ay v) ->
  (agt A v b = Some r -> (r = true <-> blength b < plength p)) /\
  (age A v b = Some r -> (r = true <-> blength b <= plength p)) /\
  (alt A v b = Some r -> (r = true <-> plength p < blength b)) /\
  (ale A v b = Some r -> (r = true <-> plength p <= blength b)).
Proof.
  intros A v p b r Hb P1 P2. apply IZR_le in Hb as Hb'.
  assert (L : (IZR b < pdot p p <-> blength b < plength p) /\ (pdot p p < IZR b <-> plength p < blength b)).
  { unfold blength, plength. pose proof (pdot_ge p). split; split; intros X; solve [apply sqrt_lt_1; lra | apply sqrt_lt_0_alt; lra]. }
  destruct L as [L1 L2]. 
  assert (G : forall s, agt A v b = Some s -> (s = true <-> blength b < plength p)).
  { intros s E. apply (agt_sound A v p b s Hb (conj P1 P2)) in E. now rewrite E. }
  assert (T : forall s, alt A v b = Some s -> (s = true <-> plength p < blength b)).
  { intros s E. apply (alt_sound A v p b s Hb (conj P1 P2)) in E. now rewrite E. }
  unfold age, ale. split; [apply G|]. split.
  - destruct (alt A v b) as [s|]; [|discriminate]. intros E. injection E as <-. specialize (T s eq_refl).
    rewrite negb_true_iff. split; intros H.
    + apply Rnot_lt_le. intros X. apply T in X. congruence.
    + apply not_true_iff_false. intros X. apply T in X. lra.
  - split; [apply T|]. destruct (agt A v b) as [s|]; [|discriminate]. intros E. injection E as <-. specialize (G s eq_refl).
    rewrite negb_true_iff. split; intros H.
    + apply Rnot_lt_le. intros X. apply G in X. congruence.
    + apply not_true_iff_false. intros X. apply G in X. lra.
Qed.
Print Assumptions C15_length.

(** Conversion to bool. *)
Theorem C15_nonzero : forall v p r, within (fst p) (ax v) -> within (snd p) (ay v) ->
  anonzero v = Some r -> (r = true <-> p <> (0, 0)).
Proof. intros v p r P1 P2. exact (anonzero_sound v p r (conj P1 P2)). Qed.
Print Assumptions C15_nonzero.

(** So the filters do not change length comparisons of exact vectors. *)
Theorem C15_length_filtered : forall (A : ArbOps) (K : ExactReal) (arb : K -> ball), (forall x, within (den x) (arb x)) ->
  forall (v w : vec K) (b : bound), (0 <= b)%Z ->
  vgtb_filtered A arb v b = vgtb v b /\ vltb_filtered A arb v b = vltb v b /\
  compareLength_filtered A arb v w = compareLength v w.
Proof.
  intros A K arb S v w b Hb. split; [now apply vgtb_filtered_exact|]. split; [now apply vltb_filtered_exact|].
  now apply compareLength_filtered_exact.
Qed.
Print Assumptions C15_length_filtered.

(** Full claim for [orientation]: OPPOSITE is only answered when the dot product is negative.
    That is false; what is true is that the dot product is not positive. *)
Theorem C15_orientation_partial : forall (A : ArbOps) v w p q o,
  within (fst p) (ax v) -> within (snd p) (ay v) -> within (fst q) (ax w) -> within (snd q) (ay w) ->
  aorientation A v w = Some o ->
  match o with
  | SAME => 0 < pdot p q
  | ORTHOGONAL => pdot p q = 0
  | OPPOSITE => pdot p q <= 0
  end.
Proof. intros A v w p q o P1 P2 Q1 Q2 E. exact (aorientation_sound A v w p q o (conj P1 P2) (conj Q1 Q2) E). Qed.
Print Assumptions C15_orientation_partial.

(** The enclosure of the dot product is the ball [-2, 0]; the answer is OPPOSITE, but 0 is in that ball. *)
Theorem C15_orientation_refuted : exists (A : ArbOps) v w p q,
  within (fst p) (ax v) /\ within (snd p) (ay v) /\ within (fst q) (ax w) /\ within (snd q) (ay w) /\
  aorientation A v w = Some OPPOSITE /\ pdot p q = 0.
Proof.
  exists QArb, (mkAVec (mkBall (-1) 1) (mkBall 0 0)), (mkAVec (mkBall 1 0) (mkBall 1 0)), (0, 0), (1, 1).
  unfold within. rewrite !Q2R_lo, !Q2R_hi; cbn [fst snd ax ay mid rad]. unfold Q2R; cbn.
  repeat (split; [lra|]). split; [reflexivity|]. unfold pdot; cbn. lra.
Qed.
Print Assumptions C15_orientation_refuted.

(** Consequently there are (sound) enclosures for which the exact [orientation] gives the wrong answer. *)
Theorem C15_orientation_filtered_refuted : exists (A : ArbOps) (arb : ExactQ -> ball) (v w : vec ExactQ),
  (forall x, within (den x) (arb x)) /\ orientation v w = ORTHOGONAL /\ orientation_filtered A arb v w = OPPOSITE.
Proof.
  exists QArb, (fun x : Q => if Qeq_bool x 0 then mkBall (-1) 1 else mkBall x 0), (qv 0 0), (qv 1 1).
  split; [|split; vm_compute; reflexivity].
  intros x. unfold within. destruct (Qeq_bool x 0) eqn:E; rewrite Q2R_lo, Q2R_hi; cbn [mid rad].
  - apply Qeq_bool_R in E. cbn [den ExactQ]. rewrite E. unfold Q2R; cbn. lra.
  - cbn [den ExactQ]. rewrite Q2R_0. lra.
Qed.
Print Assumptions C15_orientation_filtered_refuted.

(** [==] compares x of the left vector with y of the right one: (1, 2) == (1, 1) is answered with
    true for exact balls, and (1, 2) == (1, 2) with false. *)
Theorem C15_equality_refuted :
  (exists v w p q, within (fst p) (ax v) /\ within (snd p) (ay v) /\ within (fst q) (ax w) /\ within (snd q) (ay w) /\
    aeq v w = Some true /\ p <> q) /\
  (exists v p, within (fst p) (ax v) /\ within (snd p) (ay v) /\ aeq v v = Some false /\ ane v v = Some true).
Proof.
  assert (W : forall z, within (IZR z) (mkBall (inject_Z z) 0)) by apply within_Z.
  split.
  - exists (mkAVec (arb_Z 1) (arb_Z 2)), (mkAVec (arb_Z 1) (arb_Z 1)), (1, 2), (1, 1).
    repeat (split; [apply W|]). split; [reflexivity|]. intros H. injection H. lra.
  - exists (mkAVec (arb_Z 1) (arb_Z 2)), (1, 2). split; [apply W|]. split; [apply W|]. split; reflexivity.
Qed.
Print Assumptions C15_equality_refuted.

(** What remains of [==]: a negative answer that is due to x is right; there is no claim on y. *)
Theorem C15_equality_partial : forall v w p q,
  within (fst p) (ax v) -> within (snd p) (ay v) -> within (fst q) (ax w) -> within (snd q) (ay w) ->
  (aeq v w = Some true -> fst p = fst q) /\ (arb_eq (ax v) (ax w) = Some false -> aeq v w = Some false /\ p <> q).
Proof.
  intros v w p q P1 P2 Q1 Q2. pose proof (arb_eq_sound _ _ _ _ true P1 Q1) as T. pose proof (arb_eq_sound _ _ _ _ false P1 Q1) as F.
  unfold aeq. destruct (arb_eq (ax v) (ax w)) as [[|]|].
  - split; [|discriminate]. intros _. now apply (T eq_refl).
  - split; [discriminate|]. intros _. split; auto. intros ->. specialize (F eq_refl). destruct F as [_ F]. specialize (F eq_refl). discriminate.
  - split; discriminate.
Qed.
Print Assumptions C15_equality_partial.

(** ** Examples: filters that decide, and one that does not *)
Definition third : ball := mkBall (1#3) (1#1000).
Example C15_ex :
  accw QArb (mkAVec third (arb_Z 1)) (mkAVec (arb_Z 1) (arb_Z 2)) = Some CLOCKWISE /\
  accw QArb (mkAVec third (arb_Z 1)) (mkAVec (arb_Z 1) (arb_Z 3)) = None /\
  aorientation QArb (mkAVec third (arb_Z 1)) (mkAVec (arb_Z 1) (arb_Z 3)) = Some SAME /\
  agt QArb (mkAVec third (arb_Z 1)) 1%Z = Some true /\ agt QArb (mkAVec third (arb_Z 1)) 2%Z = Some false /\
  alt QArb (mkAVec third (arb_Z 1)) 2%Z = Some true /\ anonzero (mkAVec third (arb_Z 1)) = Some true.
Proof. vm_compute. repeat split. Qed.
Example C15_within_ex : within (1/3) third /\ within 0.3335 third /\ ~ within 0.4 third.
Proof. unfold within. rewrite Q2R_lo, Q2R_hi. unfold Q2R; cbn. lra. Qed.
Example C15_filtered_ex : let arb := (fun x : Q => mkBall x (1#10)) : ExactQ -> ball in
  (forall x : ExactQ, within (den x) (arb x)) /\
  ccw_filtered QArb arb (qv 1 (1#100)) (qv 1 0) = CLOCKWISE /\ accw QArb (@approx ExactQ arb (qv 1 (1#100))) (@approx ExactQ arb (qv 1 0)) = None /\
  compareLength_filtered QArb arb (qv 1 0) (qv 2 0) = true.
Proof.
  cbv zeta. split; [|vm_compute; repeat split]. intros x. unfold within. rewrite Q2R_lo, Q2R_hi. cbn [mid rad den ExactQ].
  assert (0 < Q2R (1 # 10)) by (unfold Q2R; cbn; lra). lra.
Qed.
