(** * Properties of quadratic polynomials *)
From Coq Require Import ZArith QArith Qreals Reals List Bool Lia Lra Psatz.
From Verif Require Import Base ExactReal Arb Quadratic QuadraticSpec QuadraticFacts.
Local Open Scope R_scope.

(** ** C33: positive polynomials *)
Theorem C33_positive : forall (K : ExactReal) (p : quad K), qpositive p = true <-> forall t, 0 <= t <= 1 -> 0 < at_ p t.
Proof. intros K p. apply qpositive_spec. Qed.
Print Assumptions C33_positive.

Theorem C33_value : forall (K : ExactReal) (p : quad K) (t : K), den (qeval p t) = at_ p (den t).
Proof. intros K p t. apply den_qeval. Qed.
Print Assumptions C33_value.

Definition zq (a b c : Z) : quad ExactZ := @mkQuad ExactZ a b c.
Example C33_ex : qpositive (zq 4 (-4) 2) = true /\ qpositive (zq 4 (-4) 1) = false /\ qpositive (zq (-1) 0 2) = true /\ qpositive (zq 1 (-3) 2) = false /\
  qpositive (zq 0 (-1) 2) = true /\ qpositive (zq 0 (-1) 1) = false /\ qpositive (zq 1 (-4) 4) = true /\ qpositive (zq 1 1 0) = false /\
  qeval (zq 4 (-4) 2) (3%Z : ExactZ) = 26%Z.
Proof. repeat (split; [reflexivity|]). reflexivity. Qed.

(** ** C54: approximating and comparing critical times *)
(** [root] finds a root in [[0, 1]] if there is one. *)
Theorem C54_root : forall (K : ExactReal) (o : solver K) fuel p prec r, sound o -> root o fuel p prec = Ok r ->
  match r with
  | Some b => exists t, 0 <= t <= 1 /\ at_ p t = 0 /\ enclosed t b
  | None => forall t, 0 <= t <= 1 -> at_ p t <> 0
  end.
Proof. intros K o fuel p prec r S E. exact (root_answer o S fuel p prec r E). Qed.
Print Assumptions C54_root.

Theorem C54_root_terminates : forall (K : ExactReal) (o : solver K) p prec, sound o -> convergent o -> (0 < prec)%Z -> exists fuel r, root o fuel p prec = Ok r.
Proof. intros K o p prec S C H. now apply root_terminates. Qed.
Print Assumptions C54_root_terminates.

(** At high precision, it is the first one. *)
Theorem C54_root_first : forall (K : ExactReal) (o : solver K) p eps, sound o -> convergent o -> 0 < eps -> exists P, forall prec fuel, (P <= prec)%Z ->
  exists r, root o (S fuel) p prec = Ok r /\
    match r with
    | Some b => exists t, critical p t /\ enclosed t b /\ near eps t b
    | None => forall t, 0 <= t <= 1 -> at_ p t <> 0
    end.
Proof. intros K o p eps S C E. destruct (root_eventually o S C p eps E) as (P & H). exists P. intros prec fuel L. now apply H. Qed.
Print Assumptions C54_root_first.

(** The comparison is correct when the polynomials have a single root in [[0, 1]], except if they have another root in common. *)
Definition single_root {K : ExactReal} (p : quad K) (t : R) : Prop := critical p t /\ forall u, 0 <= u <= 1 -> at_ p u = 0 -> u = t.
Lemma single_only {K : ExactReal} (p : quad K) t : single_root p t -> only_zero p t.
Proof. intros ((T & Z & _) & U). split; auto. Qed.

(** The other root. *)
Definition other {K : ExactReal} (p : quad K) (t : R) : R := - den (qb p) / den (qa p) - t.
Lemma vieta {K : ExactReal} (p : quad K) t : den (qa p) <> 0 -> at_ p t = 0 ->
  den (qb p) = - den (qa p) * (t + other p t) /\ den (qc p) = den (qa p) * (t * other p t) /\ at_ p (other p t) = 0.
Proof.
  intros A Z. unfold at_ in *.
  assert (B : den (qb p) = - den (qa p) * (t + other p t)) by (unfold other; field; auto).
  assert (C : den (qc p) = den (qa p) * (t * other p t)). { replace (den (qc p)) with (- (den (qa p) * (t * t) + den (qb p) * t)) by lra. rewrite B. ring. }
  split; auto. split; auto. rewrite B, C. ring.
Qed.
Lemma resultant_linear {K : ExactReal} (p q : quad K) t : den (resultant p q) = 0 -> den (qa p) = 0 -> den (qa q) <> 0 -> den (qb p) <> 0 -> at_ p t = 0 -> at_ q t = 0.
Proof.
  intros R A A' B Z. rewrite den_resultant in R. cbv zeta in R. unfold at_ in *. rewrite A in *.
  replace (den (qc p)) with (- (den (qb p) * t)) in R by lra.
  assert (E : den (qa q) * (den (qb p) * den (qb p)) * (den (qa q) * (t * t) + den (qb q) * t + den (qc q)) = 0) by (rewrite <- R; ring).
  apply Rmult_integral in E as [E|E]; auto. exfalso. apply Rmult_integral in E as [E|E]; [auto|]. apply Rmult_integral in E as [E|E]; auto.
Qed.
Lemma resultant_sym {K : ExactReal} (p q : quad K) : den (resultant q p) = den (resultant p q).
Proof. rewrite !den_resultant. cbv zeta. ring. Qed.
Lemma single_linear {K : ExactReal} (p : quad K) t : den (qa p) = 0 -> single_root p t -> den (qb p) <> 0.
Proof.
  intros A P B. destruct (not_all_zero p t (single_only p t P)) as [N|[N|N]]; auto. destruct P as ((_ & Z & _) & _). unfold at_ in Z. rewrite A, B in Z. lra.
Qed.

Lemma common_root {K : ExactReal} (p q : quad K) t s : den (resultant p q) = 0 -> ~ (den (qa p) = 0 /\ den (qa q) = 0) -> single_root p t -> single_root q s ->
  t = s \/ exists u, ~ 0 <= u <= 1 /\ at_ p u = 0 /\ at_ q u = 0.
Proof.
  intros R N P Q. pose proof P as ((T & Zp & _) & Up). pose proof Q as ((S & Zq & _) & Uq).
  destruct (Req_dec (den (qa p)) 0) as [A|A].
  { left. apply Uq; auto. apply (resultant_linear p q); auto. now apply (single_linear p t). }
  destruct (Req_dec (den (qa q)) 0) as [A'|A'].
  { left. symmetry. apply Up; auto. rewrite <- resultant_sym in R. apply (resultant_linear q p); auto. now apply (single_linear q s). }
  destruct (vieta p t A Zp) as (B & C & Zu). destruct (vieta q s A' Zq) as (B' & C' & Zv). set (u := other p t) in *. set (v := other q s) in *. clearbody u v.
  assert (F : den (qa p) * den (qa p) * (den (qa q) * den (qa q)) * ((t - s) * (t - v) * ((u - s) * (u - v))) = 0).
  { rewrite <- R, den_resultant. cbv zeta. rewrite B, C, B', C'. ring. }
  apply Rmult_integral in F as [F|F]. { exfalso. apply Rmult_integral in F as [F|F]; apply Rmult_integral in F as [F|F]; auto. }
  apply Rmult_integral in F as [F|F]; apply Rmult_integral in F as [F|F].
  - left. lra.
  - left. assert (v = t) by lra. subst v. apply Uq; auto.
  - left. assert (u = s) by lra. subst u. symmetry. apply Up; auto.
  - assert (u = v) by lra. subst v. destruct (Rle_dec 0 u), (Rle_dec u 1); try (right; exists u; split; [lra|auto]).
    left. rewrite <- (Up u), <- (Uq u); auto; lra.
Qed.

Theorem C54_less_partial : forall (K : ExactReal) (o : solver K) fuel p q t s r, sound o -> single_root p t -> single_root q s -> qless o fuel p q = Ok r ->
  (r = true -> t < s) /\ (r = false -> s <= t \/ exists u, ~ 0 <= u <= 1 /\ at_ p u = 0 /\ at_ q u = 0).
Proof.
  intros K o fuel p q t s r So P Q. unfold qless. destruct (multiples p q) eqn:M.
  - intros [= <-]. split; [discriminate|]. intros _. left. right. symmetry. eapply multiples_zero; eauto using single_only.
  - intros E. destruct (less_only o So fuel p q _ t s r (single_only p t P) (single_only q s Q) E) as [A B]. split; auto. intros F. destruct (B F) as [L|[R N]]; auto.
    destruct (Req_dec s t) as [Eq|Ne]; [left; lra|]. destruct (common_root p q t s R N P Q) as [Eq|X]; [lra|]. now right.
Qed.
Print Assumptions C54_less_partial.

Theorem C54_less_linear : forall (K : ExactReal) (o : solver K) fuel p q t s r, sound o -> den (qa p) = 0 -> den (qa q) = 0 -> den (qb p) <> 0 -> den (qb q) <> 0 ->
  critical p t -> critical q s -> qless o fuel p q = Ok r -> (r = true <-> t < s).
Proof.
  intros K o fuel p q t s r So A A' B B' P Q E.
  assert (Sp : single_root p t). { split; auto. intros u _ Zu. destruct P as (_ & Z & _). apply (linear_zero p _ A B) in Z, Zu. congruence. }
  assert (Sq : single_root q s). { split; auto. intros u _ Zu. destruct Q as (_ & Z & _). apply (linear_zero q _ A' B') in Z, Zu. congruence. }
  destruct (C54_less_partial K o fuel p q t s r So Sp Sq E) as [H1 H2]. split; auto. intros L. destruct r; auto. exfalso. destruct (H2 eq_refl) as [H|(u & _ & Zu & Zu')]; [lra|].
  destruct P as (_ & Z & _), Q as (_ & Z' & _). apply (linear_zero p _ A B) in Z, Zu. apply (linear_zero q _ A' B') in Z', Zu'. lra.
Qed.
Print Assumptions C54_less_linear.

Theorem C54_less_terminates : forall (K : ExactReal) (o : solver K) p q t s, sound o -> convergent o -> critical p t -> critical q s ->
  exists fuel r, qless o fuel p q = Ok r.
Proof.
  intros K o p q t s So Co P Q. unfold qless. destruct (multiples p q); [exists O; eauto|]. apply (less_terminates o So Co p q t s); auto. reflexivity.
Qed.
Print Assumptions C54_less_terminates.

(** *** Balls with dyadic centres *)
Definition dyadic_den (prec : Z) : positive := Z.to_pos (2 ^ prec).
Definition dyadic (prec : Z) (x : R) : option ball := Some (mkBall (Qmake (up (x * IZR (Zpos (dyadic_den prec)))) (dyadic_den prec)) (Qmake 2 (dyadic_den prec))).
Definition dyadic_solver (K : ExactReal) : solver K :=
  mkSolver (fun p prec => dyadic prec (linear_root p)) (fun p prec => dyadic prec (double_root p)) (fun p prec => dyadic prec (plus_root p)) (fun p prec => dyadic prec (minus_root p)).

Lemma dyadic_bounds prec x : let D := IZR (Zpos (dyadic_den prec)) in
  match dyadic prec x with Some b => Q2R (lo b) = (IZR (up (x * D)) - 2) / D /\ Q2R (hi b) = (IZR (up (x * D)) + 2) / D | None => False end.
Proof.
  intros D. assert (P : 0 < D) by (apply (IZR_lt 0); lia). cbn [dyadic]. unfold lo, hi; cbn [mid rad]. rewrite Q2R_minus, Q2R_plus. unfold Q2R; cbn [Qnum Qden]. fold D. split; field; lra.
Qed.
Lemma dyadic_enclosed prec x : enclosed x (dyadic prec x).
Proof.
  assert (H := dyadic_bounds prec x). cbv zeta in H. set (D := IZR (Zpos (dyadic_den prec))) in *. assert (P : 0 < D) by (apply (IZR_lt 0); lia).
  destruct (dyadic prec x) as [b|]; [|contradiction]. unfold enclosed, within. destruct H as [-> ->]. destruct (archimed (x * D)) as [U1 U2].
  assert (I := Rinv_0_lt_compat _ P). assert (x = x * D * / D) as X by (field; lra). rewrite X at 2 3. unfold Rdiv. split; apply Rmult_le_compat_r; lra.
Qed.
Lemma dyadic_near prec x eps : 4 < eps * IZR (Zpos (dyadic_den prec)) -> near eps x (dyadic prec x).
Proof.
  intros L. assert (H := dyadic_bounds prec x). cbv zeta in H. set (D := IZR (Zpos (dyadic_den prec))) in *. assert (P : 0 < D) by (apply (IZR_lt 0); lia).
  destruct (dyadic prec x) as [b|]; [|contradiction]. destruct H as [E1 E2]. intros y [Y1 Y2]. rewrite E1 in Y1. rewrite E2 in Y2. destruct (archimed (x * D)) as [U1 U2].
  apply (Rmult_le_compat_r D) in Y1, Y2; [|lra|lra]. unfold Rdiv in Y1, Y2. rewrite Rmult_assoc, Rinv_l, Rmult_1_r in Y1, Y2 by lra.
  apply Rabs_def1; apply (Rmult_lt_reg_r D); auto; lra.
Qed.
Lemma dyadic_sound (K : ExactReal) : sound (dyadic_solver K).
Proof. intros p prec. repeat split; intros; apply dyadic_enclosed. Qed.
Lemma dyadic_convergent (K : ExactReal) : convergent (dyadic_solver K).
Proof.
  intros p eps E. destruct (archimed (4 / eps)) as [U _]. exists (Z.max 1 (up (4 / eps))). intros prec L.
  assert (N : 4 < eps * IZR (Zpos (dyadic_den prec))).
  { unfold dyadic_den. rewrite Z2Pos.id by (apply Z.pow_pos_nonneg; lia).
    assert (B : (prec < 2 ^ prec)%Z) by (apply Z.pow_gt_lin_r; lia). apply IZR_lt in B. assert (B' : (up (4 / eps) <= prec)%Z) by lia. apply IZR_le in B'.
    assert (4 / eps < IZR (2 ^ prec)) by lra. apply (Rmult_lt_compat_l eps) in H; auto. unfold Rdiv in H. rewrite <- Rmult_assoc, (Rmult_comm eps 4), Rmult_assoc, Rinv_r in H by lra. lra. }
  repeat split; intros; now apply dyadic_near.
Qed.

(** *** The first root can be missed *)
Lemma roots_by_sqrt {K : ExactReal} (p : quad K) r : 0 < r -> disc p = r * r ->
  0 < disc p /\ plus_root p = (- den (qb p) + r) / (2 * den (qa p)) /\ minus_root p = (- den (qb p) - r) / (2 * den (qa p)).
Proof. intros R D. unfold plus_root, minus_root. rewrite D, sqrt_square by lra. split; auto. nra. Qed.
Lemma dyadic_up prec x z : x * IZR (Zpos (dyadic_den prec)) < IZR z <= x * IZR (Zpos (dyadic_den prec)) + 1 ->
  dyadic prec x = Some (mkBall (Qmake z (dyadic_den prec)) (Qmake 2 (dyadic_den prec))).
Proof. intros [L H]. unfold dyadic. now rewrite <- (tech_up _ _ L H). Qed.

(** The roots 1 - 2^-100 and 1 of this polynomial are not told apart at 64 bits of precision and [root] returns exactly 1. *)
Definition close_roots : quad ExactZ := zq (2 ^ 100) (- (2 ^ 101 - 1)) (2 ^ 100 - 1).
Theorem C54_root_refuted : exists (o : solver ExactZ) p t b, sound o /\ convergent o /\ critical p t /\ root o 1 p arb_precision_fast = Ok (Some b) /\ ~ enclosed t b.
Proof.
  set (A := IZR (2 ^ 100)). assert (EA : A = 1267650600228229401496703205376) by reflexivity.
  assert (Ea : den (qa close_roots) = A) by reflexivity. assert (Eb : den (qb close_roots) = 1 - 2 * A) by (rewrite EA; change (den (qb close_roots)) with (IZR (- (2 ^ 101 - 1))); cbn; lra).
  assert (Ec : den (qc close_roots) = A - 1) by (rewrite EA; change (den (qc close_roots)) with (IZR (2 ^ 100 - 1)); cbn; lra).
  assert (PA : 0 < A) by lra. destruct (roots_by_sqrt close_roots 1) as (D & Rp & Rm); [lra|unfold disc; rewrite Ea, Eb, Ec; ring|]. rewrite Ea, Eb in Rp, Rm.
  assert (Np : plus_root close_roots = 1) by (rewrite Rp; field; lra). assert (Nm : minus_root close_roots = 1 - / A) by (rewrite Rm; field; lra). clear Rp Rm.
  assert (I : / A * A = 1) by (apply Rinv_l; lra). assert (Bd : 0 < / A < 1 / 18446744073709551616). { split; [now apply Rinv_0_lt_compat|]. apply (Rmult_lt_reg_r A); auto. rewrite I, EA. lra. }
  assert (Z1 : at_ close_roots 1 = 0) by (apply two_zeros; auto; rewrite Ea; lra).
  assert (Z0 : at_ close_roots 0 <> 0) by (rewrite at_0, Ec; lra). assert (NA : den (qa close_roots) <> 0) by (rewrite Ea; lra).
  exists (dyadic_solver ExactZ), close_roots, (1 - / A), (exactly 1). split; [apply dyadic_sound|]. split; [apply dyadic_convergent|]. split.
  { split; [lra|]. split; [apply two_zeros; auto|]. intros u U Zu. apply two_zeros in Zu as [Zu|Zu]; auto; lra. }
  split.
  - rewrite root_two by auto.
    change (s_plus (dyadic_solver ExactZ) close_roots arb_precision_fast) with (dyadic 64 (plus_root close_roots)).
    change (s_minus (dyadic_solver ExactZ) close_roots arb_precision_fast) with (dyadic 64 (minus_root close_roots)). rewrite Np, Nm.
    rewrite (dyadic_up 64 1 18446744073709551617), (dyadic_up 64 (1 - / A) 18446744073709551616).
    2,3: change (IZR (Z.pos (dyadic_den 64))) with 18446744073709551616; lra.
    unfold validate. assert (Q := proj2 (qeval_1 close_roots) Z1).
    match goal with |- context [arb_lt ?x (exactly 0)] => assert (L0 : arb_lt x (exactly 0) = Some false) by reflexivity; assert (L1 : arb_lt (exactly 1) x = None) by reflexivity; rewrite L0, L1; clear L0 L1 end.
    rewrite Q. cbn [bind].
    match goal with |- context [arb_lt ?x (exactly 0)] => assert (L0 : arb_lt x (exactly 0) = Some false) by reflexivity; assert (L1 : arb_lt (exactly 1) x = None) by reflexivity; rewrite L0, L1; clear L0 L1 end.
    reflexivity.
  - unfold enclosed, exactly, within, lo, hi; cbn [mid rad]. rewrite Q2R_minus. unfold Q2R; cbn. lra.
Qed.
Print Assumptions C54_root_refuted.

(** *** Critical times that differ can be considered equal *)
(** The polynomials (2 t - 1) (t - 2) and (2^100 t - 2^99 - 1) (t - 2). *)
Definition earlier : quad ExactZ := zq 2 (-5) 2.
Definition later : quad ExactZ := zq (2 ^ 100) (- (2 ^ 101 + 2 ^ 99 + 1)) (2 ^ 100 + 2).

Lemma found (o : solver ExactZ) p b x k eps : at_ p 0 <> 0 -> den (qa p) <> 0 -> 0 < disc p -> minus_root p = x -> plus_root p = 2 -> s_minus o p 64 = b -> 0 < eps < 1 / 8 -> 1 / 4 < x < 3 / 4 -> enclosed x b -> near eps x b ->
  enclosed 2 (s_plus o p 64) -> near eps 2 (s_plus o p 64) -> root o (S k) p 64 = Ok (Some b).
Proof.
  intros Z0 A D M P Eb E X S N S' N'. rewrite root_two by auto. rewrite Eb.
  assert (Zx : at_ p x = 0) by (apply two_zeros; auto). assert (Z2 : at_ p 2 = 0) by (apply two_zeros; auto).
  destruct (validate_decided p (root o k p (2 * 64)) 2 _ eps Z2 Z0 S' N') as (r0 & -> & R0); [lra| | |destruct r0; [lra|]].
  { rewrite Rabs_right; lra. } { intros _. rewrite Rabs_right; lra. }
  destruct (validate_decided p (root o k p (2 * 64)) x _ eps Zx Z0 S N) as (r1 & -> & R1); [lra| | |destruct r1 as [b1|]; [|lra]].
  { rewrite Rabs_right; lra. } { intros _. rewrite Rabs_left; lra. }
  destruct R1 as (_ & _ & _ & R1). rewrite R1 by lra. reflexivity.
Qed.

Theorem C54_less_refuted : exists (o : solver ExactZ) p q t s, sound o /\ convergent o /\ single_root p t /\ single_root q s /\ t < s /\ qless o 1 p q = Ok false.
Proof.
  set (A := IZR (2 ^ 100)). assert (EA : A = 1267650600228229401496703205376) by reflexivity. assert (PA : 0 < A) by lra.
  assert (Ea : den (qa later) = A) by reflexivity. assert (Eb : den (qb later) = - (5 / 2 * A + 1)) by (rewrite EA; change (den (qb later)) with (IZR (- (2 ^ 101 + 2 ^ 99 + 1))); cbn; lra).
  assert (Ec : den (qc later) = A + 2) by (rewrite EA; change (den (qc later)) with (IZR (2 ^ 100 + 2)); cbn; lra).
  destruct (roots_by_sqrt later (3 / 2 * A - 1)) as (Dl & Rp & Rm); [lra|unfold disc; rewrite Ea, Eb, Ec; field|]. rewrite Ea, Eb in Rp, Rm.
  assert (Lp : plus_root later = 2) by (rewrite Rp; field; lra). assert (Lm : minus_root later = 1 / 2 + / A) by (rewrite Rm; field; lra). clear Rp Rm.
  destruct (roots_by_sqrt earlier 3) as (De & Rp & Rm); [lra|unfold disc; cbn; lra|].
  assert (Ep : plus_root earlier = 2) by (rewrite Rp; cbn; lra). assert (Em : minus_root earlier = 1 / 2) by (rewrite Rm; cbn; lra). clear Rp Rm.
  assert (I : / A * A = 1) by (apply Rinv_l; lra). assert (Bd : 0 < / A < 1 / 18446744073709551616). { split; [now apply Rinv_0_lt_compat|]. apply (Rmult_lt_reg_r A); auto. rewrite I, EA. lra. }
  assert (NA : den (qa later) <> 0) by (rewrite Ea; lra). assert (NA' : den (qa earlier) <> 0) by (cbn; lra).
  assert (Z0 : at_ later 0 <> 0) by (rewrite at_0, Ec; lra). assert (Z0' : at_ earlier 0 <> 0) by (rewrite at_0; cbn; lra).
  exists (dyadic_solver ExactZ), earlier, later, (1 / 2), (1 / 2 + / A). split; [apply dyadic_sound|]. split; [apply dyadic_convergent|]. split; [|split; [|split; [lra|]]].
  - split; [split; [lra|split; [apply two_zeros; auto|]]|]; intros u U Zu; try intros Zu'; [apply two_zeros in Zu as [Zu|Zu]|apply two_zeros in Zu as [Zu|Zu]]; auto; lra.
  - split; [split; [lra|split; [apply two_zeros; auto|]]|]; intros u U Zu; try intros Zu'; [apply two_zeros in Zu as [Zu|Zu]|apply two_zeros in Zu as [Zu|Zu]]; auto; lra.
  - assert (M : multiples earlier later = false) by reflexivity. unfold qless. rewrite M. cbn [less_loop]. change arb_precision_fast with 64%Z.
    set (b := mkBall (Qmake 9223372036854775809 (dyadic_den 64)) (Qmake 2 (dyadic_den 64))).
    assert (E1 : dyadic 64 (1 / 2) = Some b) by (apply dyadic_up; change (IZR (Z.pos (dyadic_den 64))) with 18446744073709551616; lra).
    assert (E2 : dyadic 64 (1 / 2 + / A) = Some b) by (apply dyadic_up; change (IZR (Z.pos (dyadic_den 64))) with 18446744073709551616; lra).
    assert (En : forall x, near (1 / 16) x (dyadic 64 x)) by (intros x; apply dyadic_near; change (IZR (Z.pos (dyadic_den 64))) with 18446744073709551616; lra).
    assert (R1 : root (dyadic_solver ExactZ) 1 earlier 64 = Ok (Some (Some b))).
    { apply (found (dyadic_solver ExactZ) earlier (Some b) (1 / 2) 0 (1 / 16)); auto; try lra.
      - change (dyadic 64 (minus_root earlier) = Some b). rewrite Em. exact E1.
      - exact (eq_ind _ (enclosed (1 / 2)) (dyadic_enclosed 64 (1 / 2)) _ E1).
      - exact (eq_ind _ (near (1 / 16) (1 / 2)) (En (1 / 2)) _ E1).
      - change (enclosed 2 (dyadic 64 (plus_root earlier))). rewrite Ep. apply dyadic_enclosed.
      - change (near (1 / 16) 2 (dyadic 64 (plus_root earlier))). rewrite Ep. apply En. }
    assert (R2 : root (dyadic_solver ExactZ) 1 later 64 = Ok (Some (Some b))).
    { apply (found (dyadic_solver ExactZ) later (Some b) (1 / 2 + / A) 0 (1 / 16)); auto; try lra.
      - change (dyadic 64 (minus_root later) = Some b). rewrite Lm. exact E2.
      - exact (eq_ind _ (enclosed (1 / 2 + / A)) (dyadic_enclosed 64 (1 / 2 + / A)) _ E2).
      - exact (eq_ind _ (near (1 / 16) (1 / 2 + / A)) (En (1 / 2 + / A)) _ E2).
      - change (enclosed 2 (dyadic 64 (plus_root later))). rewrite Lp. apply dyadic_enclosed.
      - change (near (1 / 16) 2 (dyadic 64 (plus_root later))). rewrite Lp. apply En. }
    rewrite R1, R2. cbn [bind].
    reflexivity.
Qed.
Print Assumptions C54_less_refuted.

(** *** Examples *)
Example C54_ex : sound (dyadic_solver ExactZ) /\ convergent (dyadic_solver ExactZ) /\ single_root earlier (1 / 2) /\ critical (zq 0 (-3) 1) (1 / 3) /\ critical (zq 0 (-3) 2) (2 / 3) /\
  exists fuel, qless (dyadic_solver ExactZ) fuel (zq 0 (-3) 1) (zq 0 (-3) 2) = Ok true.
Proof.
  split; [apply dyadic_sound|]. split; [apply dyadic_convergent|]. split.
  { split; [split; [lra|split; [unfold at_; cbn; lra|]]|]; unfold at_; cbn; intros u U Z; try intros Z'; assert (F : (2 * u - 1) * (u - 2) = 0) by lra; apply Rmult_integral in F as [F|F]; lra. }
  assert (C1 : critical (zq 0 (-3) 1) (1 / 3)) by (split; [lra|split; [unfold at_; cbn; lra|intros u U; unfold at_; cbn; lra]]).
  assert (C2 : critical (zq 0 (-3) 2) (2 / 3)) by (split; [lra|split; [unfold at_; cbn; lra|intros u U; unfold at_; cbn; lra]]).
  split; auto. split; auto.
  destruct (C54_less_terminates ExactZ (dyadic_solver ExactZ) (zq 0 (-3) 1) (zq 0 (-3) 2) (1 / 3) (2 / 3) (dyadic_sound _) (dyadic_convergent _) C1 C2) as (fuel & r & E). exists fuel. rewrite E. f_equal.
  apply (C54_less_linear ExactZ (dyadic_solver ExactZ) fuel (zq 0 (-3) 1) (zq 0 (-3) 2) (1 / 3) (2 / 3) r (dyadic_sound _)); auto; cbn; lra.
Qed.
