(** * Facts about quadratic polynomials *)
From Coq Require Import ZArith QArith Qreals Reals List Bool Lia Lra Psatz.
From Verif Require Import Base ExactReal Arb Quadratic QuadraticSpec.
Local Open Scope R_scope.

Section facts.
Context {K : ExactReal}.
Implicit Types (p q : quad K).

Lemma den_qeval p t : den (qeval p t) = at_ p (den t).
Proof.
  unfold qeval, at_. destruct (reqb_reflect t (rofZ 0)) as [E|_]; [rewrite E, den_ofZ; ring|].
  destruct (reqb_reflect t (rofZ 1)) as [E|_]; [rewrite E, !den_add, den_ofZ; ring|]. autorewrite with den. ring.
Qed.
Lemma qeval_0 p : reqb (qeval p (rofZ 0)) (rofZ 0) = true <-> at_ p 0 = 0.
Proof. rewrite reqb_spec, den_qeval, !den_ofZ. reflexivity. Qed.
Lemma qeval_1 p : reqb (qeval p (rofZ 1)) (rofZ 0) = true <-> at_ p 1 = 0.
Proof. rewrite reqb_spec, den_qeval, !den_ofZ. reflexivity. Qed.
Lemma lt0b (x : K) : rltb (rofZ 0) x = true <-> 0 < den x.
Proof. rewrite rltb_spec, den_ofZ. reflexivity. Qed.

(** ** Positive polynomials *)
Lemma positive_real a b c : (0 < c /\ 0 < a + b + c /\ (a <= 0 \/ (0 < a /\ (- b < 0 \/ 2 * a < - b \/ b * b - 4 * a * c < 0)))) <->
  forall t, 0 <= t <= 1 -> 0 < a * (t * t) + b * t + c.
Proof.
  split.
  - intros (C & S & H) t [T0 T1]. destruct H as [A|(A & [B|[B|D]])].
    + assert (0 <= (- a) * (t * (1 - t))) by (apply Rmult_le_pos; [lra|nra]). assert (a * (t * t) + b * t + c = (1 - t) * c + t * (a + b + c) + (- a) * (t * (1 - t))) as -> by ring.
      destruct (Req_dec t 0) as [->|N]; [nra|]. assert (0 < t * (a + b + c)) by (apply Rmult_lt_0_compat; lra). assert (0 <= (1 - t) * c) by (apply Rmult_le_pos; lra). lra.
    + assert (0 <= b * t) by (apply Rmult_le_pos; lra). assert (0 <= a * (t * t)) by (apply Rmult_le_pos; nra). lra.
    + replace (a * (t * t) + b * t + c) with ((a + b + c) + (1 - t) * (- b - 2 * a) + a * ((1 - t) * (1 - t))) by ring.
      assert (0 <= (1 - t) * (- b - 2 * a)) by (apply Rmult_le_pos; lra). assert (0 <= a * ((1 - t) * (1 - t))) by (apply Rmult_le_pos; nra). lra.
    + apply (Rmult_lt_reg_l (4 * a)); [lra|]. rewrite Rmult_0_r. replace (4 * a * (a * (t * t) + b * t + c)) with ((2 * a * t + b) * (2 * a * t + b) - (b * b - 4 * a * c)) by ring.
      assert (0 <= (2 * a * t + b) * (2 * a * t + b)) by (apply Rle_0_sqr). lra.
  - intros H. assert (H0 := H 0). assert (H1 := H 1). split; [lra|]. split; [lra|]. destruct (Rle_dec a 0) as [A|A]; [auto|]. right. split; [lra|].
    destruct (Rlt_dec (- b) 0); auto. destruct (Rlt_dec (2 * a) (- b)); auto. right; right.
    assert (T : 0 <= - b / (2 * a) <= 1). { split; [apply Rmult_le_pos; [lra|left; apply Rinv_0_lt_compat; lra]|]. apply (Rmult_le_reg_r (2 * a)); [lra|]. unfold Rdiv. rewrite Rmult_assoc, Rinv_l; lra. }
    specialize (H _ T). assert (X : 4 * a * (a * (- b / (2 * a) * (- b / (2 * a))) + b * (- b / (2 * a)) + c) = 4 * a * c - b * b) by (field; lra).
    assert (0 < 4 * a * (a * (- b / (2 * a) * (- b / (2 * a))) + b * (- b / (2 * a)) + c)) by (apply Rmult_lt_0_compat; lra). lra.
Qed.

Lemma qpositive_spec p : qpositive p = true <-> forall t, 0 <= t <= 1 -> 0 < at_ p t.
Proof.
  unfold at_. rewrite <- positive_real. destruct p as [a b c]. unfold qpositive. cbn [qa qb qc].
  assert (E0 := lt0b (qeval (mkQuad a b c) (rofZ 0))). rewrite den_qeval, den_ofZ in E0. unfold at_ in E0; cbn [qa qb qc] in E0.
  assert (E1 := lt0b (qeval (mkQuad a b c) (rofZ 1))). rewrite den_qeval, den_ofZ in E1. unfold at_ in E1; cbn [qa qb qc] in E1.
  destruct (rltb _ (qeval _ (rofZ 0))); cbn [negb]. 2:{ split; [discriminate|]. intros (C & _). assert (false = true) by (apply E0; lra). discriminate. }
  destruct (rltb _ (qeval _ (rofZ 1))). 2:{ split; [discriminate|]. intros (_ & C & _). assert (false = true) by (apply E1; lra). discriminate. }
  assert (P0 := proj1 E0 eq_refl). assert (P1 := proj1 E1 eq_refl). clear E0 E1.
  rewrite !orb_true_iff, !andb_true_iff, !orb_true_iff. rewrite reqb_spec, !rltb_spec. autorewrite with den. lra.
Qed.

(** ** Balls *)
Lemma Qltb_R (x y : Q) : Qltb x y = true <-> Q2R x < Q2R y.
Proof. exact (rltb_spec ExactQ x y). Qed.
Lemma Qle_bool_R (x y : Q) : Qle_bool x y = true <-> Q2R x <= Q2R y.
Proof. rewrite Qle_bool_iff. split; [apply Qle_Rle|apply Rle_Qle]. Qed.

Lemma arb_lt_sound x y a b r : enclosed x a -> enclosed y b -> arb_lt a b = Some r -> (r = true -> x < y) /\ (r = false -> y <= x).
Proof.
  intros X Y E. destruct a as [a|], b as [b|]; cbn in E; try discriminate. unfold enclosed, within in *.
  assert (P := Qltb_R (hi a) (lo b)). assert (Q := Qle_bool_R (hi b) (lo a)).
  destruct (Qltb _ _); [injection E as <-; assert (H := proj1 P eq_refl); split; [lra|discriminate]|].
  destruct (Qle_bool _ _); [|discriminate]. injection E as <-. assert (H := proj1 Q eq_refl). split; [discriminate|lra].
Qed.

Lemma enclosed_exactly z : enclosed (IZR z) (exactly z).
Proof. unfold enclosed, exactly, within, lo, hi; cbn [mid rad]. rewrite Q2R_minus, Q2R_plus. unfold Q2R; cbn. lra. Qed.
Lemma near_exactly eps z : 0 < eps -> near eps (IZR z) (exactly z).
Proof.
  intros P y. unfold within, lo, hi; cbn [mid rad]. rewrite Q2R_minus, Q2R_plus. unfold Q2R; cbn. intros H.
  replace (y - IZR z) with 0 by lra. rewrite Rabs_R0. auto.
Qed.

(** Balls that are closer than the distance of their values can be compared. *)
Lemma arb_lt_decided x y a b eps : enclosed x a -> enclosed y b -> near eps x a -> near eps y b -> 2 * eps <= Rabs (x - y) ->
  exists r, arb_lt a b = Some r /\ (r = true <-> x < y).
Proof.
  intros X Y Nx Ny D. destruct a as [a|], b as [b|]; cbn in Nx, Ny; try tauto. cbn in X, Y.
  assert (Xl := Nx (Q2R (lo a))). assert (Xh := Nx (Q2R (hi a))). assert (Yl := Ny (Q2R (lo b))). assert (Yh := Ny (Q2R (hi b))).
  unfold within in *. assert (A1 : Rabs (Q2R (lo a) - x) < eps) by (apply Xl; lra). assert (A2 : Rabs (Q2R (hi a) - x) < eps) by (apply Xh; lra).
  assert (B1 : Rabs (Q2R (lo b) - y) < eps) by (apply Yl; lra). assert (B2 : Rabs (Q2R (hi b) - y) < eps) by (apply Yh; lra). clear Xl Xh Yl Yh Nx Ny.
  apply Rabs_def2 in A1, A2, B1, B2. cbn [arb_lt].
  assert (P := Qltb_R (hi a) (lo b)). assert (Q := Qle_bool_R (hi b) (lo a)).
  destruct (Rle_dec 0 (x - y)) as [S|S]; [rewrite Rabs_right in D by lra|rewrite Rabs_left in D by lra].
  - destruct (Qltb _ _); [exfalso; assert (H := proj1 P eq_refl); lra|]. destruct (Qle_bool _ _).
    + exists false. split; auto. split; [discriminate|lra].
    + assert (false = true) by (apply Q; lra). discriminate.
  - destruct (Qltb _ _). { exists true. split; auto. split; [lra|auto]. } assert (false = true) by (apply P; lra). discriminate.
Qed.

(** ** Roots *)
Lemma at_0 p : at_ p 0 = den (qc p).
Proof. unfold at_. ring. Qed.
Lemma linear_zero p t : den (qa p) = 0 -> den (qb p) <> 0 -> (at_ p t = 0 <-> t = linear_root p).
Proof.
  intros A B. unfold at_, linear_root. rewrite A. split.
  - intros E. apply (Rmult_eq_reg_r (den (qb p))); auto. unfold Rdiv. rewrite Rmult_assoc, Rinv_l by auto. lra.
  - intros ->. field. auto.
Qed.
Lemma square_form p t : 4 * den (qa p) * at_ p t = (2 * den (qa p) * t + den (qb p)) * (2 * den (qa p) * t + den (qb p)) - disc p.
Proof. unfold at_, disc. ring. Qed.
Lemma no_zero p t : disc p < 0 -> at_ p t <> 0.
Proof. intros D E. assert (Q := square_form p t). rewrite E in Q. assert (S := Rle_0_sqr (2 * den (qa p) * t + den (qb p))). unfold Rsqr in S. lra. Qed.
Lemma double_zero p t : den (qa p) <> 0 -> disc p = 0 -> (at_ p t = 0 <-> t = double_root p).
Proof.
  intros A D. assert (Q := square_form p t). rewrite D in Q. split.
  - intros E. rewrite E in Q. assert (S : 2 * den (qa p) * t + den (qb p) = 0) by (apply Rsqr_0_uniq; unfold Rsqr; lra).
    unfold double_root. apply (Rmult_eq_reg_r (2 * den (qa p))); [|lra]. unfold Rdiv. rewrite Rmult_assoc, Rinv_l by lra. lra.
  - intros E. assert (S : 2 * den (qa p) * t + den (qb p) = 0) by (rewrite E; unfold double_root; field; auto). rewrite S in Q.
    apply (Rmult_eq_reg_l (4 * den (qa p))); lra.
Qed.
Lemma two_zeros p t : den (qa p) <> 0 -> 0 < disc p -> (at_ p t = 0 <-> t = plus_root p \/ t = minus_root p).
Proof.
  intros A D. assert (Q := square_form p t). set (r := sqrt (disc p)). assert (R : r * r = disc p) by (apply sqrt_sqrt; lra).
  assert (F : 4 * den (qa p) * at_ p t = (2 * den (qa p) * t + den (qb p) - r) * (2 * den (qa p) * t + den (qb p) + r)) by (rewrite Q, <- R; ring).
  unfold plus_root, minus_root. fold r. split.
  - intros E. rewrite E, Rmult_0_r in F. symmetry in F. apply Rmult_integral in F as [F|F]; [left|right];
      (apply (Rmult_eq_reg_r (2 * den (qa p))); [|lra]; unfold Rdiv; rewrite Rmult_assoc, Rinv_l by lra; lra).
  - intros [E|E]; [assert (X : 2 * den (qa p) * t + den (qb p) - r = 0) by (rewrite E; field; auto)|assert (X : 2 * den (qa p) * t + den (qb p) + r = 0) by (rewrite E; field; auto)];
      rewrite X in F; apply (Rmult_eq_reg_l (4 * den (qa p))); lra.
Qed.
Lemma zeros_differ p : den (qa p) <> 0 -> 0 < disc p -> plus_root p <> minus_root p.
Proof.
  intros A D E. assert (S := sqrt_lt_R0 _ D). unfold plus_root, minus_root in E. apply (f_equal (fun x => x * (2 * den (qa p)))) in E. unfold Rdiv in E.
  rewrite !Rmult_assoc, Rinv_l in E by lra. lra.
Qed.

Lemma den_discriminant p : den (discriminant p) = disc p.
Proof. unfold discriminant, disc. autorewrite with den. ring. Qed.

(** What [root] returns: a ball around a root in [[0, 1]], or nothing if there is none. *)
Definition answer p (r : option (option ball)) : Prop :=
  match r with
  | Some b => exists t, 0 <= t <= 1 /\ at_ p t = 0 /\ enclosed t b
  | None => forall t, 0 <= t <= 1 -> at_ p t <> 0
  end.

Lemma validate_answer p again x sol r : at_ p x = 0 -> enclosed x sol -> (forall r, again = Ok r -> answer p r) -> validate p again sol = Ok r ->
  match r with
  | Some b => exists t, 0 <= t <= 1 /\ at_ p t = 0 /\ enclosed t b
  | None => ~ 0 <= x <= 1
  end.
Proof.
  intros X S A. assert (A' : again = Ok r -> match r with Some b => exists t, 0 <= t <= 1 /\ at_ p t = 0 /\ enclosed t b | None => ~ 0 <= x <= 1 end).
  { intros E. specialize (A r E). destruct r; auto. intros H. now apply (A x H). }
  unfold validate. destruct (arb_lt sol (exactly 0)) as [l|] eqn:E0.
  - destruct (arb_lt_sound x (IZR 0) sol (exactly 0) l S (enclosed_exactly 0) E0) as [L1 L2].
    destruct (arb_lt (exactly 1) sol) as [g|] eqn:E1.
    + destruct (arb_lt_sound (IZR 1) x (exactly 1) sol g (enclosed_exactly 1) S E1) as [G1 G2].
      destruct l; [intros [= <-]; specialize (L1 eq_refl); lra|]. destruct g; [intros [= <-]; specialize (G1 eq_refl); lra|]. intros [= <-].
      exists x. specialize (L2 eq_refl). specialize (G2 eq_refl). split; [lra|auto].
    + assert (Q := qeval_1 p). destruct (reqb _ _); auto. intros [= <-]. exists 1. split; [lra|]. split; [now apply Q|]. apply (enclosed_exactly 1).
  - assert (Q := qeval_0 p). destruct (reqb _ _); auto. intros [= <-]. exists 0. split; [lra|]. split; [now apply Q|]. apply (enclosed_exactly 0).
Qed.

Variable o : solver K.
Hypothesis So : sound o.

Lemma root_answer fuel : forall p prec r, root o fuel p prec = Ok r -> answer p r.
Proof.
  induction fuel as [|fuel IH]; intros p prec r; [discriminate|]. cbn [root].
  destruct (reqb_reflect (qc p) (rofZ 0)) as [C|C]; rewrite den_ofZ in C.
  { intros [= <-]. exists 0. split; [lra|]. split; [now rewrite at_0|apply (enclosed_exactly 0)]. }
  destruct (So p prec) as (S1 & S2 & S3). pose proof (IH p (2 * prec)%Z) as Ag. clear IH.
  destruct (reqb_reflect (qa p) (rofZ 0)) as [A|A]; rewrite den_ofZ in A.
  { destruct (reqb_reflect (qb p) (rofZ 0)) as [B|B]; rewrite den_ofZ in B.
    { intros [= <-] t _. unfold at_. rewrite A, B. lra. }
    destruct (reqb_reflect (qc p) (ropp (qb p))) as [E|E]; rewrite den_opp in E.
    { intros [= <-]. exists 1. split; [lra|]. split; [unfold at_; rewrite A, E; ring|apply (enclosed_exactly 1)]. }
    intros V. apply (validate_answer p _ (linear_root p)) in V; auto; [|now apply linear_zero].
    destruct r; auto. intros t T Z. apply (linear_zero p t A B) in Z. subst. contradiction. }
  destruct (rltb_reflect (discriminant p) (rofZ 0)) as [D|D]; rewrite den_discriminant, den_ofZ in D.
  { intros [= <-] t _. now apply no_zero. }
  destruct (reqb_reflect (discriminant p) (rofZ 0)) as [D'|D']; rewrite den_discriminant, den_ofZ in D'.
  { intros V. apply (validate_answer p _ (double_root p)) in V; auto; [|now apply double_zero].
    destruct r; auto. intros t T Z. apply (double_zero p t A D') in Z. subst. contradiction. }
  assert (P : 0 < disc p) by lra. destruct (S3 A P) as [Sp Sm].
  intros V. unfold bind in V.
  destruct (validate p _ (s_plus o p prec)) as [t0| | |] eqn:V0; try discriminate.
  destruct (validate p _ (s_minus o p prec)) as [t1| | |] eqn:V1; try discriminate.
  apply (validate_answer p _ (plus_root p)) in V0; auto; [|apply two_zeros; auto].
  apply (validate_answer p _ (minus_root p)) in V1; auto; [|apply two_zeros; auto].
  destruct t0 as [t0|], t1 as [t1|].
  - destruct (arb_lt t0 t1) as [[]|]; injection V as <-; auto.
  - injection V as <-; auto.
  - injection V as <-; auto.
  - injection V as <-. intros t T Z. apply two_zeros in Z; auto. destruct Z as [-> | ->]; contradiction.
Qed.

(** ** Convergence *)
Lemma validate_decided p again x sol eps : at_ p x = 0 -> at_ p 0 <> 0 -> enclosed x sol -> near eps x sol -> 0 < eps -> 2 * eps <= Rabs (x - 0) ->
  (x <> 1 -> 2 * eps <= Rabs (x - 1)) ->
  exists r, validate p again sol = Ok r /\ match r with Some b => 0 <= x <= 1 /\ enclosed x b /\ near eps x b /\ (x <> 1 -> b = sol) | None => ~ 0 <= x <= 1 end.
Proof.
  intros X Z S N P E0 E1. unfold validate.
  destruct (arb_lt_decided x (IZR 0) sol (exactly 0) eps S (enclosed_exactly 0) N (near_exactly eps 0 P) E0) as (l & -> & L).
  destruct (Req_dec x 1) as [X1|X1].
  - destruct (arb_lt (exactly 1) sol) as [g|] eqn:G.
    + destruct (arb_lt_sound (IZR 1) x (exactly 1) sol g (enclosed_exactly 1) S G) as [G1 G2].
      destruct l; [exfalso; assert (H := proj1 L eq_refl); lra|]. destruct g; [specialize (G1 eq_refl); lra|]. exists (Some sol). split; auto. split; [lra|auto].
    + assert (Q := qeval_1 p). destruct (reqb _ _). 2:{ assert (false = true) by (apply Q; now rewrite <- X1). discriminate. }
      exists (Some (exactly 1)). split; auto. split; [lra|]. rewrite X1. split; [apply (enclosed_exactly 1)|split; [now apply (near_exactly eps 1)|intros Q'; now contradiction Q']].
  - specialize (E1 X1). rewrite <- Rabs_Ropp in E1. replace (- (x - 1)) with (IZR 1 - x) in E1 by ring.
    destruct (arb_lt_decided (IZR 1) x (exactly 1) sol eps (enclosed_exactly 1) S (near_exactly eps 1 P) N E1) as (g & -> & G).
    destruct l. { exists None. split; auto. assert (H := proj1 L eq_refl). lra. }
    destruct g. { exists None. split; auto. assert (H := proj1 G eq_refl). lra. }
    exists (Some sol). split; auto. split; [|auto].
    destruct (Rlt_dec x (IZR 0)) as [l|l]; [apply L in l; discriminate|]. destruct (Rlt_dec (IZR 1) x) as [g|g]; [apply G in g; discriminate|]. lra.
Qed.

Lemma small_enough x : x <> 0 -> exists eps, 0 < eps /\ 2 * eps <= Rabs x.
Proof. intros N. exists (Rabs x / 2). assert (P := Rabs_pos_lt x N). lra. Qed.
(** A distance that tells [x] from 0 and 1. *)
Lemma apart x d : x <> 0 -> 0 < d -> exists eps, 0 < eps <= d /\ 2 * eps <= Rabs (x - 0) /\ (x <> 1 -> 2 * eps <= Rabs (x - 1)).
Proof.
  intros N D. destruct (small_enough (x - 0)) as (e & P & E); [lra|]. assert (A := Rmin_l e d). assert (B := Rmin_r e d). assert (Pm : 0 < Rmin e d) by (apply Rmin_case; auto).
  destruct (Req_dec x 1) as [X|X].
  - exists (Rmin e d). repeat split; auto; lra.
  - destruct (small_enough (x - 1)) as (f & Pf & F); [lra|]. exists (Rmin (Rmin e d) f). assert (A' := Rmin_l (Rmin e d) f). assert (B' := Rmin_r (Rmin e d) f).
    split; [split; [apply Rmin_case; auto|lra]|]. split; [|intros _]; lra.
Qed.
Lemma near_weaken eps eps' x b : near eps x b -> eps <= eps' -> near eps' x b.
Proof. intros N L. destruct b; cbn in *; auto. intros y Y. specialize (N y Y). lra. Qed.

Definition first_answer p eps (r : option (option ball)) : Prop :=
  match r with
  | Some b => exists t, critical p t /\ enclosed t b /\ near eps t b
  | None => forall t, 0 <= t <= 1 -> at_ p t <> 0
  end.

Hypothesis Co : convergent o.

Lemma root_eventually p eps : 0 < eps -> exists P, forall prec, (P <= prec)%Z -> forall fuel, exists r, root o (S fuel) p prec = Ok r /\ first_answer p eps r.
Proof.
  intros Pe.
  destruct (Req_dec (den (qc p)) 0) as [C|C].
  { exists 0%Z. intros prec _ fuel. cbn [root]. destruct (reqb_reflect (qc p) (rofZ 0)) as [_|N]; [|rewrite den_ofZ in N; contradiction].
    exists (Some (exactly 0)). split; auto. exists 0. split; [|split; [apply (enclosed_exactly 0)|now apply (near_exactly eps 0)]].
    split; [lra|]. split; [now rewrite at_0|]. intros; lra. }
  assert (Z0 : at_ p 0 <> 0) by now rewrite at_0.
  assert (NZ : forall x, at_ p x = 0 -> x <> 0) by (intros x Hx ->; contradiction).
  destruct (Req_dec (den (qa p)) 0) as [A|A].
  { destruct (Req_dec (den (qb p)) 0) as [B|B].
    { exists 0%Z. intros prec _ fuel. exists None. split. 2:{ intros t _. unfold at_. rewrite A, B. lra. }
      cbn [root]. destruct (reqb_reflect (qc p) (rofZ 0)) as [N|_]; [rewrite den_ofZ in N; contradiction|].
      destruct (reqb_reflect (qa p) (rofZ 0)) as [_|N]; [|rewrite den_ofZ in N; contradiction].
      destruct (reqb_reflect (qb p) (rofZ 0)) as [_|N]; [|rewrite den_ofZ in N; contradiction]. auto. }
    assert (Lz : at_ p (linear_root p) = 0) by now apply linear_zero. destruct (apart _ eps (NZ _ Lz) Pe) as (e & [Pe' Le] & E0 & E1).
    destruct (Co p e Pe') as (P & HP). exists P. intros prec Hp fuel. destruct (HP prec Hp) as (N1 & _ & _).
    destruct (So p prec) as (S1 & _ & _). specialize (N1 A B). specialize (S1 A B). cbn [root].
    destruct (reqb_reflect (qc p) (rofZ 0)) as [N|_]; [rewrite den_ofZ in N; contradiction|].
    destruct (reqb_reflect (qa p) (rofZ 0)) as [_|N]; [|rewrite den_ofZ in N; contradiction].
    destruct (reqb_reflect (qb p) (rofZ 0)) as [N|_]; [rewrite den_ofZ in N; contradiction|].
    destruct (reqb_reflect (qc p) (ropp (qb p))) as [E|E]; rewrite den_opp in E.
    { exists (Some (exactly 1)). split; auto. assert (Z1 : at_ p 1 = 0) by (unfold at_; rewrite A, E; ring). exists 1.
      split; [|split; [apply (enclosed_exactly 1)|now apply (near_exactly eps 1)]]. split; [lra|]. split; auto. intros u Hu Q. apply (linear_zero p _ A B) in Q, Z1. lra. }
    destruct (validate_decided p (root o fuel p (2 * prec)) (linear_root p) _ e Lz Z0 S1 N1 Pe' E0 E1) as (r & -> & R).
    exists r. split; auto. destruct r as [b|].
    - destruct R as (T & Eb & Nb & _). exists (linear_root p). split; [|split; auto; now apply (near_weaken e)]. split; auto. split; auto.
      intros u Hu Q. apply (linear_zero p _ A B) in Q. lra.
    - intros t T Q. apply (linear_zero p _ A B) in Q. subst. contradiction. }
  destruct (Rtotal_order (disc p) 0) as [D|[D|D]].
  { exists 0%Z. intros prec _ fuel. exists None. split. 2:{ intros t _. now apply no_zero. }
    cbn [root]. destruct (reqb_reflect (qc p) (rofZ 0)) as [N|_]; [rewrite den_ofZ in N; contradiction|].
    destruct (reqb_reflect (qa p) (rofZ 0)) as [N|_]; [rewrite den_ofZ in N; contradiction|].
    destruct (rltb_reflect (discriminant p) (rofZ 0)) as [_|N]; auto. rewrite den_discriminant, den_ofZ in N. contradiction. }
  { assert (Lz : at_ p (double_root p) = 0) by now apply double_zero. destruct (apart _ eps (NZ _ Lz) Pe) as (e & [Pe' Le] & E0 & E1).
    destruct (Co p e Pe') as (P & HP). exists P. intros prec Hp fuel. destruct (HP prec Hp) as (_ & N1 & _).
    destruct (So p prec) as (_ & S1 & _). specialize (N1 A D). specialize (S1 A D). cbn [root].
    destruct (reqb_reflect (qc p) (rofZ 0)) as [N|_]; [rewrite den_ofZ in N; contradiction|].
    destruct (reqb_reflect (qa p) (rofZ 0)) as [N|_]; [rewrite den_ofZ in N; contradiction|].
    destruct (rltb_reflect (discriminant p) (rofZ 0)) as [N|_]; [rewrite den_discriminant, den_ofZ in N; lra|].
    destruct (reqb_reflect (discriminant p) (rofZ 0)) as [_|N]; [|rewrite den_discriminant, den_ofZ in N; contradiction].
    destruct (validate_decided p (root o fuel p (2 * prec)) (double_root p) _ e Lz Z0 S1 N1 Pe' E0 E1) as (r & -> & R).
    exists r. split; auto. destruct r as [b|].
    - destruct R as (T & Eb & Nb & _). exists (double_root p). split; [|split; auto; now apply (near_weaken e)]. split; auto. split; auto.
      intros u Hu Q. apply (double_zero p _ A D) in Q. lra.
    - intros t T Q. apply (double_zero p _ A D) in Q. subst. contradiction. }
  assert (Lp : at_ p (plus_root p) = 0) by (apply two_zeros; auto). assert (Lm : at_ p (minus_root p) = 0) by (apply two_zeros; auto).
  assert (Df := zeros_differ p A D).
  destruct (apart _ eps (NZ _ Lp) Pe) as (e1 & [Pe1 Le1] & Ep0 & Ep1). destruct (apart _ e1 (NZ _ Lm) Pe1) as (e2 & [Pe2 Le2] & Em0 & Em1).
  destruct (small_enough (plus_root p - minus_root p)) as (e3 & Pe3 & E3); [lra|].
  assert (exists e, 0 < e /\ e <= e1 /\ e <= e2 /\ e <= e3) as (e & Pe' & L1 & L2 & L3).
  { exists (Rmin e2 e3). assert (X := Rmin_l e2 e3). assert (Y := Rmin_r e2 e3). split; [apply Rmin_case; auto|lra]. }
  destruct (Co p e Pe') as (P & HP). exists P. intros prec Hp fuel. destruct (HP prec Hp) as (_ & _ & N1). destruct (N1 A D) as [Np Nm].
  destruct (So p prec) as (_ & _ & S1). destruct (S1 A D) as [Sp Sm]. cbn [root].
  destruct (reqb_reflect (qc p) (rofZ 0)) as [N|_]; [rewrite den_ofZ in N; contradiction|].
  destruct (reqb_reflect (qa p) (rofZ 0)) as [N|_]; [rewrite den_ofZ in N; contradiction|].
  destruct (rltb_reflect (discriminant p) (rofZ 0)) as [N|_]; [rewrite den_discriminant, den_ofZ in N; lra|].
  destruct (reqb_reflect (discriminant p) (rofZ 0)) as [N|_]; [rewrite den_discriminant, den_ofZ in N; lra|].
  destruct (validate_decided p (root o fuel p (2 * prec)) (plus_root p) _ e Lp Z0 Sp Np Pe') as (r0 & -> & R0); [lra|intros X; specialize (Ep1 X); lra|].
  destruct (validate_decided p (root o fuel p (2 * prec)) (minus_root p) _ e Lm Z0 Sm Nm Pe') as (r1 & -> & R1); [lra|intros X; specialize (Em1 X); lra|].
  cbn [bind].
  assert (Only : forall t, at_ p t = 0 -> t = plus_root p \/ t = minus_root p) by (intros t; now apply two_zeros).
  destruct r0 as [b0|], r1 as [b1|].
  - destruct R0 as (T0 & Eb0 & Nb0 & _), R1 as (T1 & Eb1 & Nb1 & _).
    destruct (arb_lt_decided (plus_root p) (minus_root p) b0 b1 e Eb0 Eb1 Nb0 Nb1) as (l & -> & L); [lra|]. destruct l.
    + exists (Some b0). split; auto. exists (plus_root p). split; [|split; auto; apply (near_weaken e); auto; lra]. split; auto. split; auto.
      assert (H := proj1 L eq_refl). intros u Hu Q. destruct (Only u Q); lra.
    + exists (Some b1). split; auto. exists (minus_root p). split; [|split; auto; apply (near_weaken e); auto; lra]. split; auto. split; auto.
      assert (H : ~ plus_root p < minus_root p) by (intros H; apply L in H; discriminate). intros u Hu Q. destruct (Only u Q); lra.
  - destruct R0 as (T0 & Eb0 & Nb0 & _). exists (Some b0). split; auto. exists (plus_root p). split; [|split; auto; apply (near_weaken e); auto; lra]. split; auto. split; auto.
    intros u Hu Q. destruct (Only u Q); lra.
  - destruct R1 as (T1 & Eb1 & Nb1 & _). exists (Some b1). split; auto. exists (minus_root p). split; [|split; auto; apply (near_weaken e); auto; lra]. split; auto. split; auto.
    intros u Hu Q. destruct (Only u Q); lra.
  - exists None. split; auto. intros t T Q. destruct (Only t Q); subst; contradiction.
Qed.

(** More fuel does not change what is found. *)
Lemma validate_mono p x y sol r : (forall r, x = Ok r -> y = Ok r) -> validate p x sol = Ok r -> validate p y sol = Ok r.
Proof. intros H. unfold validate. destruct (arb_lt sol _); [destruct (arb_lt _ sol)|]; auto; destruct (reqb _ _); auto. Qed.
Lemma root_mono k : forall k' p prec r, (k <= k')%nat -> root o k p prec = Ok r -> root o k' p prec = Ok r.
Proof.
  induction k as [|k IH]; intros k' p prec r Hk; [discriminate|]. destruct k' as [|k']; [lia|]. apply le_S_n in Hk. cbn [root].
  assert (M := IH k' p (2 * prec)%Z). destruct (reqb (qc p) _); auto. destruct (reqb (qa p) _).
  - destruct (reqb (qb p) _); auto. destruct (reqb _ _); auto. apply validate_mono. auto.
  - destruct (rltb _ _); auto. destruct (reqb _ _); [apply validate_mono; auto|]. unfold bind.
    destruct (validate p (root o k p _) (s_plus o p prec)) as [a| | |] eqn:A; try discriminate. destruct (validate p (root o k p _) (s_minus o p prec)) as [b| | |] eqn:B; try discriminate.
    rewrite (validate_mono p _ (root o k' p (2 * prec)) _ _ (fun r => M r Hk) A), (validate_mono p _ (root o k' p (2 * prec)) _ _ (fun r => M r Hk) B). auto.
Qed.
Lemma validate_total p r again sol : again = Ok r -> exists r', validate p again sol = Ok r'.
Proof. intros ->. unfold validate. destruct (arb_lt sol _) as [[]|]; [| |destruct (reqb _ _); eauto]; destruct (arb_lt _ sol) as [[]|]; eauto; destruct (reqb _ _); eauto. Qed.
Lemma root_doubles p prec r k : root o k p (2 * prec) = Ok r -> exists r', root o (S k) p prec = Ok r'.
Proof.
  intros H. cbn [root]. destruct (reqb (qc p) _); eauto. destruct (reqb (qa p) _).
  - destruct (reqb (qb p) _); eauto. destruct (reqb _ _); eauto. eapply validate_total; eauto.
  - destruct (rltb _ _); eauto. destruct (reqb _ _); [eapply validate_total; eauto|].
    destruct (validate_total p _ _ (s_plus o p prec) H) as (a & ->). destruct (validate_total p _ _ (s_minus o p prec) H) as (b & ->). cbn [bind].
    destruct a, b; eauto. destruct (arb_lt _ _) as [[]|]; eauto.
Qed.
Lemma root_terminates p prec : (0 < prec)%Z -> exists k r, root o k p prec = Ok r.
Proof.
  intros H0. destruct (root_eventually p 1 Rlt_0_1) as (P & HP).
  assert (G : forall d prec, (0 < prec)%Z -> (P <= 2 ^ Z.of_nat d * prec)%Z -> exists k r, root o k p prec = Ok r).
  { induction d as [|d IH]; intros z Z L.
    - destruct (HP z) with (fuel := O) as (r & E & _); [change (Z.of_nat 0) with 0%Z in L; rewrite Z.pow_0_r in L; lia|]. eauto.
    - destruct (IH (2 * z)%Z) as (k & r & E); [lia|rewrite Nat2Z.inj_succ, Z.pow_succ_r in L by lia; lia|]. destruct (root_doubles p z r k E) as (r' & E'). eauto. }
  apply (G (Z.to_nat (Z.max 0 P))); auto. assert (Z.max 0 P < 2 ^ (Z.max 0 P))%Z by (apply Z.pow_gt_lin_r; lia). rewrite Z2Nat.id by lia. nia.
Qed.

Lemma root_two p prec k : at_ p 0 <> 0 -> den (qa p) <> 0 -> 0 < disc p -> root o (S k) p prec =
  (do t0 <- validate p (root o k p (2 * prec)) (s_plus o p prec);
   do t1 <- validate p (root o k p (2 * prec)) (s_minus o p prec);
   match t0, t1 with
   | Some x, Some y => match arb_lt x y with None | Some true => Ok t0 | Some false => Ok t1 end
   | Some _, None => Ok t0
   | None, _ => Ok t1
   end).
Proof.
  intros C A D. rewrite at_0 in C. cbn [root].
  destruct (reqb_reflect (qc p) (rofZ 0)) as [N|_]; [rewrite den_ofZ in N; contradiction|].
  destruct (reqb_reflect (qa p) (rofZ 0)) as [N|_]; [rewrite den_ofZ in N; contradiction|].
  destruct (rltb_reflect (discriminant p) (rofZ 0)) as [N|_]; [rewrite den_discriminant, den_ofZ in N; lra|].
  destruct (reqb_reflect (discriminant p) (rofZ 0)) as [N|_]; [rewrite den_discriminant, den_ofZ in N; lra|]. reflexivity.
Qed.

(** ** Comparing critical times *)
Lemma den_resultant p q : den (resultant p q) =
  let a := den (qa p) in let b := den (qb p) in let c := den (qc p) in let a' := den (qa q) in let b' := den (qb q) in let c' := den (qc q) in
  c * c * a' * a' - b * c * a' * b' + a * c * b' * b' + b * b * a' * c' - 2 * a * c * a' * c' - a * b * b' * c' + a * a * c' * c'.
Proof. destruct p as [a b c], q as [a' b' c']. cbn [resultant qa qb qc]. cbv zeta. autorewrite with den. ring. Qed.
Lemma common_zero p q t : at_ p t = 0 -> at_ q t = 0 -> den (resultant p q) = 0.
Proof.
  intros P Q. rewrite den_resultant. cbv zeta. unfold at_ in *. set (a := den (qa p)) in *. set (b := den (qb p)) in *. set (a' := den (qa q)) in *. set (b' := den (qb q)) in *.
  replace (den (qc p)) with (- (a * (t * t) + b * t)) by lra. replace (den (qc q)) with (- (a' * (t * t) + b' * t)) by lra. ring.
Qed.
Lemma common_zero_linear p q t : den (qa p) = 0 -> den (qa q) = 0 -> at_ p t = 0 -> at_ q t = 0 -> den (qc p) * den (qb q) = den (qc q) * den (qb p).
Proof.
  intros A A' P Q. unfold at_ in *. rewrite A in P. rewrite A' in Q. replace (den (qc p)) with (- (den (qb p) * t)) by lra. replace (den (qc q)) with (- (den (qb q) * t)) by lra. ring.
Qed.

Definition only_zero p t : Prop := 0 <= t <= 1 /\ at_ p t = 0 /\ forall u, 0 <= u <= 1 -> at_ p u = 0 -> u = t.
Lemma not_all_zero p t : only_zero p t -> den (qa p) <> 0 \/ den (qb p) <> 0 \/ den (qc p) <> 0.
Proof.
  intros (_ & _ & U). destruct (Req_dec (den (qa p)) 0) as [A|]; auto. destruct (Req_dec (den (qb p)) 0) as [B|]; auto. destruct (Req_dec (den (qc p)) 0) as [C|]; auto.
  exfalso. assert (0 = t) by (apply U; [lra|unfold at_; rewrite A, B, C; ring]). assert (1 = t) by (apply U; [lra|unfold at_; rewrite A, B, C; ring]). lra.
Qed.
Lemma multiples_spec p q : multiples p q = true <->
  den (qa p) * den (qb q) = den (qb p) * den (qa q) /\ den (qa p) * den (qc q) = den (qc p) * den (qa q) /\ den (qb p) * den (qc q) = den (qc p) * den (qb q).
Proof. unfold multiples. rewrite !andb_true_iff, !reqb_spec, !den_mul. tauto. Qed.
Lemma multiples_zero p q t s : multiples p q = true -> only_zero p t -> only_zero q s -> t = s.
Proof.
  intros M P Q. apply multiples_spec in M as (M1 & M2 & M3). pose proof P as (T & Z & _). destruct Q as (_ & _ & U). apply U; auto.
  unfold at_ in *. destruct (not_all_zero p t P) as [N|[N|N]]; apply (Rmult_eq_reg_l _ _ _) with (2 := N); rewrite Rmult_0_r.
  - replace (den (qa p) * (den (qa q) * (t * t) + den (qb q) * t + den (qc q))) with (den (qa q) * (den (qa p) * (t * t)) + (den (qa p) * den (qb q)) * t + den (qa p) * den (qc q)) by ring.
    rewrite M1, M2. replace (den (qa q) * (den (qa p) * (t * t)) + den (qb p) * den (qa q) * t + den (qc p) * den (qa q)) with (den (qa q) * (den (qa p) * (t * t) + den (qb p) * t + den (qc p))) by ring. rewrite Z. ring.
  - replace (den (qb p) * (den (qa q) * (t * t) + den (qb q) * t + den (qc q))) with ((den (qb p) * den (qa q)) * (t * t) + den (qb q) * (den (qb p) * t) + den (qb p) * den (qc q)) by ring.
    rewrite <- M1, M3. replace (den (qa p) * den (qb q) * (t * t) + den (qb q) * (den (qb p) * t) + den (qc p) * den (qb q)) with (den (qb q) * (den (qa p) * (t * t) + den (qb p) * t + den (qc p))) by ring. rewrite Z. ring.
  - replace (den (qc p) * (den (qa q) * (t * t) + den (qb q) * t + den (qc q))) with ((den (qc p) * den (qa q)) * (t * t) + (den (qc p) * den (qb q)) * t + den (qc q) * den (qc p)) by ring.
    rewrite <- M2, <- M3. replace (den (qa p) * den (qc q) * (t * t) + den (qb p) * den (qc q) * t + den (qc q) * den (qc p)) with (den (qc q) * (den (qa p) * (t * t) + den (qb p) * t + den (qc p))) by ring. rewrite Z. ring.
Qed.

Lemma root_only fuel p prec r t : only_zero p t -> root o fuel p prec = Ok r -> exists b, r = Some b /\ enclosed t b.
Proof.
  intros (T & Z & U) E. apply root_answer in E. destruct r as [b|]; [|exfalso; now apply (E t)].
  destruct E as (u & Hu & Zu & B). rewrite (U u Hu Zu) in B. eauto.
Qed.

Lemma less_only fuel : forall p q prec t s r, only_zero p t -> only_zero q s -> less_loop o fuel p q prec = Ok r ->
  (r = true -> t < s) /\ (r = false -> s <= t \/ (den (resultant p q) = 0 /\ ~ (den (qa p) = 0 /\ den (qa q) = 0))).
Proof.
  induction fuel as [|fuel IH]; intros p q prec t s r P Q; [discriminate|]. cbn [less_loop]. unfold bind.
  destruct (root o _ p prec) as [x| | |] eqn:X; try discriminate. destruct (root o _ q prec) as [y| | |] eqn:Y; try discriminate.
  destruct (root_only _ _ _ _ _ P X) as (bx & -> & Ex). destruct (root_only _ _ _ _ _ Q Y) as (bz & -> & Ey).
  destruct (arb_lt bx bz) as [l|] eqn:L.
  - intros [= <-]. destruct (arb_lt_sound t s bx bz l Ex Ey L) as [L1 L2]. auto.
  - destruct (reqb_reflect (qa p) (rofZ 0)) as [A|A], (reqb_reflect (qa q) (rofZ 0)) as [A'|A']; rewrite den_ofZ in A, A'; cbn [andb].
    2-4: destruct (reqb_reflect (resultant p q) (rofZ 0)) as [R|R]; rewrite den_ofZ in R; cbn [negb]; [|now apply IH]; intros [= <-]; split; [discriminate|intros _; right; tauto].
    destruct (reqb_reflect (qc p * qb q)%X (qc q * qb p)%X) as [E|E]; rewrite !den_mul in E; [|now apply IH]. intros [= <-]. split; [discriminate|]. intros _. left.
    assert (B : den (qb p) <> 0). { intros B. destruct (not_all_zero p t P) as [N|[N|N]]; auto. destruct P as (_ & Z & _). unfold at_ in Z. rewrite A, B in Z. lra. }
    assert (B' : den (qb q) <> 0). { intros B'. destruct (not_all_zero q s Q) as [N|[N|N]]; auto. destruct Q as (_ & Z & _). unfold at_ in Z. rewrite A', B' in Z. lra. }
    destruct P as (_ & Zp & _), Q as (_ & Zq & _). apply (linear_zero p t A B) in Zp. apply (linear_zero q s A' B') in Zq. right. subst. unfold linear_root.
    apply (Rmult_eq_reg_r (den (qb p) * den (qb q))). 2:{ now apply Rmult_integral_contrapositive. } field_simplify; auto. lra.
Qed.

Lemma less_mono k : forall k' p q prec r, (k <= k')%nat -> less_loop o k p q prec = Ok r -> less_loop o k' p q prec = Ok r.
Proof.
  induction k as [|k IH]; intros k' p q prec r Hk; [discriminate|]. destruct k' as [|k']; [lia|]. cbn [less_loop]. unfold bind.
  destruct (root o (S k) p prec) as [x| | |] eqn:X; try discriminate. destruct (root o (S k) q prec) as [y| | |] eqn:Y; try discriminate.
  rewrite (root_mono _ _ _ _ _ Hk X), (root_mono _ _ _ _ _ Hk Y). destruct x as [x|], y as [y|]; auto. destruct (arb_lt x y); auto.
  destruct (_ && _); [destruct (reqb _ _); auto; apply IH; lia|]. destruct (negb _); auto. apply IH; lia.
Qed.

Lemma less_terminates p q t s prec : critical p t -> critical q s -> (0 < prec)%Z -> exists k r, less_loop o k p q prec = Ok r.
Proof.
  intros Ct Cs Hp.
  assert (Found : forall k pr x, root o k p pr = Ok x -> exists b, x = Some b).
  { intros k pr x E. apply root_answer in E. destruct x; eauto. exfalso. destruct Ct as (H & Z & _). now apply (E t). }
  assert (Found' : forall k pr x, root o k q pr = Ok x -> exists b, x = Some b).
  { intros k pr x E. apply root_answer in E. destruct x; eauto. exfalso. destruct Cs as (H & Z & _). now apply (E s). }
  assert (Step : forall pr k1 r1, (0 < pr)%Z -> less_loop o k1 p q (2 * pr) = Ok r1 -> exists k r, less_loop o k p q pr = Ok r).
  { intros pr k1 r1 Pr E. destruct (root_terminates p pr Pr) as (k2 & x & X). destruct (root_terminates q pr Pr) as (k3 & y & Y).
    destruct (Found _ _ _ X) as (x' & ->). destruct (Found' _ _ _ Y) as (y' & ->).
    exists (S (k1 + k2 + k3)). cbn [less_loop]. rewrite (root_mono k2 (S (k1 + k2 + k3)) _ _ _ ltac:(lia) X), (root_mono k3 (S (k1 + k2 + k3)) _ _ _ ltac:(lia) Y). cbn [bind].
    assert (E' : less_loop o (k1 + k2 + k3) p q (2 * pr) = Ok r1) by (apply (less_mono k1); auto; lia). rewrite E'.
    destruct (arb_lt _ _); eauto. destruct (_ && _); [destruct (reqb _ _); eauto|]. destruct (negb _); eauto. }
  destruct (Req_dec t s) as [E|N].
  - subst s. destruct Ct as (_ & Zp & _), Cs as (_ & Zq & _).
    destruct (root_terminates p prec Hp) as (k2 & x & X). destruct (root_terminates q prec Hp) as (k3 & y & Y).
    destruct (Found _ _ _ X) as (x' & ->). destruct (Found' _ _ _ Y) as (y' & ->).
    exists (S (k2 + k3)). cbn [less_loop]. rewrite (root_mono k2 (S (k2 + k3)) _ _ _ ltac:(lia) X), (root_mono k3 (S (k2 + k3)) _ _ _ ltac:(lia) Y). cbn [bind].
    destruct (arb_lt _ _); eauto. destruct (reqb_reflect (qa p) (rofZ 0)) as [A|A], (reqb_reflect (qa q) (rofZ 0)) as [A'|A']; rewrite den_ofZ in A, A'; cbn [andb].
    2-4: destruct (reqb_reflect (resultant p q) (rofZ 0)) as [R|R]; cbn [negb]; [eauto|]; rewrite den_ofZ in R; exfalso; apply R; now apply (common_zero p q t).
    destruct (reqb_reflect (qc p * qb q)%X (qc q * qb p)%X) as [E|E]; [eauto|]. rewrite !den_mul in E. exfalso. apply E. now apply (common_zero_linear p q t).
  - destruct (small_enough (t - s)) as (e & Pe & E); [lra|]. destruct (root_eventually p e Pe) as (P & HP). destruct (root_eventually q e Pe) as (Q & HQ).
    assert (Uniq : forall p t t', critical p t -> critical p t' -> t = t').
    { intros w u u' (H & Z & F) (H' & Z' & F'). destruct (Rtotal_order u u') as [L|[L|L]]; auto; exfalso; [apply (F' u)|apply (F u')]; auto; lra. }
    assert (G : forall d pr, (0 < pr)%Z -> (Z.max P Q <= 2 ^ Z.of_nat d * pr)%Z -> exists k r, less_loop o k p q pr = Ok r).
    { induction d as [|d IH]; intros pr Z L.
      - change (Z.of_nat 0) with 0%Z in L; rewrite Z.pow_0_r in L. exists 1%nat. cbn [less_loop].
        destruct (HP pr ltac:(lia) 0%nat) as (x & -> & X). destruct (HQ pr ltac:(lia) 0%nat) as (y & -> & Y). cbn [bind].
        destruct x as [x|]; [|exfalso; destruct Ct as (H & Zp & _); now apply (X t)]. destruct y as [y|]; [|exfalso; destruct Cs as (H & Zp & _); now apply (Y s)].
        destruct X as (t' & Ct' & X1 & X2), Y as (s' & Cs' & Y1 & Y2). rewrite <- (Uniq p t t' Ct Ct') in X1, X2. rewrite <- (Uniq q s s' Cs Cs') in Y1, Y2.
        destruct (arb_lt_decided t s x y e X1 Y1 X2 Y2 E) as (l & -> & _). eauto.
      - destruct (IH (2 * pr)%Z) as (k & r & E'); [lia|rewrite Nat2Z.inj_succ, Z.pow_succ_r in L by lia; lia|]. eauto. }
    apply (G (Z.to_nat (Z.max 0 (Z.max P Q)))); auto. assert (Z.max 0 (Z.max P Q) < 2 ^ (Z.max 0 (Z.max P Q)))%Z by (apply Z.pow_gt_lin_r; lia). rewrite Z2Nat.id by lia. nia.
Qed.
End facts.
