(** * Facts about shifting vertices *)
From Coq Require Import ZArith QArith Reals List Arith Bool Lia Lra Psatz Permutation.
From Verif Require Import Base HalfEdge HalfEdgeFacts Perm PermSpec PermFacts PermCycles PermLemmas IndexedSet Combinatorial CombinatorialSpec
  CombinatorialFacts CombinatorialFlip CombinatorialHistory CombinatorialOps Tracked ExactReal Vector PlaneSpec Plane VectorFacts Arb ArbFacts Quadratic QuadraticSpec QuadraticFacts
  FlatTri FlatSpec FlatFacts FlatSum FlatLinear FlatOps FlatAngle FlatSector Collapse Shift ShiftSpec.
Import ListNotations.
Local Open Scope R_scope.

(** A continuous function that is positive at 0 and not positive at a later time has a first zero. *)
Lemma first_zero (f : R -> R) t1 : (forall t, 0 <= t <= t1 -> continuity_pt f t) -> 0 < f 0 -> 0 <= t1 -> f t1 <= 0 ->
  exists t, 0 <= t <= t1 /\ f t = 0 /\ forall u, 0 <= u < t -> 0 < f u.
Proof.
  intros Cf F0 H1 F1. set (E := fun x => 0 <= x <= t1 /\ forall u, 0 <= u <= x -> 0 < f u).
  assert (E0 : E 0) by (split; [lra|]; intros u U; replace u with 0 by lra; auto).
  destruct (completeness E) as (t & UB & LUB).
  { exists t1. intros x [X _]. lra. }
  { exists 0. exact E0. }
  assert (T0 : 0 <= t) by (apply UB, E0). assert (T1 : t <= t1) by (apply LUB; intros x [X _]; lra).
  assert (Pos : forall u, 0 <= u < t -> 0 < f u).
  { intros u U. destruct (Rlt_dec 0 (f u)) as [|N]; auto. exfalso. assert (t <= u); [|lra]. apply LUB. intros x [X1 X2].
    destruct (Rle_dec x u); auto. exfalso. apply N, X2. lra. }
  exists t. split; [lra|]. split; auto. destruct (Rtotal_order (f t) 0) as [L|[Z|G]]; auto.
  - exfalso. destruct (Req_dec t 0) as [->|N]; [lra|].
    destruct (Cf t (conj T0 T1) (- f t)) as (a & A & HA); [lra|]. set (u := Rmax 0 (t - a / 2)).
    assert (U : 0 <= u < t) by (unfold u, Rmax; destruct (Rle_dec 0 (t - a / 2)); lra).
    assert (P := Pos u U). specialize (HA u). cbn in HA. unfold R_dist, D_x, no_cond in HA.
    assert (Q : Rabs (f u - f t) < - f t).
    { apply HA. split; [split; auto; lra|]. rewrite Rabs_left by lra. unfold u, Rmax. destruct (Rle_dec 0 (t - a / 2)); lra. }
    rewrite Rabs_right in Q by lra. lra.
  - exfalso. assert (Lt : t < t1) by (destruct (Req_dec t t1) as [->|]; lra).
    destruct (Cf t (conj T0 T1) (f t)) as (a & A & HA); [lra|]. set (x := Rmin t1 (t + a / 2)).
    assert (X : t < x <= t1) by (unfold x, Rmin; destruct (Rle_dec t1 (t + a / 2)); lra).
    assert (E x); [|assert (x <= t) by (now apply UB); lra].
    split; [lra|]. intros u U. destruct (Rlt_dec u t); [apply Pos; lra|]. destruct (Req_dec u t) as [->|Nu]; auto.
    specialize (HA u). cbn in HA. unfold R_dist, D_x, no_cond in HA.
    assert (Q : Rabs (f u - f t) < f t).
    { apply HA. split; [split; auto; lra|]. rewrite Rabs_right by lra. unfold x, Rmin in *. destruct (Rle_dec t1 (t + a / 2)); lra. }
    apply Rabs_def2 in Q. lra.
Qed.

(** Outcomes that are not errors. *)
Definition safe {A} (P : A -> Prop) (x : outcome A) : Prop := match x with Ok a => P a | OutOfFuel => True | _ => False end.
Lemma safe_bind {A B} (P : A -> Prop) (Q : B -> Prop) x f : safe P x -> (forall a, P a -> safe Q (f a)) -> safe Q (bind x f).
Proof. destruct x; cbn; auto; contradiction. Qed.
Lemma safe_weaken {A} (P Q : A -> Prop) x : safe P x -> (forall a, P a -> Q a) -> safe Q x.
Proof. destruct x; cbn; auto. Qed.

Lemma safe_and {A} (P Q : A -> Prop) x : safe P x -> (forall a, x = Ok a -> Q a) -> safe (fun a => P a /\ Q a) x.
Proof. destruct x; cbn; auto. Qed.

(** Three collinear vectors that are not zero and sum to zero: one of them points to the other side. *)
Lemma collinear_opposite p q r : padd (padd p q) r = (0, 0) -> p <> (0, 0) -> q <> (0, 0) -> r <> (0, 0) -> pdet p q = 0 ->
  pdot p (pneg r) < 0 \/ pdot q (pneg p) < 0 \/ pdot r (pneg q) < 0.
Proof.
  destruct p as [a b], q as [c d], r as [e f]. unfold padd, pdot, pdet, pneg; cbn [fst snd]. intros Z P Q Rr D. injection Z as Z1 Z2.
  destruct (Rlt_dec (a * - e + b * - f) 0) as [|N1]; auto. destruct (Rlt_dec (c * - a + d * - b) 0) as [|N2]; auto.
  destruct (Rlt_dec (e * - c + f * - d) 0) as [|N3]; auto. exfalso.
  assert (Hp := pdot_pos (a, b) P). assert (Hq := pdot_pos (c, d) Q). assert (Hr := pdot_pos (e, f) Rr).
  unfold pdot in Hp, Hq, Hr; cbn [fst snd] in Hp, Hq, Hr.
  replace e with (- a - c) in * by lra. replace f with (- b - d) in * by lra.
  assert (X : (a * a + b * b) * (c * c + d * d) = (a * c + b * d) * (a * c + b * d) + (a * d - b * c) * (a * d - b * c)) by ring.
  rewrite D in X. clear P Q Rr D Z1 Z2. apply Rnot_lt_le in N1, N2, N3. assert (G1 : 0 <= a * a + b * b + (a * c + b * d)) by lra. assert (G2 : 0 <= c * c + d * d + (a * c + b * d)) by lra.
  assert (G3 : 0 <= - (a * c + b * d)) by lra.
  assert (Hr' : 0 < (a * a + b * b + (a * c + b * d)) + (c * c + d * d + (a * c + b * d))) by lra.
  revert Hp Hq Hr' X G1 G2 G3. generalize (a * a + b * b) (c * c + d * d) (a * c + b * d). clear. intros P Q x. intros.
  assert (A1 := Rmult_le_pos _ _ G1 G2). assert (A2 := Rmult_lt_0_compat _ _ Hp Hq).
  destruct G3 as [G3|G3]; [assert (A3 := Rmult_lt_0_compat _ _ G3 Hr')|replace x with 0 in * by lra]; lra.
Qed.

Section state.
Context {K : ExactReal}.
Variables (n : nat) (s : flat K) (d : list (vec K)).
Hypothesis S : flat_surface n s.
Hypothesis C : closed_surface n s.
Hypothesis D : shift_of n s d.
Local Notation mv := (moving s d).

Lemma mv_neg t h : (h < n)%nat -> mv t (neg h) = pneg (mv t h).
Proof.
  intros H. destruct D as (_ & N & _). unfold moving. rewrite (fs_odd n s S), N by auto. unfold padd, pscale, pneg; cbn. f_equal; ring.
Qed.
Lemma mv_sum t h : (h < n)%nat -> padd (padd (mv t h) (mv t (fF s h))) (mv t (fF s (fF s h))) = (0, 0).
Proof.
  intros H. destruct D as (_ & _ & N). specialize (N h H). destruct (fs_flat n s S h H (C h H)) as [Z _]. unfold moving.
  destruct (vv s h), (vv s (fF s h)), (vv s (fF s (fF s h))), (dd d h), (dd d (fF s h)), (dd d (fF s (fF s h))).
  unfold padd, pscale in *; cbn [fst snd] in *. injection Z as Z1 Z2. injection N as N1 N2.
  match goal with |- (?a, ?b) = _ => replace a with (t * 0) by (rewrite <- N1; lra); replace b with (t * 0) by (rewrite <- N2; lra) end. f_equal; ring.
Qed.
Lemma mv_V t h : (h < n)%nat -> mv t (fV s h) = pneg (mv t (fF s (fF s h))).
Proof. intros H. rewrite (fV_eq n s h S H (C h H)). apply mv_neg. now repeat apply (fF_lt n s _ S). Qed.

(** The area of the triangle at [h], as a polynomial in the time. *)
Definition corner (h : nat) : quad K := det_quad (nth h (fvec s) vzero) (nth (fV s h) (fvec s) vzero) (nth h d vzero) (nth (fV s h) d vzero).
Definition area_at (t : R) (h : nat) : R := pdet (mv t h) (mv t (fF s h)).
Lemma at_quad (v w x y : vec K) t : at_ (det_quad v w x y) t = pdet (padd (vden v) (pscale t (vden x))) (padd (vden w) (pscale t (vden y))).
Proof. unfold at_, det_quad, pdet, padd, pscale, vden; cbn [qa qb qc fst snd]. rewrite !den_sub, !den_add, !den_sub, !den_mul. ring. Qed.
Lemma at_corner t h : (h < n)%nat -> at_ (corner h) t = area_at t h.
Proof.
  intros H. unfold corner. rewrite at_quad. change (pdet (mv t h) (mv t (fV s h)) = area_at t h). rewrite mv_V by auto. unfold area_at.
  assert (Z := mv_sum t h H). destruct (mv t h), (mv t (fF s h)), (mv t (fF s (fF s h))). unfold padd, pdet, pneg in *; cbn [fst snd] in *.
  injection Z as Z1 Z2. replace r3 with (- r - r1) by lra. replace r4 with (- r0 - r2) by lra. ring.
Qed.
Lemma area_rotate t h : (h < n)%nat -> area_at t (fF s h) = area_at t h.
Proof.
  intros H. unfold area_at. assert (Z := mv_sum t h H). destruct (mv t h), (mv t (fF s h)), (mv t (fF s (fF s h))).
  unfold padd, pdet in *; cbn [fst snd] in *. injection Z as Z1 Z2. replace r3 with (- r - r1) by lra. replace r4 with (- r0 - r2) by lra. ring.
Qed.
Lemma area_0 h : (h < n)%nat -> 0 < area_at 0 h.
Proof.
  intros H. destruct (fs_flat n s S h H (C h H)) as [_ A]. unfold area_at, moving. destruct (vv s h), (vv s (fF s h)), (dd d h), (dd d (fF s h)).
  unfold padd, pscale, pdet in *; cbn [fst snd] in *. lra.
Qed.
Lemma critical_same h g t : (forall u, area_at u h = area_at u g) -> (h < n)%nat -> (g < n)%nat -> critical (corner h) t -> critical (corner g) t.
Proof. intros E H G (A & B & X). split; auto. split; [rewrite at_corner, <- E, <- at_corner; auto|]. intros u U. rewrite at_corner, <- E, <- at_corner; auto. Qed.
Lemma critical_unique (p : quad K) t u : critical p t -> critical p u -> t = u.
Proof. intros (A & B & X) (A' & B' & X'). destruct (Rtotal_order t u) as [L|[E|G]]; auto; exfalso; [apply (X' t)|apply (X u)]; auto; lra. Qed.
Lemma continuity_at (p : quad K) : continuity (at_ p).
Proof. unfold at_. intros x. reg. Qed.
Lemma critical_exists h t : (h < n)%nat -> 0 <= t <= 1 -> area_at t h <= 0 -> exists u, u <= t /\ critical (corner h) u.
Proof.
  intros H T A. destruct (first_zero (at_ (corner h)) t) as (u & U & Z & P); [intros x _; apply continuity_at|rewrite at_corner by auto; now apply area_0|lra|now rewrite at_corner|].
  exists u. split; [lra|]. split; [lra|]. split; auto. intros x X. assert (Y := P x X). lra.
Qed.
Lemma critical_positive h t u : (h < n)%nat -> critical (corner h) t -> 0 <= u < t -> 0 < area_at u h.
Proof.
  intros H Ct U. destruct (Rlt_dec 0 (area_at u h)) as [|N]; auto. exfalso. assert (T := proj1 Ct).
  destruct (critical_exists h u H) as (x & X & Cx); [lra|lra|]. assert (x = t) by (eapply critical_unique; eauto). lra.
Qed.

(** The vertex at which the half edge [h] starts is on the opposite edge when the area vanishes. *)
Definition hits (h : nat) : Prop := exists t, critical (corner h) t /\ pdot (mv t h) (mv t (fV s h)) < 0.
Lemma some_hits h t : none_vanishes n s d -> (h < n)%nat -> critical (corner h) t ->
  exists g, (g < n)%nat /\ critical (corner g) t /\ hits g.
Proof.
  intros NV H Ct. pose proof Ct as (T & Z & _). rewrite at_corner in Z by auto. assert (H1 := fF_lt n s h S H). assert (H2 := fF_lt n s _ S H1).
  assert (A : forall g, (g < n)%nat -> mv t g <> (0, 0)) by (intros; apply NV; auto).
  destruct (collinear_opposite _ _ _ (mv_sum t h H) (A h H) (A _ H1) (A _ H2) Z) as [X|[X|X]].
  - exists h. split; auto. split; auto. exists t. split; auto. now rewrite mv_V.
  - exists (fF s h). split; auto. assert (Q : critical (corner (fF s h)) t) by (apply (critical_same h); auto; intros; symmetry; now apply area_rotate).
    split; auto. exists t. split; auto. rewrite mv_V, (fF3 n s h S H) by auto. auto.
  - exists (fF s (fF s h)). split; auto.
    assert (Q : critical (corner (fF s (fF s h))) t) by (apply (critical_same h); auto; intros; rewrite !area_rotate; auto).
    split; auto. exists t. split; auto. rewrite mv_V, (fF3 n s h S H) by auto. auto.
Qed.
End state.

Lemma parallel_vanishes p q : p <> (0, 0) -> pdet p q = 0 -> pdot p (padd p q) <= 0 -> exists t, 0 < t <= 1 /\ padd p (pscale t q) = (0, 0).
Proof.
  destruct p as [a b], q as [c e]. intros P X Y. assert (Hp := pdot_pos (a, b) P). unfold pdot, pdet, padd, pscale in *; cbn [fst snd] in *.
  assert (Hd : a * c + b * e < 0) by lra. exists ((a * a + b * b) / - (a * c + b * e)).
  assert (Hi : 0 < / - (a * c + b * e)) by (apply Rinv_0_lt_compat; lra). unfold Rdiv. split; [split|].
  - now apply Rmult_lt_0_compat.
  - apply (Rmult_le_reg_r (- (a * c + b * e))); [lra|]. rewrite Rmult_assoc, Rinv_l by lra. lra.
  - assert (E1 : (a * a + b * b) * c = a * (a * c + b * e)).
    { replace (b * (a * e)) with (b * (b * c)) by (f_equal; lra). replace (a * (a * c + b * e)) with (a * a * c + b * (a * e)) by ring.
      replace (a * e) with (b * c) by lra. ring. }
    assert (E2 : (a * a + b * b) * e = b * (a * c + b * e)).
    { replace (b * (a * c + b * e)) with (a * (b * c) + b * b * e) by ring. replace (b * c) with (a * e) by lra. ring. }
    f_equal; [replace ((a * a + b * b) * / - (a * c + b * e) * c) with (((a * a + b * b) * c) * / - (a * c + b * e)) by ring; rewrite E1
             |replace ((a * a + b * b) * / - (a * c + b * e) * e) with (((a * a + b * b) * e) * / - (a * c + b * e)) by ring; rewrite E2]; field; lra.
Qed.

Lemma orbit_shift f t k : map f (orbit_list f t k) = map (fun i => Nat.iter i f t) (seq 1 k).
Proof. unfold orbit_list. rewrite <- seq_shift, !map_map. reflexivity. Qed.
Lemma combine_map {A B} (f : A -> B) l : combine l (map f l) = map (fun x => (x, f x)) l.
Proof. induction l; cbn; [auto|now rewrite IHl]. Qed.
Lemma consecutive_orbit f t k : period f t k -> consecutive (orbit_list f t k) = map (fun h => (h, f h)) (orbit_list f t k).
Proof.
  intros (K0 & Kt & _). destruct k as [|k]; [lia|]. rewrite <- combine_map. rewrite orbit_list_S at 3. rewrite map_app. cbn [map].
  replace (f (Nat.iter k f t)) with t by (symmetry; exact Kt). rewrite orbit_shift. reflexivity.
Qed.

Lemma classic_time (P : R -> Prop) : (forall t, 0 <= t <= 1 -> P t) \/ exists t, 0 <= t <= 1 /\ ~ P t.
Proof.
  destruct (Classical_Prop.classic (exists t, 0 <= t <= 1 /\ ~ P t)) as [E|E]; auto. left. intros t T.
  apply Classical_Prop.NNPP. intros N. apply E. eauto.
Qed.

Section search.
Context {K : ExactReal}.
Variable o : solver K.
Variable approx : Z -> K -> ball.
Variable ops : Z -> ArbOps.
Variables (n : nat) (s : flat K) (d : list (vec K)).
Hypothesis S : flat_surface n s.
Hypothesis C : closed_surface n s.
Hypothesis D : shift_of n s d.
Local Notation mv := (moving s d).
Local Notation corner := (corner s d).

Lemma get_d h : (h < n)%nat -> vget d h = Ok (nth h d vzero).
Proof. intros H. apply vget_nth. destruct D as (L & _). lia. Qed.
Lemma get_v h : (h < n)%nat -> from_he s h = Ok (nth h (fvec s) vzero).
Proof. intros H. apply from_he_Ok. now rewrite (fs_length n s S). Qed.
Lemma mv_get t h : padd (vden (nth h (fvec s) vzero)) (pscale t (vden (nth h d vzero))) = mv t h.
Proof. reflexivity. Qed.

Lemma collapsing_none hes coll : none_vanishes n s d -> (forall h, In h hes -> (h < n)%nat) -> find_collapsing s d hes coll = Ok coll.
Proof.
  intros NV. induction hes as [|h r IH]; intros H; auto. assert (Hh : (h < n)%nat) by auto with datatypes. cbn [find_collapsing].
  rewrite get_d, get_v by auto. cbn [bind]. rewrite IH by auto with datatypes.
  destruct (vnonzero _ && _) eqn:E; auto. apply andb_true_iff in E as [_ E].
  set (v := nth h (fvec s) vzero) in *. set (x := nth h d vzero) in *.
  destruct (ccw_spec v x) as (_ & Cl & _). assert (X : pdet (vden v) (vden x) = 0) by (apply Cl; destruct (ccw v x); auto; discriminate).
  destruct (orientation_spec v (vadd v x)) as (_ & O1 & O2). rewrite vden_add in O1, O2.
  assert (Nv : vden v <> (0, 0)).
  { destruct (fs_flat n s S h Hh (C h Hh)) as [_ Q]. change (vv s h) with (vden v) in Q. intros Z. rewrite Z in Q. unfold pdet in Q; cbn in Q. lra. }
  assert (F : ~ pdot (vden v) (padd (vden v) (vden x)) <= 0).
  { intros Q. destruct (parallel_vanishes _ _ Nv X Q) as (t & T & Z). apply (NV t h); auto. lra. }
  destruct (orientation v (vadd v x)); auto; exfalso; apply F; [rewrite (proj1 O1); auto; lra|apply proj1 in O2; specialize (O2 eq_refl); lra].
Qed.

Variable P : quad K -> Prop.
Hypothesis So : sound o.
Hypothesis Rel : reliable o P.
Hypothesis Ap : approximates approx.
Hypothesis NV : none_vanishes n s d.
Hypothesis HP : forall h, (h < n)%nat -> P (corner h).

Lemma at_time_within prec t b v x : within t b -> pwithin (padd (vden v) (pscale t (vden x))) (at_time approx ops prec b v x).
Proof.
  intros T. unfold at_time, pwithin, padd, pscale, vden; cbn [fst snd ax ay]. split; apply aadd_sound; auto; apply amul_sound; auto.
Qed.

Lemma validate_safe (p : quad K) again x : safe (fun _ => True) again -> safe (fun _ => True) (validate p again x).
Proof. intros A. unfold validate. destruct (Quadratic.arb_lt x (exactly 0)) as [[|]|], (Quadratic.arb_lt (exactly 1) x) as [[|]|]; cbn; auto; destruct (reqb _ _); cbn; auto. Qed.
Lemma root_safe fuel : forall p prec, safe (fun _ => True) (root o fuel p prec).
Proof.
  induction fuel as [|k IH]; intros p prec; [exact I|]. cbn [root]. assert (A := IH p (2 * prec)%Z).
  destruct (qc p =? _)%X; [exact I|]. destruct (qa p =? _)%X.
  - destruct (qb p =? _)%X; [exact I|]. destruct (qc p =? _)%X; [exact I|]. now apply validate_safe.
  - destruct (_ <? _)%X; [exact I|]. destruct (_ =? _)%X; [now apply validate_safe|].
    eapply safe_bind; [apply validate_safe, A|]. intros x _. eapply safe_bind; [apply validate_safe, A|]. intros y _.
    destruct x, y; try exact I. destruct (Quadratic.arb_lt _ _) as [[|]|]; exact I.
Qed.
Lemma root_critical fuel p prec t : critical p t -> safe (fun r => r <> None) (root o fuel p prec).
Proof.
  intros (T & Z & _). assert (A := root_safe fuel p prec). destruct (root o fuel p prec) as [r| | |] eqn:E; auto. cbn. intros ->.
  apply (root_answer o So) in E. cbn in E. now apply (E t).
Qed.
Lemma less_safe p q t u : critical p t -> critical q u -> forall fuel prec, safe (fun _ => True) (less_loop o fuel p q prec).
Proof.
  intros Cp Cq. induction fuel as [|k IH]; intros prec; [exact I|]. remember (root o (Datatypes.S k)) as R eqn:ER. cbn [less_loop].
  change (safe (fun _ => True) (do t <- root o (Datatypes.S k) p prec; do s <- root o (Datatypes.S k) q prec;
    match t, s with
    | Some t, Some s =>
      match Quadratic.arb_lt t s with
      | Some lt => Ok lt
      | None =>
        if (qa p =? rofZ 0)%X && (qa q =? rofZ 0)%X
        then if (qc p * qb q =? qc q * qb p)%X then Ok false else less_loop o k p q (2 * prec)
        else if negb (resultant p q =? rofZ 0)%X then less_loop o k p q (2 * prec) else Ok false
      end
    | _, _ => UB
    end)).
  eapply safe_bind; [apply (root_critical _ _ _ t Cp)|]. intros x X. eapply safe_bind; [apply (root_critical _ _ _ u Cq)|]. intros y Y.
  destruct x as [x|]; [|now contradiction X]. destruct y as [y|]; [|now contradiction Y].
  destruct (Quadratic.arb_lt x y); [exact I|]. destruct (_ && _); [destruct (_ =? _)%X|destruct (negb _)]; cbn; auto.
Qed.
Lemma qless_safe fuel g h t u : (g < n)%nat -> (h < n)%nat -> critical (corner g) t -> critical (corner h) u ->
  safe (fun r => r = true <-> t < u) (qless o fuel (corner g) (corner h)).
Proof.
  intros G H Cg Ch. assert (A : safe (fun _ => True) (qless o fuel (corner g) (corner h))).
  { unfold qless. destruct (multiples _ _); [exact I|]. eapply less_safe; eauto. }
  destruct (qless o fuel (corner g) (corner h)) as [r| | |] eqn:E; auto. cbn. apply (proj2 Rel fuel (corner g) (corner h) r t u); auto.
Qed.

Lemma mv_nonzero_dot t h : (h < n)%nat -> critical (corner h) t -> pdot (mv t h) (mv t (fV s h)) <> 0.
Proof.
  intros H (T & Z & _) Q. assert (HV := fV_lt n s h S H). unfold ShiftFacts.corner in Z. rewrite at_quad, !mv_get in Z.
  assert (N1 := NV t h T H). assert (N2 := NV t (fV s h) T HV). destruct (mv t h) as [a b], (mv t (fV s h)) as [c e].
  assert (P1 := pdot_pos _ N1). assert (P2 := pdot_pos _ N2). unfold pdot, pdet in *; cbn [fst snd] in *.
  assert (X : (a * a + b * b) * (c * c + e * e) = (a * c + b * e) * (a * c + b * e) + (a * e - b * c) * (a * e - b * c)) by ring.
  rewrite Q, Z in X. assert (Y := Rmult_lt_0_compat _ _ P1 P2). lra.
Qed.

Lemma hits_interior fuel : forall prec h t, (h < n)%nat -> critical (corner h) t ->
  safe (fun b => b = true <-> pdot (mv t h) (mv t (fV s h)) < 0)
    (vertex_hits_interior o approx ops fuel prec (corner h) (nth h (fvec s) vzero) (nth (fV s h) (fvec s) vzero) (nth h d vzero) (nth (fV s h) d vzero)).
Proof.
  induction fuel as [|k IH]; intros prec h t H Ct; [exact I|].
  assert (A := root_critical (Datatypes.S k) (corner h) prec t Ct). assert (E := proj1 Rel (Datatypes.S k) (corner h) prec).
  cbn [vertex_hits_interior].
  change (match k with
          | O => root o 1 (corner h) prec
          | Datatypes.S _ => root o (Datatypes.S k) (corner h) prec end) with (root o (Datatypes.S k) (corner h) prec).
  destruct (root o (Datatypes.S k) (corner h) prec) as [[[b|]|]| | |]; cbn [bind]; cbn in A; auto; [|now contradiction A].
  assert (B : within t b) by (apply (E (Some b) t); auto).
  assert (X := aorientation_sound (ops arb_precision_fast)).
  specialize (X (at_time approx ops prec b (nth h (fvec s) vzero) (nth h d vzero)) (at_time approx ops prec b (nth (fV s h) (fvec s) vzero) (nth (fV s h) d vzero)) (mv t h) (mv t (fV s h))).
  destruct (aorientation _ _ _) as [r|]; [|now apply IH].
  specialize (X r (at_time_within prec t b _ _ B) (at_time_within prec t b _ _ B) eq_refl).
  assert (N := mv_nonzero_dot t h H Ct). destruct r; cbn; auto; split; auto; try discriminate; lra.
Qed.

(** What is known about the flip that has been found when the half edges in [seen] have been considered. *)
Definition found (seen : nat -> Prop) (f : option (flip_record (K := K))) : Prop :=
  match f with
  | None => forall h, seen h -> ~ hits s d h
  | Some (hes, p) => (exists g, (g < n)%nat /\ p = corner g /\ hits s d g) /\ (forall x, In x hes -> (x < n)%nat) /\
      forall h t u, seen h -> hits s d h -> critical p t -> critical (corner h) u -> t <= u
  end.
Lemma found_more (seen : nat -> Prop) h f : found seen f -> ~ hits s d h -> found (fun x => seen x \/ x = h) f.
Proof.
  destruct f as [[hes p]|]; cbn.
  - intros (A & B & X) N. split; auto. split; auto. intros g t u [G| ->] Hg; [now apply X|contradiction].
  - intros A N g [G| ->]; auto.
Qed.

Lemma flip_step fuel seen h f : (h < n)%nat -> found seen f ->
  safe (found (fun x => seen x \/ x = h)) (find_flip_step o approx ops fuel s d sempty_set h (fV s h) f).
Proof.
  intros H F. assert (HV := fV_lt n s h S H). unfold find_flip_step. rewrite !get_v, !get_d by auto. cbn [bind]. fold (ShiftFacts.corner s d h).
  destruct (qpositive (corner h)) eqn:E.
  { cbn. apply found_more; auto. intros (t & (T & Z & _) & _). assert (Q := proj1 (qpositive_spec (corner h)) E t T). lra. }
  assert (N : exists t, critical (corner h) t).
  { assert (Q : ~ forall t, 0 <= t <= 1 -> 0 < at_ (corner h) t) by (intros Q; apply qpositive_spec in Q; congruence).
    destruct (classic_time (fun t => 0 < at_ (corner h) t)) as [X|(t & T & X)]; [contradiction|].
    destruct (critical_exists n s d S C D h t H T) as (u & _ & U); [|eauto]. rewrite <- (at_corner n s d S C D t h H). lra. }
  destruct N as (t & Ct). change (scontains sempty_set (h / 2) || scontains sempty_set (fV s h / 2)) with false. cbv iota.
  eapply safe_bind; [apply (hits_interior fuel arb_precision_fast h t); auto|]. intros b B. destruct b; cbn [negb].
  2: { cbn. apply found_more; auto. intros (u & Cu & X). assert (u = t) by (eapply critical_unique; eauto). subst u. apply B in X. discriminate. }
  assert (Hh : hits s d h) by (exists t; split; auto; now apply B). clear B.
  eapply (safe_bind (fun q : list halfedge * quad K => (exists g, (g < n)%nat /\ snd q = corner g /\ hits s d g) /\ (forall x, In x (fst q) -> (x < n)%nat) /\
    forall h' t u, seen h' \/ h' = h -> hits s d h' -> critical (snd q) t -> critical (corner h') u -> t <= u)).
  - destruct f as [[hes p]|].
    + destruct F as ((g & G & -> & Hg) & B & X). destruct Hg as (u & Cu & Hu).
      eapply safe_bind; [apply (qless_safe fuel h g t u); auto|]. intros lt L. destruct lt; cbn.
      * split; [exists h; auto|]. split; [intros x []|]. assert (L' := proj1 L eq_refl). intros h' a c [Q| ->] Hq Ca Cc.
        -- assert (u <= c) by (eapply X; eauto). assert (a = t) by (eapply critical_unique; eauto). lra.
        -- assert (a = c) by (eapply critical_unique; eauto). lra.
      * split; [exists g; split; auto; split; auto; exists u; auto|]. split; auto. intros h' a c [Q| ->] Hq Ca Cc; [eapply X; eauto|].
        assert (a = u) by (eapply critical_unique; eauto). assert (c = t) by (eapply critical_unique; eauto). subst.
        apply Rnot_lt_le. intros Q. apply L in Q. discriminate.
    + cbn. split; [exists h; auto|]. split; [intros x []|]. intros h' a c [Q| ->] Hq Ca Cc; [exfalso; eapply F; eauto|].
      assert (a = c) by (eapply critical_unique; eauto). lra.
  - intros [hes p]. cbn [fst snd]. intros ((g & G & -> & Hg) & B & X). pose proof Hg as (u & Cu & Hu).
    eapply safe_bind; [apply (qless_safe fuel g h u t); auto|]. intros gt _.
    assert (Y : forall hes, (forall x, In x hes -> (x < n)%nat) -> found (fun x => seen x \/ x = h) (Some (hes, corner g))) by (intros l Q; split; eauto).
    destruct gt; [cbn; now apply Y|]. rewrite (next_Ok n) by (auto; apply S). cbn. apply Y. intros x Q. apply in_app_or in Q as [Q|[<-|[]]]; auto.
    apply (fF_lt n s h S H).
Qed.

Lemma found_ext (A B : nat -> Prop) f : (forall x, B x -> A x) -> found A f -> found B f.
Proof. intros E. destruct f as [[hes p]|]; cbn; [intros (X & Y & Z); split; auto; split; auto; intros; eapply Z; eauto|auto]. Qed.

Lemma flip_all fuel hes : forall seen f, (forall h, In h hes -> (h < n)%nat) -> found seen f ->
  safe (found (fun x => seen x \/ In x hes)) (find_flip o approx ops fuel s d sempty_set (map (fun h => (h, fV s h)) hes) f).
Proof.
  induction hes as [|h r IH]; intros seen f H F; cbn [map find_flip].
  - cbn. eapply found_ext; [|exact F]. intros x [X|[]]; auto.
  - eapply safe_bind; [apply (flip_step fuel seen h f); auto with datatypes|]. intros g G. eapply safe_weaken; [apply (IH (fun x => seen x \/ x = h) g); auto with datatypes|].
    intros q Q. eapply found_ext; [|exact Q]. cbn. intros x [X|[X|X]]; auto.
Qed.
Lemma vertex_orbit v : In v (tverts (fT s)) -> exists k, at_vertex (fT s) v = Ok (orbit_list (fV s) (sbegin v) k) /\ period (fV s) (sbegin v) k /\
  (forall h, In h (orbit_list (fV s) (sbegin v) k) <-> (h < n)%nat /\ scontains v h = true).
Proof.
  intros I. destruct (vertex_nonempty n s v S I) as (x & Hx & Cx). destruct (sbegin_first v x Cx) as (Cb & _).
  assert (Hb := vertex_lt n s v _ S I Cb). destruct (pcycle_Ok n (tV (fT s)) (sbegin v)) as (k & _ & Pk & E); auto; [apply (wfV _ _ (fs_wf n s S))|].
  exists k. split; [exact E|]. split; auto. intros h.
  assert (PM := orbit_members n s v (sbegin v) k S I Cb Hb Pk). rewrite <- members_In. split; apply Permutation_in; auto; now symmetry.
Qed.

Lemma scan_found fuel vs : forall seen f, (forall v, In v vs -> In v (tverts (fT s))) -> found seen f ->
  safe (fun r => fst r = sempty_set /\ found (fun x => seen x \/ exists v, In v vs /\ (x < n)%nat /\ scontains v x = true) (snd r))
    (scan o approx ops fuel s d vs sempty_set f).
Proof.
  induction vs as [|v r IH]; intros seen f H F; cbn [scan].
  - cbn. split; auto. eapply found_ext; [|exact F]. intros x [X|(v & [] & _)]; auto.
  - destruct (vertex_orbit v) as (k & -> & Pk & Ik); auto with datatypes. cbn [bind].
    assert (Hk : forall h, In h (orbit_list (fV s) (sbegin v) k) -> (h < n)%nat) by (intros h Q; now apply Ik).
    rewrite collapsing_none by auto. cbn [bind]. rewrite consecutive_orbit by auto.
    eapply safe_bind; [apply (flip_all fuel _ seen f); eauto|]. intros g G. eapply safe_weaken; [apply (IH (fun x => seen x \/ In x (orbit_list (fV s) (sbegin v) k)) g); auto with datatypes|].
    intros q (Q1 & Q2). split; auto. eapply found_ext; [|exact Q2]. cbn. intros x [X|(v' & [<-|Iv] & X)]; auto.
    + left. right. now apply Ik.
    + right. eauto.
Qed.
Lemma scan_all fuel : safe (fun r => fst r = sempty_set /\ found (fun h => (h < n)%nat) (snd r)) (scan o approx ops fuel s d (tverts (fT s)) sempty_set None).
Proof.
  eapply safe_weaken; [apply (scan_found fuel (tverts (fT s)) (fun _ => False) None); [auto|cbn; intros h []]|].
  intros r (R1 & R2). split; auto. eapply found_ext; [|exact R2]. cbn. intros x X. right. destruct (vertex_of n s x S X) as (v & Iv & Cv). eauto.
Qed.
End search.
