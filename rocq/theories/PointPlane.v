(** * Points in the plane *)
From Coq Require Import ZArith Reals List Arith Bool Lia Lra Psatz Relations.
From Verif Require Import Base HalfEdge HalfEdgeFacts Perm PermSpec PermFacts PermCycles PermLemmas
  IndexedSet IndexedSetSpec IndexedSetFacts Combinatorial CombinatorialSpec CombinatorialFacts CombinatorialFlip
  CombinatorialHistory CombinatorialOps ExactReal Vector PlaneSpec Plane VectorFacts FlatTri FlatSpec FlatFacts FlatDelaunay
  Point PointSpec PointFacts PointOps PointEq PointHash.
Import ListNotations.
Local Open Scope nat_scope.

Section points.
Context {K : ExactReal}.
Variables (n : nat) (s : flat K).
Hypothesis S0 : flat_surface n s.
Hypothesis Cl : closed_surface n s.
Implicit Types (p q : point K) (h f : nat).
Let W : well_formed n (fT s) := fs_wf n s S0.
Notation F := (fF s).
Notation sp := (same_point n s).
Local Notation F_lt := (F_lt n s S0).
Local Notation FFF := (FFF n s S0).
Local Notation neg_lt := (neg_lt n s S0).
Local Notation F_ne := (F_ne n s Cl).
Local Notation FF_ne := (FF_ne n s S0 Cl).
Local Notation FF_F := (FF_F n s S0 Cl).
Local Notation F_neg := (F_neg n s S0 Cl).
Local Notation next_ok := (next_ok n s S0).
Local Notation prev_ok := (prev_ok n s S0).
Local Notation face_ok := (face_ok n s S0).
Local Notation source_ok := (source_ok n s S0).
Local Notation spread := (spread s).
Local Notation alike := (alike n s).
Local Notation touches := (touches s).
Local Open Scope R_scope.
Notation vvx h := (fst (vv s h)).
Notation vvy h := (snd (vv s h)).

Definition sum3 (w : R * R * R) : R := let '(a, b, c) := w in a + b + c.
(** The place before dividing by the sum of the weights. *)
Definition bal h (w : R * R * R) : pt := let '(a, b, c) := w in padd (pscale b (vv s h)) (pscale c (padd (vv s h) (vv s (F h)))).
Lemma place_bal h w : place s h w = pscale (1 / sum3 w) (bal h w).
Proof. destruct w as [[a b] c]. reflexivity. Qed.
Lemma bal_place h w : sum3 w <> 0 -> bal h w = pscale (sum3 w) (place s h w).
Proof.
  intros N. rewrite place_bal. destruct (bal h w) as [x y]. unfold pscale; cbn [fst snd]. f_equal; field; auto.
Qed.
Lemma weights_sum w : weights w -> 0 < sum3 w.
Proof. destruct w as [[a b] c]. unfold weights, sum3. lra. Qed.

Lemma closes h : (h < n)%nat -> vvx h + vvx (F h) + vvx (F (F h)) = 0 /\ vvy h + vvy (F h) + vvy (F (F h)) = 0.
Proof.
  intros H. destruct (fs_flat n s S0 h H (Cl h H)) as [E _]. unfold padd in E; cbn [fst snd] in E. inversion E. auto.
Qed.
Lemma area_pos h : (h < n)%nat -> 0 < pdet (vv s h) (vv s (F h)).
Proof. intros H. apply (fs_flat n s S0 h H (Cl h H)). Qed.
Lemma area_rot h : (h < n)%nat -> pdet (vv s (F h)) (vv s (F (F h))) = pdet (vv s h) (vv s (F h)).
Proof. intros H. destruct (closes h H) as [X Y]. unfold pdet. nra. Qed.
Lemma vv_neg h : (h < n)%nat -> vvx (neg h) = - vvx h /\ vvy (neg h) = - vvy h.
Proof. intros H. rewrite (fs_odd n s S0 h H). unfold pneg; cbn; auto. Qed.

Lemma den_x h : den (vx (vat' s h)) = vvx h.
Proof. reflexivity. Qed.
Lemma den_y h : den (vy (vat' s h)) = vvy h.
Proof. reflexivity. Qed.

(** ** Turning the face *)
Lemma bal_rot h a b c : (h < n)%nat -> bal (F h) (b, c, a) = padd (bal h (a, b, c)) (pscale (- (a + b + c)) (vv s h)).
Proof.
  intros H. destruct (closes h H) as [X Y]. unfold bal, padd, pscale; cbn [fst snd].
  assert (A : vvx (F (F h)) = - vvx h - vvx (F h)) by lra. assert (B : vvy (F (F h)) = - vvy h - vvy (F h)) by lra. rewrite A, B. f_equal; ring.
Qed.
Lemma place_rot h a b c : (h < n)%nat -> a + b + c <> 0 -> padd (vv s h) (place s (F h) (b, c, a)) = place s h (a, b, c).
Proof.
  intros H N. rewrite !place_bal, bal_rot by auto. destruct (bal h (a, b, c)) as [x y]. unfold padd, pscale, sum3; cbn [fst snd]. f_equal; field; lra.
Qed.
Lemma place_glue h a b : (h < n)%nat -> a + b <> 0 -> padd (vv s h) (place s (neg h) (b, a, 0)) = place s h (a, b, 0).
Proof.
  intros H N. destruct (vv_neg h H) as [X Y]. unfold place, padd, pscale; cbn [fst snd]. rewrite X, Y. f_equal; field; lra.
Qed.
Lemma place_scale h a b c r : a + b + c <> 0 -> r <> 0 -> place s h (r * a, r * b, r * c) = place s h (a, b, c).
Proof. intros N R0. unfold place, padd, pscale; cbn [fst snd]. f_equal; field; split; try lra; replace (r * a + r * b + r * c) with (r * (a + b + c)) by ring; now apply Rmult_integral_contrapositive. Qed.

(** On which side of [h] a point is. *)
Lemma place_side h a b c : a + b + c <> 0 -> pdet (vv s h) (place s h (a, b, c)) = c / (a + b + c) * pdet (vv s h) (vv s (F h)).
Proof. intros N. unfold place, pdet, padd, pscale; cbn [fst snd]. field; auto. Qed.

(** The weights are determined by the place. *)
Lemma place_unique h a b c a' b' c' : (h < n)%nat -> a + b + c <> 0 -> a' + b' + c' <> 0 -> place s h (a, b, c) = place s h (a', b', c') ->
  (a + b + c) * a' = (a' + b' + c') * a /\ (a + b + c) * b' = (a' + b' + c') * b /\ (a + b + c) * c' = (a' + b' + c') * c.
Proof.
  intros H N N' E. assert (A := area_pos h H).
  assert (C : (a + b + c) * c' = (a' + b' + c') * c).
  { apply (f_equal (pdet (vv s h))) in E. rewrite !place_side in E by auto. apply Rmult_eq_reg_r in E; [|lra].
    apply (f_equal (fun z => z * ((a + b + c) * (a' + b' + c')))) in E. field_simplify in E; lra. }
  assert (B : (a + b + c) * b' = (a' + b' + c') * b).
  { assert (D : forall a b c, a + b + c <> 0 -> pdet (place s h (a, b, c)) (padd (vv s h) (vv s (F h))) = b / (a + b + c) * pdet (vv s h) (vv s (F h))).
    { intros x y z Z. unfold place, pdet, padd, pscale; cbn [fst snd]. field; auto. }
    apply (f_equal (fun x => pdet x (padd (vv s h) (vv s (F h))))) in E. rewrite !D in E by auto. apply Rmult_eq_reg_r in E; [|lra].
    apply (f_equal (fun z => z * ((a + b + c) * (a' + b' + c')))) in E. field_simplify in E; lra. }
  split; [|split]; auto. nra.
Qed.

(** ** Functions of the model *)
Lemma barycentric_ok f v : (f < n)%nat -> exists w, barycentric s f v = Ok w /\ sum3 (tden w) = pdet (vv s f) (vv s (F f)) /\ place s f (tden w) = vden v.
Proof.
  intros H. assert (H1 := F_lt _ H). assert (H2 := F_lt _ H1). unfold barycentric. rewrite (from_ok n s S0) by auto. cbn [bind]. rewrite prev_ok by auto. cbn [bind].
  rewrite (from_ok n s S0) by auto. cbn [bind]. eexists. split; [reflexivity|].
  destruct (closes f H) as [X Y]. assert (A := area_pos f H). unfold pdet in A.
  assert (XX : vvx (F f) = - vvx f - vvx (F (F f))) by lra. assert (YY : vvy (F f) = - vvy f - vvy (F (F f))) by lra.
  unfold tden, sum3, vneg, place. cbn [vx vy]. repeat rewrite ?den_sub, ?den_add, ?den_mul, ?den_opp. rewrite !den_x, !den_y.
  unfold vden, pdet, padd, pscale; cbn [fst snd]. rewrite XX, YY in *. clear XX YY X Y. split; [ring|].
  f_equal; field; intros Z; ring_simplify in Z; lra.
Qed.

Lemma crossed_ok p : (pface p < n)%nat -> exists w, crossed s p = Ok w /\
  sum3 (tden w) = pdet (vv s (neg (pface p))) (vv s (F (neg (pface p)))) * (den (pa p) + den (pb p) + den (pc p)) /\
  (den (pa p) + den (pb p) + den (pc p) <> 0 ->
   padd (vv s (pface p)) (place s (neg (pface p)) (tden w)) = place s (pface p) (den (pa p), den (pb p), den (pc p))).
Proof.
  intros H. assert (H1 := F_lt _ H). assert (Hn := neg_lt _ H). assert (Hn1 := F_lt _ Hn). assert (Hn2 := F_lt _ Hn1).
  unfold crossed. rewrite next_ok by auto. cbn [bind]. rewrite (from_ok n s S0) by auto. cbn [bind]. rewrite prev_ok by auto. cbn [bind].
  rewrite (from_ok n s S0) by auto. cbn [bind]. rewrite next_ok by auto. cbn [bind]. rewrite (from_ok n s S0) by auto. cbn [bind].
  eexists. split; [reflexivity|].
  destruct (closes (neg (pface p)) Hn) as [X Y]. assert (A := area_pos (neg (pface p)) Hn). unfold pdet in A. destruct (vv_neg (pface p) H) as [NX NY].
  unfold tden, sum3, vneg, vadd, place. cbn [vx vy]. repeat rewrite ?den_sub, ?den_add, ?den_mul, ?den_opp. rewrite !den_x, !den_y.
  unfold pdet, padd, pscale; cbn [fst snd]. rewrite NX, NY in *.
  assert (XX : vvx (F (neg (pface p))) = vvx (pface p) - vvx (F (F (neg (pface p))))) by lra.
  assert (YY : vvy (F (neg (pface p))) = vvy (pface p) - vvy (F (F (neg (pface p))))) by lra.
  rewrite XX, YY in *. clear XX YY NX NY X Y. clear H H1 Hn Hn1 Hn2.
  set (a := den (pa p)). set (b := den (pb p)). set (c := den (pc p)). clearbody a b c.
  set (x := vvx (pface p)) in *. set (y := vvy (pface p)) in *. set (x' := vvx (F (F (neg (pface p))))) in *. set (y' := vvy (F (F (neg (pface p))))) in *.
  set (u := vvx (F (pface p))). set (v := vvy (F (pface p))). clearbody x y x' y' u v.
  split; [ring|]. intros N.
  assert (D : y' * x - x' * y <> 0) by lra.
  f_equal; field; (split; [exact N|]); intros Z.
  all: apply (Rmult_integral_contrapositive_currified _ _ D N); rewrite <- Z; ring.
Qed.

Variable truediv : K -> K -> option K.
Hypothesis Dv : exact_division truediv.
Local Notation cartesian := (cartesian truediv).

(** The result of [cartesian]. *)
Lemma cartesian_ok p : (pface p < n)%nat -> den (pa p) + den (pb p) + den (pc p) <> 0 ->
  (exists v, cartesian s p = Ok v /\ vden v = place s (pface p) (den (pa p), den (pb p), den (pc p))) \/
  (cartesian s p = Throw /\ forall v : vec K, vden v <> place s (pface p) (den (pa p), den (pb p), den (pc p))).
Proof.
  intros H N. assert (H1 := F_lt _ H). assert (H2 := F_lt _ H1).
  unfold Point.cartesian. rewrite prev_ok by auto. cbn [bind]. rewrite !(from_ok n s S0) by auto. cbn [bind].
  set (xy := vadd _ _). set (abc := (pa p + pb p + pc p)%X).
  assert (Da : den abc = den (pa p) + den (pb p) + den (pc p)) by (unfold abc; now rewrite !den_add).
  destruct (closes (pface p) H) as [X Y].
  assert (Dx : den (vx xy) = den abc * fst (place s (pface p) (den (pa p), den (pb p), den (pc p)))).
  { unfold xy, vadd, vscale, vneg. cbn [vx vy]. rewrite !den_add, !den_mul, !den_opp, !den_x, Da. unfold place, padd, pscale; cbn [fst snd].
    replace (vvx (F (F (pface p)))) with (- vvx (pface p) - vvx (F (pface p))) by lra. field; auto. }
  assert (Dy : den (vy xy) = den abc * snd (place s (pface p) (den (pa p), den (pb p), den (pc p)))).
  { unfold xy, vadd, vscale, vneg. cbn [vx vy]. rewrite !den_add, !den_mul, !den_opp, !den_y, Da. unfold place, padd, pscale; cbn [fst snd].
    replace (vvy (F (F (pface p)))) with (- vvy (pface p) - vvy (F (pface p))) by lra. field; auto. }
  rewrite <- Da in N. destruct (place s (pface p) (den (pa p), den (pb p), den (pc p))) as [px py]. cbn [fst snd] in Dx, Dy.
  pose proof (Dv (vx xy) abc N) as Qx. pose proof (Dv (vy xy) abc N) as Qy.
  destruct (truediv (vx xy) abc) as [x|]; [destruct (truediv (vy xy) abc) as [y|]|].
  - left. eexists. split; [reflexivity|]. unfold vden; cbn [vx vy]. f_equal; apply (Rmult_eq_reg_r (den abc)); auto; lra.
  - right. split; auto. intros v E. apply (Qy (vy v)). unfold vden in E. injection E as _ E. rewrite E, Dy. ring.
  - right. split; auto. intros v E. apply (Qx (vx v)). unfold vden in E. injection E as E _. rewrite E, Dx. ring.
Qed.

(** [vector] *)
Lemma vector_ok p f : normal n p -> (f < n)%nat -> touches p f -> exists w, weights w /\ sp (f, w) (location p) /\
  ((exists v, point_vector truediv s p f = Ok v /\ vden v = place s f w) \/
   (point_vector truediv s p f = Throw /\ forall v : vec K, vden v <> place s f w)).
Proof.
  intros N Hf T. destruct (coordinates_ok n s S0 Cl p f N Hf T) as (w & E & Q & R). exists (tden w). split; auto. split; auto.
  unfold point_vector. rewrite E. cbn [bind]. destruct w as [[a b] c]. apply (cartesian_ok (mkPoint f a b c)); auto.
  cbn. assert (Z := weights_sum _ Q). unfold tden, sum3 in Z. lra.
Qed.

(** A corner or a side of the face. *)
Lemma sector_face f (v : vec K) : (f < n)%nat -> (exists w, weights w /\ place s f w = vden v) ->
  0 <= pdet (vv s f) (vden v) /\ pdet (vv s (fV s f)) (vden v) <= 0.
Proof.
  intros H ([[a b] c] & Q & E). assert (A := area_pos f H). assert (Z := weights_sum _ Q). unfold sum3 in Z. rewrite <- E.
  rewrite place_side by lra. split.
  - apply Rmult_le_pos; [|lra]. apply Rmult_le_pos; [apply Q|]. apply Rlt_le. now apply Rinv_0_lt_compat.
  - unfold fV. rewrite (nV_link' n _ W) by (auto; now apply Cl). change (nF (fT s)) with F.
    assert (H1 := F_lt _ H). assert (H2 := F_lt _ H1). destruct (vv_neg _ H2) as [X Y]. destruct (closes f H) as [X' Y'].
    assert (D : pdet (vv s (neg (F (F f)))) (place s f (a, b, c)) = - (b / (a + b + c) * pdet (vv s f) (vv s (F f)))).
    { unfold pdet at 1. rewrite X, Y. replace (vvx (F (F f))) with (- vvx f - vvx (F f)) by lra. replace (vvy (F (F f))) with (- vvy f - vvy (F f)) by lra.
      unfold place, pdet, padd, pscale; cbn [fst snd]. field; lra. }
    rewrite D. assert (0 <= b / (a + b + c)). { apply Rmult_le_pos; [apply Q|]. apply Rlt_le. now apply Rinv_0_lt_compat. } nra.
Qed.

(** Placing a point in a face. *)
Lemma place_point f (v : vec K) : (f < n)%nat -> (exists w, weights w /\ place s f w = vden v) ->
  exists a b c, barycentric s f v = Ok (a, b, c) /\ weights (den a, den b, den c) /\ place s f (den a, den b, den c) = vden v.
Proof.
  intros H ([[a' b'] c'] & Q & E). destruct (barycentric_ok f v H) as ([[a b] c] & Eb & Sb & Pb). exists a, b, c. split; auto.
  assert (A := area_pos f H). rewrite <- Sb in A. unfold tden, sum3 in A, Pb. split; auto.
  assert (Z := weights_sum _ Q). unfold sum3 in Z.
  destruct (place_unique f a' b' c' (den a) (den b) (den c)) as (X1 & X2 & X3); auto; try lra. { now rewrite E. }
  destruct (proportional a' b' c' (den a) (den b) (den c)) as (r & Hr & -> & -> & ->); auto. unfold weights in *.
  repeat split; try (apply Rmult_le_pos; lra); nra.
Qed.

Lemma place_turned f a b c p : (f < n)%nat -> weights (den a, den b, den c) -> turned s (mkPoint f a b c) p -> normal n p ->
  coordinates s p f = Ok (a, b, c).
Proof.
  intros H Q T N. pose proof N as (Hp & _). assert (H1 := F_lt _ H). assert (H2 := F_lt _ H1).
  unfold coordinates. destruct (in_ok n s S0 Cl p f N H) as (i & E & I). rewrite E. cbn [bind].
  assert (Tf := turned_face s _ _ T). cbn [pface] in Tf.
  assert (i = true) as -> by (apply I; unfold PointOps.touches; auto). cbn [negb]. rewrite face_ok by auto. cbn [bind].
  assert (X : existsb (Nat.eqb (pface p)) [f; F f; F (F f)] = true) by now apply existsb_face. rewrite X.
  destruct T as [->|[->| ->]].
  - apply (rotated_0 s (mkPoint f a b c)).
  - assert (Y := rotated_2 n s S0 Cl (mkPoint (F f) b c a)). cbn [pface pa pb pc] in Y. rewrite FFF in Y by auto. apply Y; auto.
  - assert (Y := rotated_1 n s S0 Cl (mkPoint (F (F f)) c a b)). cbn [pface pa pb pc] in Y. rewrite FFF in Y by auto. apply Y; auto.
Qed.

Lemma vadd_den (v w : vec K) : vden (vadd v w) = padd (vden v) (vden w).
Proof. unfold vden, vadd, padd; cbn [vx vy fst snd]. now rewrite !den_add. Qed.

(** The constructor from a vector in the face. *)
Lemma make_point_vector_ok f (v : vec K) : (f < n)%nat -> (exists w, weights w /\ place s f w = vden v) ->
  exists p, make_point_vector truediv s f v = Ok (Some p) /\ normal n p /\
    (exists w, weights w /\ place s f w = vden v /\ sp (f, w) (location p)) /\
    exists v', point_vector truediv s p f = Ok v' /\ vden v' = vden v.
Proof.
  intros H Ex. destruct (sector_face f v H Ex) as [S1 S2]. unfold make_point_vector, translate, face_for. cbn [pface pa pb pc].
  assert (Z : nz (rofZ 0 : K) = false) by (apply nz_false, den_ofZ). rewrite Z. rewrite (from_ok n s S0) by auto. cbn [bind].
  pose proof (ccw_cases (vat' s f) v) as C1. change (vden (vat' s f)) with (vv s f) in C1.
  rewrite (nextV_Ok n) by (auto; exact W). cbn [bind].
  assert (Hv : (nV (fT s) f < n)%nat) by now apply (nV_lt n _ W).
  rewrite (from_ok n s S0 _ Hv). cbn [bind]. pose proof (ccw_cases (vat' s (nV (fT s) f)) v) as C2. change (vden (vat' s (nV (fT s) f))) with (vv s (fV s f)) in C2.
  assert (E1 : (match ccw (vat' s f) v with CLOCKWISE => Throw | _ => match ccw (vat' s (nV (fT s) f)) v with COUNTERCLOCKWISE => Throw | _ => Ok (mkPoint f (rofZ 1) (rofZ 0) (rofZ 0)) end end)
    = Ok (mkPoint f (rofZ 1) (rofZ 0) (rofZ 0) : point K)).
  { destruct (ccw (vat' s f) v); [| |lra]; destruct (ccw (vat' s (nV (fT s) f)) v); auto; lra. }
  rewrite E1. cbn [bind]. clear E1 C1 C2.
  destruct (cartesian_ok (mkPoint f (rofZ 1) (rofZ 0) (rofZ 0))) as [(v0 & E0 & P0)|(_ & X)]; auto.
  { cbn [pa pb pc]. rewrite !den_ofZ. lra. }
  2:{ exfalso. apply (X vzero). cbn [pface pa pb pc]. rewrite !den_ofZ. unfold vzero, vden, place, padd, pscale; cbn [fst snd vx vy]. rewrite !den_ofZ. f_equal; field. }
  rewrite E0. cbn [bind pface]. cbn [pface pa pb pc] in P0. rewrite !den_ofZ in P0.
  assert (Pv : vden (vadd v0 v) = vden v).
  { rewrite vadd_den, P0. unfold place, padd, pscale, vden; cbn [fst snd]. f_equal; field. }
  destruct (place_point f (vadd v0 v) H) as (a & b & c & Eb & Q & Pl). { now rewrite Pv. }
  rewrite Eb. cbn [bind]. assert (Na : nonneg a = true) by (apply nonneg_spec, Q). assert (Nb : nonneg b = true) by (apply nonneg_spec, Q). assert (Nc : nonneg c = true) by (apply nonneg_spec, Q).
  rewrite Na, Nb, Nc. cbn [andb].
  destruct (normalize_ok n s S0 Cl (mkPoint f a b c) H Q) as (p & Ep & N & T). rewrite Ep. cbn [bind].
  rewrite (normalize_normal n s S0 Cl p N). cbn [bind]. exists p. split; auto. split; auto. split.
  - exists (den a, den b, den c). split; auto. split; [now rewrite Pl, Pv|]. apply (turned_sp n s S0 (mkPoint f a b c) p); auto.
  - unfold point_vector. rewrite (place_turned f a b c p) by auto. cbn [bind at_face].
    destruct (cartesian_ok (mkPoint f a b c)) as [(v' & E' & P')|(_ & X)]; auto. { cbn. assert (Y := weights_sum _ Q). unfold sum3 in Y. lra. }
    + exists v'. split; auto. cbn [pface pa pb pc] in P'. now rewrite P', Pl, Pv.
    + exfalso. apply (X v). cbn [pface pa pb pc]. now rewrite Pl, Pv.
Qed.

(** Translations that stay in a face. *)
Lemma translate_ok p d q : normal n p -> translate truediv s p d = Ok (Some q) ->
  normal n q /\ exists f w w', weights w /\ weights w' /\ sp (f, w) (location p) /\ sp (f, w') (location q) /\ place s f w' = padd (place s f w) (vden d).
Proof.
  intros N E. unfold translate in E. destruct (face_for s p d) as [p'| | |] eqn:Ef; try discriminate. cbn [bind] in E.
  pose proof N as (H & A & B & C & D).
  assert (P : sp (location p') (location p) /\ (pface p' < n)%nat /\ pweights p').
  { unfold face_for in Ef. destruct (nz (pc p)) eqn:Ec; [inv Ef; split; [apply sp_refl|split; [auto|now apply (normal_weights n)]]|].
    apply nz_false in Ec. destruct (nz (pb p)) eqn:Eb.
    - rewrite (from_ok n s S0) in Ef by auto. cbn [bind] in Ef.
      destruct (ccw (vat' s (pface p)) d); inv Ef; try (split; [apply sp_refl|split; [auto|now apply (normal_weights n)]]).
      unfold pweights, location. cbn [pface pa pb pc]. split; [|split; [now apply neg_lt|unfold weights; lra]].
      apply sp_sym. rewrite Ec. apply sp_glue; auto. unfold weights. lra.
    - rewrite (from_ok n s S0), (nextV_Ok n) in Ef by (auto; exact W). cbn [bind] in Ef.
      destruct (ccw (vat' s (pface p)) d); try discriminate; (rewrite (from_ok n s S0) in Ef by now apply (nV_lt n _ W)); cbn [bind] in Ef;
        destruct (ccw (vat' s (nV (fT s) (pface p))) d); inv Ef; (split; [apply sp_refl|split; [auto|now apply (normal_weights n)]]). }
  destruct P as (P1 & P2 & P3). assert (Z := weights_sum _ P3). unfold sum3 in Z.
  destruct (cartesian_ok p' P2) as [(v & Ev & Pv)|(Ev & _)]; [lra| |rewrite Ev in E; discriminate]. rewrite Ev in E. cbn [bind] in E.
  destruct (barycentric_ok (pface p') (vadd v d) P2) as ([[a b] c] & Eb & Sb & Pb). rewrite Eb in E. cbn [bind] in E.
  destruct (nonneg a && nonneg b && nonneg c) eqn:Nn; [|discriminate].
  apply andb_true_iff in Nn as [Nn Nc]. apply andb_true_iff in Nn as [Na Nb]. apply nonneg_spec in Na, Nb, Nc.
  assert (Ar := area_pos _ P2). rewrite <- Sb in Ar. unfold tden, sum3 in Ar.
  assert (Q : weights (den a, den b, den c)) by (unfold weights; lra).
  destruct (normalize_ok n s S0 Cl (mkPoint (pface p') a b c) P2 Q) as (q' & Eq & Nq & Tq). rewrite Eq in E. cbn [bind] in E. inv E.
  split; auto. exists (pface p'), (den (pa p'), den (pb p'), den (pc p')), (den a, den b, den c). split; [exact P3|]. split; [exact Q|]. split; [exact P1|].
  split; [apply (turned_sp n s S0 (mkPoint (pface p') a b c)); auto|]. unfold tden in Pb. now rewrite Pb, vadd_den, Pv.
Qed.
End points.
