(** * Lemmas about chains *)
From Coq Require Import ZArith QArith Qreals Reals List Arith Bool Lia Lra.
From Verif Require Import Base HalfEdge HalfEdgeFacts Perm Combinatorial CombinatorialSpec CombinatorialFacts CombinatorialOps ExactReal Vector Arb PlaneSpec Plane VectorFacts ArbFacts
  FlatTri FlatSpec FlatFacts Chain ChainSpec.
Import ListNotations.
Local Open Scope nat_scope.

Lemma psum_ext {A} (f g : A -> pt) l : (forall x, In x l -> f x = g x) -> psum (map f l) = psum (map g l).
Proof. induction l as [|a l IH]; cbn; intros H; auto. rewrite H, IH; auto. Qed.
Lemma psum_add {A} (f g : A -> pt) l : psum (map (fun x => padd (f x) (g x)) l) = padd (psum (map f l)) (psum (map g l)).
Proof. induction l as [|a l IH]; cbn. { unfold padd; cbn. f_equal; lra. } rewrite IH. unfold padd; cbn. f_equal; lra. Qed.
Lemma psum_scale {A} c (f : A -> pt) l : psum (map (fun x => pscale c (f x)) l) = pscale c (psum (map f l)).
Proof. induction l as [|a l IH]; cbn. { unfold pscale; cbn. f_equal; lra. } rewrite IH. unfold pscale, padd; cbn. f_equal; lra. Qed.
Lemma psum_zero {A} (f : A -> pt) l : (forall x, In x l -> f x = (0, 0)%R) -> psum (map f l) = (0, 0)%R.
Proof. induction l as [|a l IH]; cbn; intros H; auto. rewrite H, IH by auto. unfold padd; cbn. f_equal; lra. Qed.
Lemma psum_single (f : nat -> pt) i l : NoDup l -> In i l -> (forall x, In x l -> x <> i -> f x = (0, 0)%R) -> psum (map f l) = f i.
Proof.
  induction 1 as [|a l Na N IH]; cbn; intros J H; [contradiction|]. destruct (Nat.eq_dec a i) as [->|Ne].
  - rewrite psum_zero. { unfold padd; cbn. destruct (f i); cbn; f_equal; lra. } intros x Jx. apply H; auto. intros ->. contradiction.
  - rewrite H by auto. destruct J as [J|J]; [congruence|]. rewrite IH; auto. unfold padd; cbn. destruct (f i); cbn; f_equal; lra.
Qed.

Lemma Forall2_nth {A B} (P : A -> B -> Prop) l r i d e : Forall2 P l r -> i < length l -> P (nth i l d) (nth i r e).
Proof. intros F. revert i. induction F; intros [|i] L; cbn in *; try lia; auto. apply IHF. lia. Qed.
Lemma Forall2_len {A B} (P : A -> B -> Prop) l r : Forall2 P l r -> length l = length r.
Proof. induction 1; cbn; auto. Qed.
Lemma Forall2_upd {A B} (P : A -> B -> Prop) l r i x y : Forall2 P l r -> P x y -> Forall2 P (upd l i x) (upd r i y).
Proof. intros F H. revert i. induction F; intros [|i]; cbn; constructor; auto. Qed.
Lemma Forall2_upd_l {A B} (P : A -> B -> Prop) l r i x e : Forall2 P l r -> i < length l -> P x (nth i r e) -> Forall2 P (upd l i x) r.
Proof. intros F. revert i. induction F; intros [|i] L Px; cbn in *; try lia; constructor; auto. apply IHF; auto. lia. Qed.
Lemma map_upd {A B} (f : A -> B) l i x : map f (upd l i x) = upd (map f l) i (f x).
Proof. revert i. induction l as [|a l IH]; intros [|i]; cbn; auto. now rewrite IH. Qed.
Lemma upd_same {A} (l : list A) i d : i < length l -> upd l i (nth i l d) = l.
Proof. revert i. induction l as [|a l IH]; intros [|i] L; cbn in *; try lia; auto. rewrite IH; auto. lia. Qed.
Lemma upd_upd {A} (l : list A) i x y : upd (upd l i x) i y = upd l i y.
Proof. revert i. induction l as [|a l IH]; intros [|i]; cbn; auto. now rewrite IH. Qed.
Lemma map_upd_same {A B} (f : A -> B) l i x d : i < length l -> f x = f (nth i l d) -> map f (upd l i x) = map f l.
Proof. intros L E. rewrite map_upd, E, <- (map_nth f). apply upd_same. now rewrite map_length. Qed.

(** ** FLINT integers *)
(** The invariant: zero is never stored as an mpz. *)
Definition fok (f : fmpz) : Prop := f <> Big 0.
Lemma fval_normalize z : fval (normalize z) = z.
Proof. unfold normalize. destruct (_ <=? _)%Z; auto. Qed.
Lemma fok_normalize z : fok (normalize z).
Proof. unfold normalize, fok. destruct (Z.leb_spec (Z.abs z) coeff_max); [discriminate|]. intros E. inversion E. subst. unfold coeff_max in *. cbn in *. lia. Qed.
Lemma fmpz_is_zero_spec f : fok f -> (fmpz_is_zero f = true <-> fval f = 0%Z).
Proof. intros H. destruct f as [z|z]; cbn. apply Z.eqb_eq. split; [discriminate|]. intros ->. now destruct H. Qed.
Lemma fmpz_mul_val f c : fok f -> fval (fmpz_mul f c) = (c * fval f)%Z /\ fok (fmpz_mul f c).
Proof.
  intros H. destruct f as [z|z]; cbn; [rewrite fval_normalize; split; [lia|apply fok_normalize]|].
  destruct (Z.eqb_spec c 0) as [->|N]; cbn; [split; [lia|discriminate]|]. split; [lia|]. intros E. inversion E as [E']. apply Z.mul_eq_0 in E' as [->|]; [now destruct H|contradiction].
Qed.

(** The coefficients represent [a]. *)
Definition cinv (m : nat) (cs : list fmpz) (a : coeffs) : Prop :=
  length cs = m /\ forall i, i < m -> fok (nth i cs (Small 0)) /\ fval (nth i cs (Small 0)) = a i.
Lemma cinv_ext m cs a b : cinv m cs a -> (forall i, i < m -> a i = b i) -> cinv m cs b.
Proof. intros [L H] E. split; auto. intros i Hi. destruct (H i Hi). rewrite <- E; auto. Qed.

Lemma vec_op_Ok m cs ds a b (op : fmpz -> fmpz -> fmpz) (g : Z -> Z -> Z) : cinv m cs a -> cinv m ds b ->
  (forall x y, fok (op x y) /\ fval (op x y) = g (fval x) (fval y)) ->
  exists rs, vec_op op cs ds = Ok rs /\ cinv m rs (fun i => g (a i) (b i)).
Proof.
  intros [L1 H1] [L2 H2] H.
  assert (G : forall cs ds, length cs = length ds -> exists rs, vec_op op cs ds = Ok rs /\ length rs = length cs /\
    forall i, i < length cs -> nth i rs (Small 0) = op (nth i cs (Small 0)) (nth i ds (Small 0))).
  { clear. induction cs as [|x cs IH]; intros [|y ds] L; cbn in *; try lia.
    - exists []. repeat split; auto. intros; lia.
    - destruct (IH ds) as (rs & -> & Lr & Hr); [lia|]. cbn. exists (op x y :: rs). split; auto. split; [cbn; lia|].
      intros [|i] Hi; cbn; auto. apply Hr. lia. }
  destruct (G cs ds) as (rs & E & L & N); [lia|]. exists rs. split; auto. split; [lia|]. intros i Hi. rewrite N by lia.
  destruct (H (nth i cs (Small 0)) (nth i ds (Small 0))) as [F V]. split; auto. rewrite V. destruct (H1 i Hi) as [_ ->]. destruct (H2 i Hi) as [_ ->]. auto.
Qed.

Lemma fmpz_add_spec x y : fok (fmpz_add x y) /\ fval (fmpz_add x y) = (fval x + fval y)%Z.
Proof. unfold fmpz_add. split; [apply fok_normalize|apply fval_normalize]. Qed.
Lemma fmpz_sub_spec x y : fok (fmpz_sub x y) /\ fval (fmpz_sub x y) = (fval x - fval y)%Z.
Proof. unfold fmpz_sub. split; [apply fok_normalize|apply fval_normalize]. Qed.

Lemma cinv_upd m cs a i f b : cinv m cs a -> i < m -> fok f -> fval f = b i -> (forall j, j < m -> j <> i -> b j = a j) -> cinv m (upd cs i f) b.
Proof.
  intros [L H] Hi Ff Fv E. split; [now rewrite upd_length|]. intros j Hj. rewrite nth_upd by lia.
  destruct (Nat.eqb_spec j i) as [->|Ne]; auto. rewrite E by auto. auto.
Qed.

Lemma single_neg h i : single (neg h) i = (- single h i)%Z.
Proof.
  unfold single. rewrite neg_div2. destruct (he_cases h) as (k & [->| ->]).
  - rewrite neg_even, Nat.even_succ, <- Nat.negb_even, !Nat.even_mul. cbn. now destruct (i =? _).
  - rewrite neg_odd, Nat.even_succ, <- Nat.negb_even, !Nat.even_mul. cbn [Nat.even orb negb]. now destruct (i =? _).
Qed.

Section chains.
Variable A : ArbOps.
Context {K : ExactReal}.
Variable arb : K -> ball.
Hypothesis arb_sound : forall x, within (den x) (arb x).
Variable C : costs.
Variable n : nat.
Variable s : flat K.
Hypothesis S : flat_surface n s.
Local Notation m := (n / 2).
Local Notation chain := (@chain K).
Local Notation cv := (chain_vector n s).

Lemma size_m : chain_size s = m.
Proof. unfold chain_size. now rewrite (wf_size n _ (fs_wf n s S)). Qed.
Lemma n_even : n = 2 * m.
Proof. destruct (wf_even _ _ (fs_wf n s S)) as (k & ->). now rewrite div2_even. Qed.
Lemma half_lt h : h < n -> h / 2 < m.
Proof. intros Hh. apply Nat.div_lt_upper_bound; [lia|]. rewrite <- n_even. auto. Qed.
Lemma he_Ok h : h < n -> from_he s h = Ok (nth h (fvec s) vzero).
Proof. intros Hh. apply vget_nth. now rewrite (fs_length n s S). Qed.

Lemma cv_ext a b : (forall i, i < m -> a i = b i) -> cv a = cv b.
Proof. intros E. apply psum_ext. intros i J. apply in_seq in J. rewrite E; auto. lia. Qed.
Lemma cv_zero : cv czero = (0, 0)%R.
Proof. apply psum_zero. intros i _. unfold pscale, czero; cbn [fst snd]. f_equal; lra. Qed.
Lemma cvec_add a b : cv (fun i => a i + b i)%Z = padd (cv a) (cv b).
Proof. unfold chain_vector. rewrite <- psum_add. apply psum_ext. intros i _. rewrite plus_IZR. unfold padd, pscale; cbn [fst snd]. f_equal; lra. Qed.
Lemma cvec_sub a b : cv (fun i => a i - b i)%Z = padd (cv a) (pneg (cv b)).
Proof.
  replace (pneg (cv b)) with (pscale (-1) (cv b)) by (unfold pscale, pneg; f_equal; lra).
  unfold chain_vector. rewrite <- psum_scale, <- psum_add. apply psum_ext. intros i _. rewrite minus_IZR. unfold padd, pscale; cbn [fst snd]. f_equal; lra.
Qed.
Lemma cv_single h : h < n -> cv (single h) = vv s h.
Proof.
  intros Hh. unfold chain_vector. rewrite (psum_single _ (h / 2)).
  - unfold single. rewrite Nat.eqb_refl. destruct (he_cases h) as (k & [->| ->]).
    + rewrite div2_even, Nat.even_mul. cbn. unfold pscale. destruct (vv s _); cbn [fst snd]; f_equal; lra.
    + rewrite div2_odd, Nat.even_succ, <- Nat.negb_even, Nat.even_mul. cbn [orb negb Nat.even].
      replace (Datatypes.S (2 * k)) with (neg (2 * k)) by apply neg_even. rewrite (fs_odd n s S) by lia.
      unfold pscale, pneg. destruct (vv s _); cbn [fst snd]; f_equal; lra.
  - apply seq_NoDup.
  - apply in_seq. split; [lia|]. now apply half_lt.
  - intros x _ Ne. unfold single. apply Nat.eqb_neq in Ne. rewrite Ne. unfold pscale; cbn [fst snd]. f_equal; lra.
Qed.

(** ** Reading *)
Definition exact_val (x : cvec (vec K)) : option (vec K) := option_map (fun v => apply_pending vadd vsub v (cpend x)) (cval x).
Definition approx_val (x : cvec avec) : option avec := option_map (fun v => apply_pending (avadd A) (avsub A) v (cpend x)) (cval x).
Definition einv (x : cvec (vec K)) (a : coeffs) : Prop := forall v, exact_val x = Some v -> vden v = cv a.
Definition ainv (x : cvec avec) (a : coeffs) : Prop := forall v, approx_val x = Some v -> pwithin (cv a) v.

Lemma einv_none a : einv cv_none a.
Proof. intros v E. discriminate. Qed.
Lemma ainv_none a : ainv cv_none a.
Proof. intros v E. discriminate. Qed.
Lemma einv_value v a : vden v = cv a -> einv (cv_value v) a.
Proof. intros E w H. inversion H. now subst. Qed.
Lemma ainv_value v a : pwithin (cv a) v -> ainv (cv_value v) a.
Proof. intros E w H. inversion H. now subst. Qed.
Lemma einv_ext x a b : einv x a -> (forall i, i < m -> a i = b i) -> einv x b.
Proof. intros H E v Ev. rewrite (H v Ev). now apply cv_ext. Qed.
Lemma ainv_ext x a b : ainv x a -> (forall i, i < m -> a i = b i) -> ainv x b.
Proof. intros H E v Ev. rewrite <- (cv_ext a b E). now apply H. Qed.

Lemma avadd_sound v w p q : pwithin p v -> pwithin q w -> pwithin (padd p q) (avadd A v w).
Proof. intros [H1 H2] [H3 H4]. split; cbn; now apply aadd_sound. Qed.
Lemma aneg_sound x b : within x b -> within (- x) (aneg b).
Proof. unfold within. rewrite !Q2R_lo, !Q2R_hi. cbn. rewrite Q2R_opp. lra. Qed.
Lemma avsub_sound v w p q : pwithin p v -> pwithin q w -> pwithin (padd p (pneg q)) (avsub A v w).
Proof. intros H1 [H2 H3]. apply avadd_sound; auto. split; cbn; now apply aneg_sound. Qed.
Lemma vden_vsub (v w : vec K) : vden (vsub v w) = padd (vden v) (pneg (vden w)).
Proof. unfold vsub. now rewrite vden_add, vden_neg. Qed.

Lemma pending_app {V} (add sub : V -> V -> V) v l x : apply_pending add sub v (l ++ [x]) = (if fst x then add else sub) (apply_pending add sub v l) (snd x).
Proof. unfold apply_pending. rewrite fold_left_app. cbn. now destruct (fst x). Qed.

(** Adding a vector to a cache. *)
Implicit Types c : chain.

Lemma coefficient_Ok c a i : cinv m (coefs c) a -> i < m ->
  exists c' : chain, coefficient c i = Ok (c', if (a i =? 0)%Z then None else Some (a i)) /\ cinv m (coefs c') a /\ cexact c' = cexact c /\ capprox c' = capprox c.
Proof.
  intros I Hi. destruct (I) as [L H]. unfold coefficient. rewrite (vget_nth _ i (Small 0)) by lia. cbn [bind]. destruct (H i Hi) as [F V].
  pose proof (fmpz_is_zero_spec _ F) as Z. rewrite V in Z. destruct (fmpz_is_zero _).
  - replace (a i =? 0)%Z with true by (symmetry; apply Z.eqb_eq; now apply Z). eauto.
  - destruct (Z.eqb_spec (a i) 0) as [Q|Q]; [apply Z in Q; discriminate|]. rewrite V. eexists. split; [reflexivity|]. split; auto. cbn.
    apply (cinv_upd m (coefs c) a); auto. unfold fok, fmpz_promote. rewrite V. congruence.
Qed.

Lemma exact_loop_Ok a es : forall (c : chain) v, cinv m (coefs c) a -> (forall e, In e es -> e < n) ->
  exists (c' : chain) w, exact_loop s c es v = Ok (c', w) /\ cinv m (coefs c') a /\
    vden w = padd (vden v) (psum (map (fun e => pscale (IZR (a (e / 2))) (vv s e)) es)).
Proof.
  induction es as [|e es IH]; intros c v I H; cbn [exact_loop map psum].
  - exists c, v. split; auto. split; auto. unfold padd; destruct (vden v); cbn [fst snd]; f_equal; lra.
  - assert (He : e < n) by auto with datatypes. destruct (coefficient_Ok c a (e / 2) I (half_lt e He)) as (c' & -> & I' & _). cbn [bind].
    destruct (Z.eqb_spec (a (e / 2)) 0) as [Z|Z].
    + destruct (IH c' v I') as (c2 & w & E & I2 & V); auto with datatypes. exists c2, w. split; auto. split; auto. rewrite V, Z.
      unfold padd, pscale; cbn [fst snd]. f_equal; lra.
    + unfold positive. rewrite he_Ok by auto. cbn [bind].
      destruct (IH c' (vadd v (vscaleZ (a (e / 2)) (nth e (fvec s) vzero))) I') as (c2 & w & E & I2 & V); auto with datatypes.
      exists c2, w. split; auto. split; auto. rewrite V, vden_add, vden_scaleZ. fold (vv s e). unfold padd, pscale; cbn [fst snd]. f_equal; lra.
Qed.

Lemma edges_m : edges (fT s) = map (fun i => 2 * i) (seq 0 m).
Proof. unfold edges. now rewrite (wf_size n _ (fs_wf n s S)). Qed.

Lemma read_exact_Ok c a : cinv m (coefs c) a ->
  exists (c' : chain) v, read_exact arb s c = Ok (c', v) /\ cinv m (coefs c') a /\ cexact c' = cv_value v /\
    (einv (cexact c) a -> vden v = cv a) /\ (einv (cexact c) a -> ainv (capprox c) a -> ainv (capprox c') a) /\
    (cval (cexact c) <> None -> coefs c' = coefs c /\ capprox c' = capprox c) /\ (cval (cexact c) = None -> cpend (capprox c') = []).
Proof.
  intros I. unfold read_exact. destruct (cval (cexact c)) as [v|] eqn:Ev.
  - do 2 eexists. split; [reflexivity|]. split; auto. cbn. unfold flush. rewrite Ev. split; auto. split.
    + intros H. apply H. unfold exact_val. now rewrite Ev.
    + split; auto. split; [auto|congruence].
  - destruct (exact_loop_Ok a (edges (fT s)) c vzero I) as (c' & v & -> & I' & V).
    { intros e J. rewrite edges_m in J. apply in_map_iff in J as (i & <- & J). apply in_seq in J. pose proof n_even. lia. }
    cbn [bind]. do 2 eexists. split; [reflexivity|]. split; auto. cbn. split; auto.
    assert (Q : vden v = cv a).
    { assert (Q : psum (map (fun e => pscale (IZR (a (e / 2))) (vv s e)) (edges (fT s))) = cv a).
      { rewrite edges_m, map_map. apply psum_ext. intros i _. now rewrite div2_even. }
      rewrite V, Q, vden_zero. unfold padd. destruct (cv a); cbn [fst snd]; f_equal; lra. }
    split; auto. split; [|split; [congruence|reflexivity]]. intros _ _. apply ainv_value. rewrite <- Q. now apply approx_within.
Qed.

Lemma read_approx_Ok c a : cinv m (coefs c) a ->
  exists (c' : chain) v, read_approx A arb s c = Ok (c', v) /\ cinv m (coefs c') a /\ cval (capprox c') = Some v /\ cpend (capprox c') = [] /\
    (einv (cexact c) a -> ainv (capprox c) a -> pwithin (cv a) v) /\ (einv (cexact c) a -> einv (cexact c') a) /\
    (cval (capprox c) <> None -> coefs c' = coefs c /\ cexact c' = cexact c).
Proof.
  intros I. unfold read_approx. destruct (cval (capprox c)) as [v|] eqn:Ev.
  - do 2 eexists. split; [reflexivity|]. split; auto. cbn. unfold flush. rewrite Ev. cbn. split; auto. split; auto. split.
    + intros _ H. apply H. unfold approx_val. now rewrite Ev.
    + auto.
  - destruct (read_exact_Ok c a I) as (c1 & v & -> & I1 & E1 & V1 & A1 & B1 & P1). cbn [bind].
    assert (NA : ainv (capprox c) a) by (intros w H; unfold approx_val in H; now rewrite Ev in H).
    assert (NE : einv (cexact c) a -> einv (cexact c1) a) by (intros H; rewrite E1; apply einv_value; auto).
    destruct (cval (capprox c1)) as [w|] eqn:Ew.
    + assert (Pe : cpend (capprox c1) = []).
      { destruct (cval (cexact c)) eqn:Q; [|now apply P1]. destruct B1 as [_ B1]; congruence. }
      do 2 eexists. split; [reflexivity|]. split; auto. split; auto. split; auto. split.
      * intros H _. apply (A1 H NA). unfold approx_val. now rewrite Ew, Pe.
      * split; auto. congruence.
    + do 2 eexists. split; [reflexivity|]. split; auto. cbn [capprox cval cpend coefs cexact cv_value]. split; auto. split; auto. split.
      * intros H _. rewrite <- (V1 H). now apply approx_within.
      * split; auto. congruence.
Qed.
End chains.
