(** * Programs with chains *)
From Coq Require Import ZArith QArith Qreals Reals List Arith Bool Lia Lra.
From Verif Require Import Base HalfEdge HalfEdgeFacts Perm Combinatorial CombinatorialSpec CombinatorialFacts CombinatorialOps ExactReal Vector Arb PlaneSpec Plane VectorFacts ArbFacts
  FlatTri FlatSpec FlatFacts Chain ChainSpec ChainFacts.
Import ListNotations.
Local Open Scope nat_scope.

Section chains.
Variable A : ArbOps.
Context {K : ExactReal}.
Variable arb : K -> ball.
Hypothesis arb_sound : forall x, within (den x) (arb x).
Variable C : costs.
Variable n : nat.
Variable s : flat K.
Hypothesis S : flat_surface n s.
Local Notation m := (n / 2).
Local Notation chain := (@chain K).
Local Notation cv := (chain_vector n s).
Local Notation einv := (einv n s).
Local Notation ainv := (ainv A n s).
Local Notation step := (step A arb C s).
Local Notation run := (run A arb C s).
Implicit Types (c : chain) (st : list chain).

Definition CI st (a : list coeffs) : Prop := Forall2 (cinv m) (map coefs st) a.
Definition EI st (a : list coeffs) : Prop := Forall2 einv (map cexact st) a.
Definition AI st (a : list coeffs) : Prop := Forall2 ainv (map capprox st) a.
Definition dchain : chain := mkChain [] cv_none cv_none.

Lemma CI_len st a : CI st a -> length st = length a.
Proof. intros F. apply Forall2_len in F. now rewrite map_length in F. Qed.
Lemma CI_nth st a i : CI st a -> i < length st -> cinv m (coefs (nth i st dchain)) (nth i a czero).
Proof. intros F L. rewrite <- (map_nth coefs). apply Forall2_nth; auto. now rewrite map_length. Qed.
Lemma EI_nth st a i : EI st a -> i < length st -> einv (cexact (nth i st dchain)) (nth i a czero).
Proof. intros F L. rewrite <- (map_nth cexact). apply Forall2_nth; auto. now rewrite map_length. Qed.
Lemma AI_nth st a i : AI st a -> i < length st -> ainv (capprox (nth i st dchain)) (nth i a czero).
Proof. intros F L. rewrite <- (map_nth capprox). apply Forall2_nth; auto. now rewrite map_length. Qed.

Lemma CI_upd st a i c b : CI st a -> cinv m (coefs c) b -> CI (upd st i c) (upd a i b).
Proof. intros F H. unfold CI. rewrite map_upd. now apply Forall2_upd. Qed.
Lemma EI_upd st a i c b : EI st a -> einv (cexact c) b -> EI (upd st i c) (upd a i b).
Proof. intros F H. unfold EI. rewrite map_upd. now apply Forall2_upd. Qed.
Lemma AI_upd st a i c b : AI st a -> ainv (capprox c) b -> AI (upd st i c) (upd a i b).
Proof. intros F H. unfold AI. rewrite map_upd. now apply Forall2_upd. Qed.
Lemma CI_upd_same st a i c : CI st a -> i < length st -> cinv m (coefs c) (nth i a czero) -> CI (upd st i c) a.
Proof. intros F L H. unfold CI. rewrite map_upd. apply (Forall2_upd_l _ _ _ _ _ czero); auto. now rewrite map_length. Qed.
Lemma EI_upd_same st a i c : EI st a -> i < length st -> einv (cexact c) (nth i a czero) -> EI (upd st i c) a.
Proof. intros F L H. unfold EI. rewrite map_upd. apply (Forall2_upd_l _ _ _ _ _ czero); auto. now rewrite map_length. Qed.
Lemma AI_upd_same st a i c : AI st a -> i < length st -> ainv (capprox c) (nth i a czero) -> AI (upd st i c) a.
Proof. intros F L H. unfold AI. rewrite map_upd. apply (Forall2_upd_l _ _ _ _ _ czero); auto. now rewrite map_length. Qed.
Lemma CI_app st a c b : CI st a -> cinv m (coefs c) b -> CI (st ++ [c]) (a ++ [b]).
Proof. intros F H. unfold CI. rewrite map_app. apply Forall2_app; cbn; auto. Qed.
Lemma EI_app st a c b : EI st a -> einv (cexact c) b -> EI (st ++ [c]) (a ++ [b]).
Proof. intros F H. unfold EI. rewrite map_app. apply Forall2_app; cbn; auto. Qed.
Lemma AI_app st a c b : AI st a -> ainv (capprox c) b -> AI (st ++ [c]) (a ++ [b]).
Proof. intros F H. unfold AI. rewrite map_app. apply Forall2_app; cbn; auto. Qed.

(** ** Half edges *)
Lemma repeat_cinv : cinv m (coefs (new_chain s)) czero.
Proof.
  unfold new_chain. cbn [coefs]. rewrite (size_m n s S). split; [apply repeat_length|]. intros i Hi. rewrite nth_repeat. split; [discriminate|reflexivity].
Qed.

Lemma add_single cs a h : cinv m cs a -> h < n ->
  cinv m (upd cs (h / 2) (fmpz_add (nth (h / 2) cs (Small 0)) (Small (if Nat.even h then 1 else -1)))) (fun e => a e + single h e)%Z.
Proof.
  intros I Hh. pose proof (half_lt n s S h Hh) as Hm. apply (cinv_upd m cs a); auto.
  - apply fmpz_add_spec.
  - destruct (fmpz_add_spec (nth (h / 2) cs (Small 0)) (Small (if Nat.even h then 1 else -1))) as [_ ->]. destruct I as [_ H]. destruct (H _ Hm) as [_ ->].
    unfold single. rewrite Nat.eqb_refl. reflexivity.
  - intros j _ Ne. unfold single. apply Nat.eqb_neq in Ne. rewrite Ne. lia.
Qed.

Lemma cv_add_exact cost ac cc x a h : einv x a -> h < n -> einv (cv_add cost ac cc x (nth h (fvec s) vzero)) (fun e => a e + single h e)%Z.
Proof.
  intros I Hh. unfold Chain.cv_add. destruct (cval x) as [v|] eqn:E.
  - destruct (_ <? _)%Z; [apply einv_none|]. intros w Ew. unfold exact_val in Ew. cbn [cval cpend option_map] in Ew. injection Ew as <-. rewrite pending_app. cbn [fst snd].
    rewrite vden_add, (cvec_add n s). f_equal.
    + apply I. unfold exact_val. now rewrite E.
    + now rewrite (cv_single n s S).
  - intros w Ew. unfold exact_val in Ew. rewrite E in Ew. discriminate.
Qed.
Lemma cv_add_approx cost ac cc x a h : ainv x a -> h < n -> ainv (cv_add cost ac cc x (approx arb (nth h (fvec s) vzero))) (fun e => a e + single h e)%Z.
Proof.
  intros I Hh. unfold Chain.cv_add. destruct (cval x) as [v|] eqn:E.
  - destruct (_ <? _)%Z; [apply ainv_none|]. intros w Ew. unfold approx_val in Ew. cbn [cval cpend option_map] in Ew. injection Ew as <-. rewrite pending_app. cbn [fst snd].
    rewrite (cvec_add n s). apply avadd_sound.
    + apply I. unfold approx_val. now rewrite E.
    + rewrite (cv_single n s S) by auto. now apply approx_within.
  - intros w Ew. unfold approx_val in Ew. rewrite E in Ew. discriminate.
Qed.

Lemma add_half_edge_Ok c a h : cinv m (coefs c) a -> h < n ->
  exists c' : chain, add_half_edge arb C s c h = Ok c' /\ cinv m (coefs c') (fun e => a e + single h e)%Z /\
    (einv (cexact c) a -> einv (cexact c') (fun e => a e + single h e)%Z) /\ (ainv (capprox c) a -> ainv (capprox c') (fun e => a e + single h e)%Z).
Proof.
  intros I Hh. unfold add_half_edge, from_he_approx. pose proof (half_lt n s S h Hh) as Hm. destruct (I) as [L _].
  rewrite (vget_nth _ _ (Small 0)) by lia. cbn [bind coefs cexact capprox]. rewrite (he_Ok n s S) by auto. cbn [bind].
  eexists. split; [reflexivity|]. cbn [coefs cexact capprox]. split; [now apply add_single|]. split; intros H; [now apply cv_add_exact|now apply cv_add_approx].
Qed.

Lemma new_half_edge_Ok h : h < n ->
  exists c : chain, new_half_edge arb s h = Ok c /\ cinv m (coefs c) (single h) /\ einv (cexact c) (single h) /\ ainv (capprox c) (single h).
Proof.
  intros Hh. unfold new_half_edge, from_he_approx. pose proof (half_lt n s S h Hh) as Hm. pose proof repeat_cinv as R. unfold new_chain in R. cbn [coefs] in R.
  rewrite (he_Ok n s S) by auto. cbn [bind]. destruct (R) as [L _]. rewrite (vget_nth _ _ (Small 0)) by lia. cbn [bind]. rewrite vset_Ok by lia. cbn [bind].
  eexists. split; [reflexivity|]. cbn [coefs cexact capprox]. split; [|split].
  - eapply cinv_ext; [apply (add_single _ czero h R Hh)|]. reflexivity.
  - apply einv_value. rewrite (cv_single n s S) by auto. reflexivity.
  - apply ainv_value. rewrite (cv_single n s S) by auto. now apply approx_within.
Qed.

(** ** Sums of chains *)
Definition csum (add : bool) (a b : coeffs) : coeffs := fun e => if add then (a e + b e)%Z else (a e - b e)%Z.

Lemma csum_exact add cost a b (v : vec K) l k w : einv (mkCvec (Some v) l k) a -> vden w = cv b -> einv (mkCvec (Some v) (l ++ [(add, w)]) cost) (csum add a b).
Proof.
  intros I E x Ex. unfold exact_val in Ex. cbn [cval cpend option_map] in Ex. injection Ex as <-. rewrite pending_app. cbn [fst snd].
  assert (H : vden (apply_pending vadd vsub v l) = cv a) by (now apply I). destruct add.
  - rewrite vden_add, H, E. symmetry. apply (cvec_add n s).
  - rewrite vden_vsub, H, E. symmetry. apply (cvec_sub n s).
Qed.
Lemma csum_approx add cost a b v l k w : ainv (mkCvec (Some v) l k) a -> pwithin (cv b) w -> ainv (mkCvec (Some v) (l ++ [(add, w)]) cost) (csum add a b).
Proof.
  intros I E x Ex. unfold approx_val in Ex. cbn [cval cpend option_map] in Ex. injection Ex as <-. rewrite pending_app. cbn [fst snd].
  assert (H : pwithin (cv a) (apply_pending (avadd A) (avsub A) v l)) by (now apply I). destruct add.
  - change (cv (csum true a b)) with (cv (fun e => a e + b e)%Z). rewrite (cvec_add n s). now apply avadd_sound.
  - change (cv (csum false a b)) with (cv (fun e => a e - b e)%Z). rewrite (cvec_sub n s). now apply avsub_sound.
Qed.

Lemma mkCvec_eta {V} (x : cvec V) : mkCvec (cval x) (cpend x) (ccost x) = x.
Proof. now destruct x. Qed.
Lemma einv_cost x k a : einv x a -> einv (mkCvec (cval x) (cpend x) k) a.
Proof. intros I v E. apply I, E. Qed.
Lemma einv_some x v a : einv x a -> cval x = Some v -> vden (apply_pending vadd vsub v (cpend x)) = cv a.
Proof. intros I E. apply I. unfold exact_val. now rewrite E. Qed.
Lemma ainv_some x v a : ainv x a -> cval x = Some v -> pwithin (cv a) (apply_pending (avadd A) (avsub A) v (cpend x)).
Proof. intros I E. apply I. unfold approx_val. now rewrite E. Qed.

Lemma record_exact_Ok add st i j : i < length st -> j < length st ->
  exists st', record_exact arb C s add st i j = Ok st' /\ map coefs st' = map coefs st /\ map capprox st' = map capprox st /\
    (forall a, EI st a -> EI st' (upd a i (csum add (nth i a czero) (nth j a czero)))).
Proof.
  intros Hi Hj. unfold record_exact. rewrite !(vget_nth _ _ dchain) by auto. cbn [bind].
  set (ci := nth i st dchain). set (cj := nth j st dchain).
  assert (U : exists st', Ok (upd st i (mkChain (coefs ci) cv_none (capprox ci))) = Ok st' /\ map coefs st' = map coefs st /\ map capprox st' = map capprox st /\
    (forall a, EI st a -> EI st' (upd a i (csum add (nth i a czero) (nth j a czero))))).
  { eexists. split; [reflexivity|]. split; [now apply (map_upd_same _ _ _ _ dchain)|]. split; [now apply (map_upd_same _ _ _ _ dchain)|].
    intros a E. apply EI_upd; auto. apply einv_none. }
  destruct (cval (cexact ci)) as [vi|] eqn:Ei.
  2:{ exists st. split; auto. split; auto. split; auto. intros a E. rewrite <- (upd_same st i dchain) by auto. apply EI_upd; auto.
      intros w Ew. unfold exact_val in Ew. fold ci in Ew. rewrite Ei in Ew. discriminate. }
  destruct (cval (cexact cj)) as [vj|] eqn:Ej; [|exact U]. destruct (_ <? _)%Z; [exact U|]. clear U.
  unfold read_exact. rewrite Ej. cbn [bind]. unfold flush. rewrite Ej.
  set (w := apply_pending vadd vsub vj (cpend (cexact cj))). set (cj' := mkChain (coefs cj) (cv_value w) (capprox cj)).
  rewrite (vget_nth _ _ dchain) by now rewrite upd_length. cbn [bind]. eexists. split; [reflexivity|].
  assert (M1 : map coefs (upd st j cj') = map coefs st) by now apply (map_upd_same _ _ _ _ dchain).
  assert (M2 : map capprox (upd st j cj') = map capprox st) by now apply (map_upd_same _ _ _ _ dchain).
  split; [|split].
  - rewrite <- M1. apply (map_upd_same _ _ _ _ dchain); auto. now rewrite upd_length.
  - rewrite <- M2. apply (map_upd_same _ _ _ _ dchain); auto. now rewrite upd_length.
  - intros a E. assert (W : vden w = cv (nth j a czero)) by (apply einv_some; auto; now apply EI_nth).
    assert (E1 : EI (upd st j cj') a) by (apply EI_upd_same; auto; now apply einv_value).
    apply EI_upd; auto. cbn [cexact].
    pose proof (EI_nth _ _ i E1) as I1. rewrite upd_length in I1. specialize (I1 Hi).
    assert (V : exists v, cval (cexact (nth i (upd st j cj') dchain)) = Some v).
    { rewrite nth_upd by auto. destruct (i =? j); cbn; eauto. }
    destruct V as (v & V). rewrite V. eapply csum_exact; eauto. rewrite <- V. rewrite mkCvec_eta. exact I1.
Qed.

Lemma record_approx_Ok add st i j : i < length st -> j < length st ->
  exists st', record_approx A arb C s add st i j = Ok st' /\ map coefs st' = map coefs st /\ map cexact st' = map cexact st /\
    (forall a, AI st a -> AI st' (upd a i (csum add (nth i a czero) (nth j a czero)))).
Proof.
  intros Hi Hj. unfold record_approx. rewrite !(vget_nth _ _ dchain) by auto. cbn [bind].
  set (ci := nth i st dchain). set (cj := nth j st dchain).
  assert (U : exists st', Ok (upd st i (mkChain (coefs ci) (cexact ci) cv_none)) = Ok st' /\ map coefs st' = map coefs st /\ map cexact st' = map cexact st /\
    (forall a, AI st a -> AI st' (upd a i (csum add (nth i a czero) (nth j a czero))))).
  { eexists. split; [reflexivity|]. split; [now apply (map_upd_same _ _ _ _ dchain)|]. split; [now apply (map_upd_same _ _ _ _ dchain)|].
    intros a E. apply AI_upd; auto. apply ainv_none. }
  destruct (cval (capprox ci)) as [vi|] eqn:Ei.
  2:{ exists st. split; auto. split; auto. split; auto. intros a E. rewrite <- (upd_same st i dchain) by auto. apply AI_upd; auto.
      intros w Ew. unfold approx_val in Ew. fold ci in Ew. rewrite Ei in Ew. discriminate. }
  destruct (cval (capprox cj)) as [vj|] eqn:Ej; [|exact U]. destruct (_ <? _)%Z; [exact U|]. clear U.
  unfold read_approx. rewrite Ej. cbn [bind]. unfold flush. rewrite Ej.
  set (w := apply_pending (avadd A) (avsub A) vj (cpend (capprox cj))). set (cj' := mkChain (coefs cj) (cexact cj) (cv_value w)).
  rewrite (vget_nth _ _ dchain) by now rewrite upd_length. cbn [bind]. eexists. split; [reflexivity|].
  assert (M1 : map coefs (upd st j cj') = map coefs st) by now apply (map_upd_same _ _ _ _ dchain).
  assert (M2 : map cexact (upd st j cj') = map cexact st) by now apply (map_upd_same _ _ _ _ dchain).
  split; [|split].
  - rewrite <- M1. apply (map_upd_same _ _ _ _ dchain); auto. now rewrite upd_length.
  - rewrite <- M2. apply (map_upd_same _ _ _ _ dchain); auto. now rewrite upd_length.
  - intros a E. assert (W : pwithin (cv (nth j a czero)) w) by (apply ainv_some; auto; now apply AI_nth).
    assert (E1 : AI (upd st j cj') a) by (apply AI_upd_same; auto; now apply ainv_value).
    apply AI_upd; auto. cbn [capprox].
    pose proof (AI_nth _ _ i E1) as I1. rewrite upd_length in I1. specialize (I1 Hi).
    assert (V : exists v, cval (capprox (nth i (upd st j cj') dchain)) = Some v).
    { rewrite nth_upd by auto. destruct (i =? j); cbn; eauto. }
    destruct V as (v & V). rewrite V. eapply csum_approx; eauto. rewrite <- V. rewrite mkCvec_eta. exact I1.
Qed.

Lemma map_len_eq {B} (f : chain -> B) st st' : map f st = map f st' -> length st = length st'.
Proof. intros E. apply (f_equal (@length _)) in E. now rewrite !map_length in E. Qed.

Lemma add_chain_Ok add st a i j : CI st a -> i < length st -> j < length st ->
  exists st', add_chain A arb C s add st i j = Ok st' /\ CI st' (upd a i (csum add (nth i a czero) (nth j a czero))) /\
    (EI st a -> EI st' (upd a i (csum add (nth i a czero) (nth j a czero)))) /\ (AI st a -> AI st' (upd a i (csum add (nth i a czero) (nth j a czero)))).
Proof.
  intros I Hi Hj. unfold add_chain. rewrite !(vget_nth _ _ dchain) by auto. cbn [bind].
  assert (V : exists rs, vec_op (if add then fmpz_add else fmpz_sub) (coefs (nth i st dchain)) (coefs (nth j st dchain)) = Ok rs /\
    cinv m rs (csum add (nth i a czero) (nth j a czero))).
  { pose proof (CI_nth _ _ _ I Hi) as Ii. pose proof (CI_nth _ _ _ I Hj) as Ij. destruct add.
    - apply (vec_op_Ok m _ _ _ _ fmpz_add Z.add Ii Ij fmpz_add_spec).
    - apply (vec_op_Ok m _ _ _ _ fmpz_sub Z.sub Ii Ij fmpz_sub_spec). }
  destruct V as (cs & -> & Ic). cbn [bind]. set (c := mkChain cs _ _).
  assert (ME : map cexact (upd st i c) = map cexact st) by now apply (map_upd_same _ _ _ _ dchain).
  assert (MA : map capprox (upd st i c) = map capprox st) by now apply (map_upd_same _ _ _ _ dchain).
  destruct (record_exact_Ok add (upd st i c) i j) as (st1 & -> & C1 & A1 & E1); [now rewrite upd_length|now rewrite upd_length|]. cbn [bind].
  pose proof (map_len_eq _ _ _ C1) as L1. rewrite upd_length in L1.
  destruct (record_approx_Ok add st1 i j) as (st2 & -> & C2 & X2 & A2); [lia|lia|]. exists st2. split; auto. split; [|split].
  - unfold CI. rewrite C2, C1. apply CI_upd; auto.
  - intros E. unfold EI. rewrite X2. apply E1. unfold EI. now rewrite ME.
  - intros E. apply A2. unfold AI. now rewrite A1, MA.
Qed.

Lemma copy_chain_Ok c a : cinv m (coefs c) a ->
  exists c1 d : chain, copy_chain A arb s c = Ok (c1, d) /\ cinv m (coefs c1) a /\ cinv m (coefs d) a /\
    (exists v, cval (cexact d) = Some v /\ cpend (cexact d) = [] /\ (einv (cexact c) a -> vden v = cv a)) /\ 
    (einv (cexact c) a -> einv (cexact c1) a /\ einv (cexact d) a) /\
    (einv (cexact c) a -> ainv (capprox c) a -> ainv (capprox c1) a /\ ainv (capprox d) a).
Proof.
  intros I. unfold copy_chain. destruct (read_exact_Ok A arb arb_sound n s S c a I) as (c1 & v & -> & I1 & E1 & V1 & A1 & _). cbn [bind].
  destruct (read_approx_Ok A arb arb_sound n s S c1 a I1) as (c2 & w & -> & I2 & E2 & P2 & W2 & X2 & _). cbn [bind].
  assert (Q : einv (cexact c) a -> einv (cexact c1) a) by (intros H; rewrite E1; apply einv_value; auto).
  do 2 eexists. split; [reflexivity|]. split; [exact I2|]. split; [exact I2|]. split; [|split].
  - exists v. split; auto.
  - intros H. split; [now apply X2, Q|]. apply einv_value. auto.
  - intros H HA. split.
    + intros u Eu. unfold approx_val in Eu. rewrite E2, P2 in Eu. cbn in Eu. injection Eu as <-. apply W2; auto.
    + apply ainv_value. apply W2; auto.
Qed.

(** ** Steps *)
Definition is_mul (op : chain_op) : bool := match op with Mul _ _ => true | _ => false end.

Lemma CI_ext st a b : CI st a -> Forall2 (fun x y => forall e, x e = y e) a b -> CI st b.
Proof.
  unfold CI. revert b. generalize (map coefs st). intros l b F. revert b. induction F; intros b G; inversion G; subst; constructor; auto.
  eapply cinv_ext; eauto.
Qed.
Lemma EI_ext st a b : EI st a -> Forall2 (fun x y => forall e, x e = y e) a b -> EI st b.
Proof.
  unfold EI. revert b. generalize (map cexact st). intros l b F. revert b. induction F; intros b G; inversion G; subst; constructor; auto.
  eapply einv_ext; eauto.
Qed.
Lemma AI_ext st a b : AI st a -> Forall2 (fun x y => forall e, x e = y e) a b -> AI st b.
Proof.
  unfold AI. revert b. generalize (map capprox st). intros l b F. revert b. induction F; intros b G; inversion G; subst; constructor; auto.
  eapply ainv_ext; eauto.
Qed.
Lemma same_refl (a : list coeffs) : Forall2 (fun x y => forall e, x e = y e) a a.
Proof. induction a; constructor; auto. Qed.
Lemma same_upd (a : list coeffs) i x y : (forall e, x e = y e) -> Forall2 (fun x y => forall e : nat, x e = y e) (upd a i x) (upd a i y).
Proof. intros H. apply Forall2_upd; auto. apply same_refl. Qed.
Lemma upd_app_last {B} (l : list B) x y : upd (l ++ [x]) (length l) y = l ++ [y].
Proof. induction l; cbn; auto. now rewrite IHl. Qed.

Definition goal st a st' a' (mul : bool) : Prop := CI st' a' /\ (mul = false -> EI st a -> EI st' a' /\ (AI st a -> AI st' a')).

Lemma upd_goal st a i c b mul : CI st a -> i < length st -> cinv m (coefs c) b ->
  (mul = false -> einv (cexact (nth i st dchain)) (nth i a czero) -> einv (cexact c) b) ->
  (mul = false -> einv (cexact (nth i st dchain)) (nth i a czero) -> ainv (capprox (nth i st dchain)) (nth i a czero) -> ainv (capprox c) b) ->
  goal st a (upd st i c) (upd a i b) mul.
Proof.
  intros I Hi Ic He Ha. split; [now apply CI_upd|]. intros M E. pose proof (EI_nth _ _ _ E Hi). split; [now apply EI_upd; auto|].
  intros HA. pose proof (AI_nth _ _ _ HA Hi). apply AI_upd; auto.
Qed.

Lemma upd_goal_same st a i c mul : CI st a -> i < length st -> cinv m (coefs c) (nth i a czero) ->
  (einv (cexact (nth i st dchain)) (nth i a czero) -> einv (cexact c) (nth i a czero)) ->
  (einv (cexact (nth i st dchain)) (nth i a czero) -> ainv (capprox (nth i st dchain)) (nth i a czero) -> ainv (capprox c) (nth i a czero)) ->
  goal st a (upd st i c) a mul.
Proof.
  intros I Hi Ic He Ha. pose proof (upd_goal st a i c (nth i a czero) mul I Hi Ic (fun _ => He) (fun _ => Ha)) as G. rewrite upd_same in G; auto. rewrite <- (CI_len _ _ I). auto.
Qed.

Lemma step_Ok st a op : CI st a -> valid_op n (length st) op ->
  exists st', step st op = Ok st' /\ length st' = length st + creates op /\ goal st a st' (spec_step a op) (is_mul op).
Proof.
  intros I V. pose proof (CI_len _ _ I) as L. destruct op as [|h|i|i h|i h|i j|i j|i|i z|i|i|i h]; cbn [Chain.step valid_op creates spec_step is_mul] in *;
    try match goal with H : _ /\ _ |- _ => destruct H as [V V'] end.
  - eexists. split; [reflexivity|]. split; [rewrite app_length; reflexivity|]. pose proof repeat_cinv. split; [now apply CI_app|]. intros _ E. split; [apply EI_app; auto; apply einv_none|].
    intros HA. apply AI_app; auto. apply ainv_none.
  - destruct (new_half_edge_Ok h V) as (c & -> & Ic & Ec & Ac). cbn [bind]. eexists. split; [reflexivity|]. split; [rewrite app_length; reflexivity|].
    split; [now apply CI_app|]. intros _ E. split; [now apply EI_app|]. intros HA. now apply AI_app.
  - rewrite (vget_nth _ _ dchain) by auto. cbn [bind]. pose proof (CI_nth _ _ _ I V) as Ii.
    destruct (copy_chain_Ok _ _ Ii) as (c1 & d & -> & I1 & Id & _ & Q1 & Q2). cbn [bind]. eexists. split; [reflexivity|]. split; [rewrite app_length, upd_length; reflexivity|].
    split; [apply CI_app; auto; apply CI_upd_same; auto|]. intros _ E. destruct (Q1 (EI_nth _ _ _ E V)). split; [apply EI_app; auto; apply EI_upd_same; auto|].
    intros HA. destruct (Q2 (EI_nth _ _ _ E V) (AI_nth _ _ _ HA V)). apply AI_app; auto; apply AI_upd_same; auto.
  - rewrite (vget_nth _ _ dchain) by auto. cbn [bind]. pose proof (CI_nth _ _ _ I V) as Ii.
    destruct (add_half_edge_Ok _ _ h Ii V') as (c1 & -> & I1 & E1 & A1). cbn [bind]. eexists. split; [reflexivity|]. split; [rewrite upd_length; lia|].
    apply upd_goal; auto.
  - rewrite (vget_nth _ _ dchain) by auto. cbn [bind]. pose proof (CI_nth _ _ _ I V) as Ii.
    assert (Hn : neg h < n) by now apply (neg_ltn n (fT s) (fs_wf n s S)).
    destruct (add_half_edge_Ok _ _ (neg h) Ii Hn) as (c1 & -> & I1 & E1 & A1). cbn [bind]. eexists. split; [reflexivity|]. split; [rewrite upd_length; lia|].
    assert (Q : forall e, (nth i a czero e + single (neg h) e)%Z = (nth i a czero e - single h e)%Z) by (intros e; rewrite single_neg; lia).
    apply upd_goal; auto.
    + eapply cinv_ext; [exact I1|]. intros; apply Q.
    + intros _ E. eapply einv_ext; [exact (E1 E)|]. intros; apply Q.
    + intros _ _ E. eapply ainv_ext; [exact (A1 E)|]. intros; apply Q.
  - destruct (add_chain_Ok true st a i j I V V') as (st' & -> & C' & E' & A'). exists st'. split; auto. split; [apply CI_len in C'; rewrite upd_length in C'; lia|]. split; auto.
  - destruct (add_chain_Ok false st a i j I V V') as (st' & -> & C' & E' & A'). exists st'. split; auto. split; [apply CI_len in C'; rewrite upd_length in C'; lia|]. split; auto.
  - pose proof repeat_cinv as R.
    destruct (add_chain_Ok false (st ++ [new_chain s]) (a ++ [czero]) (length st) i) as (st' & -> & C' & E' & A');
      [now apply CI_app|rewrite app_length; cbn; lia|rewrite app_length; cbn; lia|].
    assert (Q : Forall2 (fun x y : coeffs => forall e, x e = y e) (upd (a ++ [czero]) (length st) (csum false (nth (length st) (a ++ [czero]) czero) (nth i (a ++ [czero]) czero)))
      (a ++ [fun e => (- nth i a czero e)%Z])).
    { rewrite L, upd_app_last. apply Forall2_app; [apply same_refl|]. constructor; [|constructor]. intros e. unfold csum.
      rewrite app_nth2, Nat.sub_diag by lia. rewrite app_nth1 by lia. cbn [nth]. unfold czero. lia. }
    exists st'. split; auto. split; [apply CI_len in C'; rewrite upd_length, app_length in C'; cbn in C'; lia|]. split; [eapply CI_ext; eauto|]. intros _ E. split.
    + eapply EI_ext; [apply E'|exact Q]. apply EI_app; auto. apply einv_none.
    + intros HA. eapply AI_ext; [apply A'|exact Q]. apply AI_app; auto. apply ainv_none.
  - rewrite (vget_nth _ _ dchain) by auto. cbn [bind]. eexists. split; [reflexivity|]. split; [rewrite upd_length; lia|]. apply upd_goal; auto; [|discriminate|discriminate].
    destruct (CI_nth _ _ _ I V) as [Lc H]. unfold mul_chain. cbn [coefs]. split; [now rewrite map_length|]. intros k Hk.
    pose proof (map_nth (fun f => fmpz_mul f z) (coefs (nth i st dchain)) (Small 0) k) as N. cbv beta in N. change (fmpz_mul (Small 0) z) with (Small 0) in N. rewrite N. destruct (H k Hk) as [F Vk]. destruct (fmpz_mul_val _ z F) as [-> ?]. rewrite Vk. auto.
  - rewrite (vget_nth _ _ dchain) by auto. cbn [bind]. pose proof (CI_nth _ _ _ I V) as Ii.
    destruct (read_exact_Ok A arb arb_sound n s S _ _ Ii) as (c1 & v & -> & I1 & E1 & V1 & A1 & _). cbn [bind]. eexists. split; [reflexivity|]. split; [rewrite upd_length; lia|].
    apply upd_goal_same; auto. intros E. rewrite E1. apply einv_value; auto.
  - rewrite (vget_nth _ _ dchain) by auto. cbn [bind]. pose proof (CI_nth _ _ _ I V) as Ii.
    destruct (read_approx_Ok A arb arb_sound n s S _ _ Ii) as (c2 & w & -> & I2 & E2 & P2 & W2 & X2 & _). cbn [bind]. eexists. split; [reflexivity|]. split; [rewrite upd_length; lia|].
    apply upd_goal_same; auto. intros E HA u Eu. unfold approx_val in Eu. rewrite E2, P2 in Eu. cbn in Eu. injection Eu as <-.
    apply W2; auto.
  - rewrite (vget_nth _ _ dchain) by auto. cbn [bind]. pose proof (CI_nth _ _ _ I V) as Ii.
    destruct (coefficient_Ok n _ _ (h / 2) Ii (half_lt n s S h V')) as (c1 & -> & I1 & E1 & A1). cbn [bind]. eexists. split; [reflexivity|]. split; [rewrite upd_length; lia|].
    apply upd_goal_same; rewrite ?E1, ?A1; auto.
Qed.

Lemma run_Ok ops : forall st a, CI st a -> valid n (length st) ops ->
  exists st', run st ops = Ok st' /\ goal st a st' (fold_left spec_step ops a) (existsb is_mul ops).
Proof.
  induction ops as [|op ops IH]; intros st a I V; cbn [Chain.run fold_left existsb valid] in *.
  - exists st. split; auto. split; auto.
  - destruct V as [V1 V2]. destruct (step_Ok st a op I V1) as (st1 & -> & L1 & C1 & G1). cbn [bind].
    destruct (IH st1 _ C1) as (st2 & E2 & C2 & G2); [now rewrite L1|]. exists st2. split; auto. split; auto.
    intros M E. apply Bool.orb_false_iff in M as [M1 M2]. destruct (G1 M1 E) as [E1 A1]. destruct (G2 M2 E1) as [E3 A3]. auto.
Qed.
End chains.
