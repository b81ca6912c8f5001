(** * The matrices of linear walkers *)
From Coq Require Import ZArith Reals List Arith Bool Lia Lra Permutation.
From Verif Require Import Base HalfEdge HalfEdgeFacts Perm PermSpec PermFacts IndexedSet Combinatorial CombinatorialSpec CombinatorialFacts CombinatorialOps
  ExactReal Vector PlaneSpec Plane VectorFacts FlatTri FlatSpec FlatFacts FlatSum FlatLinear FlatOps FlatAngle
  Point PointSpec Linear Saddle Deform DeformSpec DeformFacts DeformPath DeformGood DeformCompose
  Equivalence EquivalenceWalk EquivalenceSame EquivalenceWord EquivalenceSpec EquivalenceFacts EquivalenceNormal EquivalenceCode EquivalenceCount EquivalenceLinear.
Import ListNotations.
Local Open Scope nat_scope.

(** ** Plane geometry *)
Lemma pdet_papply a b c d p q : pdet (papply a b c d p) (papply a b c d q) = ((a * d - b * c) * pdet p q)%R.
Proof. unfold pdet, papply. cbn [fst snd]. ring. Qed.
(** Maps that agree on a basis agree. *)
Lemma basis_papply a b c d v w p : (pdet v w <> 0)%R ->
  papply a b c d p = (pdet p w / pdet v w * fst (papply a b c d v) + pdet v p / pdet v w * fst (papply a b c d w),
    pdet p w / pdet v w * snd (papply a b c d v) + pdet v p / pdet v w * snd (papply a b c d w))%R.
Proof. intros D. unfold pdet, papply in *. cbn [fst snd] in *. apply pt_eq; cbn [fst snd]; field; exact D. Qed.

Section facts.
Context {K : ExactReal}.
Implicit Types s u : flat K.

(** What the matrix for a pair of half edges does. *)
Definition framed (g : GROUP) (v w : pt) (m : matrix (K := K)) : Prop :=
  match g with
  | TRIVIAL => let '(a, b, c, d) := m in den a = 1%R /\ den b = 0%R /\ den c = 0%R /\ den d = 1%R
  | SL => mpt m v = (1, 0)%R /\ mpt m w = (0, Rabs (pdet v w))%R
  | GL => mpt m v = (1, 0)%R /\ mpt m w = (0, 1)%R
  end.
Lemma framed_det g v w m : (pdet v w <> 0)%R -> framed g v w m -> match g with TRIVIAL => mdet m = 1%R | SL => (mdet m * pdet v w = Rabs (pdet v w))%R | GL => (mdet m * pdet v w = 1)%R end.
Proof.
  destruct m as [[[a b] c] d]. destruct g; cbn [framed mdet mpt]; intros D F.
  - destruct F as (-> & -> & -> & ->). ring.
  - destruct F as [F1 F2]. rewrite <- pdet_papply, F1, F2. unfold pdet at 1; cbn [fst snd]. ring.
  - destruct F as [F1 F2]. rewrite <- pdet_papply, F1, F2. unfold pdet; cbn [fst snd]. ring.
Qed.
Lemma framed_sign g v w m : (pdet v w <> 0)%R -> framed g v w m -> g <> TRIVIAL -> (0 < mdet m * pdet v w)%R.
Proof. intros D F G. assert (E := framed_det g v w m D F). destruct g; [congruence| |]; rewrite E; [|lra]. now apply Rabs_pos_lt. Qed.
Lemma framed_group g v w a b c d : (pdet v w <> 0)%R -> framed g v w (a, b, c, d) -> in_group g (den a) (den b) (den c) (den d).
Proof.
  intros D F. assert (E := framed_det g v w _ D F). destruct g; cbn [mdet in_group] in *; auto.
  - unfold Rabs in E. destruct (Rcase_abs (pdet v w)).
    + right. apply (Rmult_eq_reg_r (pdet v w)); auto. rewrite E. ring.
    + left. apply (Rmult_eq_reg_r (pdet v w)); auto. rewrite E. ring.
  - intros Z. rewrite Z in E. lra.
Qed.
Lemma group_det g a b c d : in_group g a b c d -> (a * d - b * c <> 0)%R.
Proof. destruct g; cbn; auto; [intros (-> & -> & -> & ->)|]; lra. Qed.
(** The matrices of corresponding pairs of half edges correspond. *)
Lemma framed_transport g v w m v' w' m' a b c d : (pdet v w <> 0)%R -> framed g v w m -> framed g v' w' m' -> in_group g a b c d ->
  v' = papply a b c d v -> w' = papply a b c d w -> forall p, mpt m' (papply a b c d p) = mpt m p.
Proof.
  intros D F F' G -> -> p. assert (Dm := group_det g a b c d G).
  assert (X : mpt m' (papply a b c d v) = mpt m v -> mpt m' (papply a b c d w) = mpt m w -> mpt m' (papply a b c d p) = mpt m p).
  { clear - D Dm. destruct m as [[[e f] h] k], m' as [[[e' f'] h'] k']. cbn [mpt]. intros E1 E2. rewrite (basis_papply (den e) (den f) (den h) (den k) v w p D), <- E1, <- E2.
    assert (D' : (pdet (papply a b c d v) (papply a b c d w) <> 0)%R) by (rewrite pdet_papply; now apply Rmult_integral_contrapositive).
    rewrite (basis_papply (den e') (den f') (den h') (den k') _ _ (papply a b c d p) D'). rewrite !pdet_papply.
    assert (R : forall x, ((a * d - b * c) * x / ((a * d - b * c) * pdet v w) = x / pdet v w)%R) by (intros x; field; auto). now rewrite !R. }
  destruct g; cbn [framed in_group] in *.
  - destruct m as [[[e f] h] k], m' as [[[e' f'] h'] k']. cbn [mpt]. destruct F as (-> & -> & -> & ->), F' as (-> & -> & -> & ->), G as (-> & -> & -> & ->). clear. destruct p as [x y]. unfold papply. cbn [fst snd]. apply pt_eq; cbn [fst snd]; ring.
  - destruct F as [F1 F2], F' as [F1' F2']. apply X; [congruence|]. rewrite F2, F2'. f_equal. rewrite pdet_papply, Rabs_mult. replace (Rabs (a * d - b * c)) with 1%R; [ring|].
    destruct G as [-> | ->]; [now rewrite Rabs_R1|]. rewrite Rabs_left; lra.
  - destruct F as [F1 F2], F' as [F1' F2']. apply X; congruence.
Qed.

(** ** How the matrices are computed *)
Variable truediv : K -> K -> option K.
Hypothesis Hdiv : exact_division truediv.
Lemma div_ok x y z : (den y <> 0)%R -> div truediv x y = Ok z -> den z = (den x / den y)%R.
Proof.
  intros D. unfold div. assert (Q := Hdiv x y D). destruct (truediv x y) as [q|]; intros E; [|discriminate]. injection E as <-. rewrite <- Q. field. exact D.
Qed.
Lemma orthonormalize_ok n s h k m : closed_flat n s -> h < n -> k < n -> (pdet (vv s h) (vv s k) <> 0)%R -> orthonormalize truediv s h k = Ok m -> framed GL (vv s h) (vv s k) m.
Proof.
  intros S Hh Hk D. unfold orthonormalize. rewrite !(from_he_Ok s) by (now rewrite (fs_length n s (proj1 S))). cbn [bind]. unfold vv in *. change (nth h (fvec s) vzero) with (vat' s h) in *. change (nth k (fvec s) vzero) with (vat' s k) in *.
  destruct (vat' s h) as [x y], (vat' s k) as [x' y']. unfold vden, pdet in *. cbn [vx vy fst snd] in *.
  assert (D' : (den (x * y' - y * x')%X <> 0)%R) by (rewrite den_sub, !den_mul; exact D).
  intros E. apply bind_Ok in E as (p & Ep & E). apply bind_Ok in E as (q & Eq & E). apply bind_Ok in E as (r & Er & E). apply bind_Ok in E as (t & Et & E). injection E as <-.
  apply div_ok in Ep, Eq, Er, Et; auto. rewrite den_sub, !den_mul in *. cbn [framed mpt]. rewrite !den_opp, Ep, Eq, Er, Et. unfold papply. cbn [fst snd]. split; apply pt_eq; cbn [fst snd]; field; exact D.
Qed.
Lemma normalize_ok n s g h k m : closed_flat n s -> h < n -> k < n -> (pdet (vv s h) (vv s k) <> 0)%R -> normalize_matrix truediv g s h k = Ok m -> framed g (vv s h) (vv s k) m.
Proof.
  intros S Hh Hk D. destruct g; cbn [normalize_matrix].
  - intros [= <-]. cbn [framed]. rewrite !den_ofZ. auto.
  - unfold orthogonalize. intros E. apply bind_Ok in E as (m0 & E0 & E). apply (orthonormalize_ok n) in E0; auto. assert (Q := framed_det GL _ _ m0 D E0). destruct m0 as [[[a b] c] d]. cbn [mdet] in Q. cbn [framed mpt] in E0.
    set (v := vv s h) in *. set (w := vv s k) in *. clearbody v w. set (dt := (a * d - b * c)%X) in *.
    assert (Ed : den dt = (/ pdet v w)%R) by (unfold dt; rewrite den_sub, !den_mul; apply (Rmult_eq_reg_r (pdet v w)); auto; rewrite Q; field; exact D).
    set (dt' := if (dt <? 0)%X then ropp dt else dt) in *.
    assert (Ed' : den dt' = (/ Rabs (pdet v w))%R).
    { unfold dt'. destruct (rltb_reflect dt (rofZ 0)) as [L|L]; rewrite den_ofZ, Ed in L; rewrite ?den_opp, Ed.
      - assert (pdet v w < 0)%R by (destruct (Rtotal_order (pdet v w) 0) as [X|[X|X]]; auto; [contradiction|]; apply Rinv_0_lt_compat in X; lra). rewrite Rabs_left by auto. field. exact D.
      - assert (0 < pdet v w)%R by (destruct (Rtotal_order (pdet v w) 0) as [X|[X|X]]; auto; [|contradiction]; apply Rinv_lt_0_compat in X; lra). rewrite Rabs_pos_eq by lra. reflexivity. }
    assert (P : (0 < Rabs (pdet v w))%R) by (now apply Rabs_pos_lt).
    assert (N : (den dt' <> 0)%R) by (rewrite Ed'; apply Rinv_neq_0_compat; lra).
    apply bind_Ok in E as (c' & Ec & E). apply bind_Ok in E as (d' & Ed'' & E). injection E as <-. apply div_ok in Ec, Ed''; auto. rewrite Ed' in *. cbn [framed mpt]. rewrite Ec, Ed''.
    destruct E0 as [F1 F2]. unfold papply in *. injection F1 as F1 F1'. injection F2 as F2 F2'. split; apply pt_eq; cbn [fst snd]; auto.
    + transitivity (Rabs (pdet v w) * (den c * fst v + den d * snd v))%R; [field; lra|rewrite F1'; ring].
    + transitivity (Rabs (pdet v w) * (den c * fst w + den d * snd w))%R; [field; lra|rewrite F2'; ring].
  - now apply (orthonormalize_ok n).
Qed.
(** Division fails with an exception if at all. *)
Definition clean {A} (x : outcome A) : Prop := (exists a, x = Ok a) \/ x = Throw.
Lemma clean_Ok {A} (a : A) : clean (Ok a). Proof. left. eauto. Qed.
Lemma clean_bind {A B} (x : outcome A) (f : A -> outcome B) : clean x -> (forall a, x = Ok a -> clean (f a)) -> clean (bind x f).
Proof. intros [(a & ->)| ->] H; [now apply H|right; reflexivity]. Qed.
Lemma div_clean x y : clean (div truediv x y).
Proof. unfold div. destruct (truediv x y); [apply clean_Ok|now right]. Qed.
Lemma omap_clean {A B} (f : A -> outcome B) l : (forall x, In x l -> clean (f x)) -> clean (omap f l).
Proof.
  induction l as [|a l IH]; intros H; cbn [omap]; [apply clean_Ok|]. apply clean_bind; [apply H; now left|]. intros b _. apply clean_bind; [apply IH; intros x I; apply H; now right|]. intros r _. apply clean_Ok.
Qed.
Lemma normalize_clean n s g h k : closed_flat n s -> h < n -> k < n -> clean (normalize_matrix truediv g s h k).
Proof.
  intros S Hh Hk. assert (O : clean (orthonormalize truediv s h k)).
  { unfold orthonormalize. rewrite !(from_he_Ok s) by (now rewrite (fs_length n s (proj1 S))). cbn [bind]. repeat (apply clean_bind; [apply div_clean|intros]). apply clean_Ok. }
  destruct g; cbn [normalize_matrix]; auto; [apply clean_Ok|]. unfold orthogonalize. apply clean_bind; auto. intros [[[a b] c] d] _. repeat (apply clean_bind; [apply div_clean|intros]). apply clean_Ok.
Qed.
(** The second half edge of the basis. *)
Definition second s (x : nat * Z) : nat := if (0 <? snd x)%Z then fV s (fst x) else pV (fT s) (fst x).
Lemma second_lt n s x : closed_flat n s -> fst x < n -> second s x < n.
Proof. intros S H. unfold second. destruct (0 <? snd x)%Z; [now apply (fV_lt n s _ (proj1 S))|apply (pV_lt n (fT s)); auto; apply S]. Qed.
Lemma second_det n s x : closed_flat n s -> fst x < n -> (snd x = 1%Z \/ snd x = (-1)%Z) -> sign_is (snd x) (pdet (vv s (fst x)) (vv s (second s x))).
Proof.
  intros S H [E|E]; unfold second, sign_is; rewrite E; cbn; [left|right]; split; auto.
  - apply (corner_det n); auto; [apply S|now apply (proj2 S)].
  - assert (W := fs_wf n s (proj1 S)). assert (L := pV_lt n (fT s) W _ H). assert (D := corner_det n s _ (proj1 S) L (proj2 S _ L)).
    unfold fV in D. rewrite (nV_pV n (fT s) W) in D by auto. unfold pdet in *. lra.
Qed.
Lemma sign_nonzero o r : sign_is o r -> (r <> 0)%R.
Proof. intros [[_ X]|[_ X]]; lra. Qed.
Definition lmat g s (x : nat * Z) : matrix := match normalize_matrix truediv g s (fst x) (second s x) with Ok m => m | _ => (rofZ 1, rofZ 0, rofZ 0, rofZ 1) end.
Lemma make_lwalker_sign s h o m : sign_is o (mdet m) -> make_lwalker s h m = mkLW (make_cwalker s h o) m.
Proof.
  destruct m as [[[a b] c] d]. unfold make_lwalker. cbn [mdet]. intros D. destruct (rltb_reflect (rofZ 0) (a * d - b * c)%X) as [L|L]; rewrite den_ofZ, den_sub, !den_mul in L; destruct D as [[-> D]|[-> D]]; auto; lra.
Qed.
Lemma framed_start n s g oriented x m : closed_flat n s -> (g = TRIVIAL -> oriented = true) -> In x (starts oriented n) -> normalize_matrix truediv g s (fst x) (second s x) = Ok m ->
  framed g (vv s (fst x)) (vv s (second s x)) m /\ sign_is (snd x) (mdet m).
Proof.
  intros S G I E. destruct (starts_sign _ _ _ I) as [H O]. assert (D := second_det n s x S H O). assert (D0 := sign_nonzero _ _ D).
  assert (F := normalize_ok n s g _ _ m S H (second_lt n s x S H) D0 E). split; auto.
  destruct (match g with TRIVIAL => true | _ => false end) eqn:T.
  - destruct g; try discriminate. assert (Q := framed_det _ _ _ _ D0 F). cbn in Q. rewrite Q. rewrite (G eq_refl) in I. destruct x as [h o]. apply in_starts in I as [_ [-> |[? _]]]; [|discriminate]. left. split; auto. lra.
  - assert (Q := framed_sign _ _ _ _ D0 F). assert (X : g <> TRIVIAL) by (intros ->; discriminate). specialize (Q X). destruct D as [[-> D]|[-> D]]; [left|right]; split; auto; nra.
Qed.
Lemma linear_starts n s g oriented : closed_flat n s -> (g = TRIVIAL -> oriented = true) ->
  linear_walkers truediv oriented g s = Throw \/
  (linear_walkers truediv oriented g s = Ok (map (fun x => mkLW (make_cwalker s (fst x) (snd x)) (lmat g s x)) (starts oriented n)) /\
   forall x, In x (starts oriented n) -> framed g (vv s (fst x)) (vv s (second s x)) (lmat g s x) /\ sign_is (snd x) (mdet (lmat g s x))).
Proof.
  intros S G. assert (W := fs_wf n s (proj1 S)). unfold linear_walkers, half_edges. rewrite (wf_size n) by auto.
  set (one := fun h => _). assert (C : clean (omap one (seq 0 n))).
  { apply omap_clean. intros h I. apply in_seq in I. unfold one. rewrite (nextV_Ok n) by (auto; lia). cbn [bind]. apply clean_bind; [apply (normalize_clean n); auto; [lia|apply (fV_lt n s h (proj1 S)); lia]|]. intros m _.
    destruct oriented; [apply clean_Ok|]. rewrite (prevV_Ok n) by (auto; lia). cbn [bind]. apply clean_bind; [apply (normalize_clean n); auto; [lia|apply (pV_lt n (fT s)); auto; lia]|]. intros m' _. apply clean_Ok. }
  destruct C as [(ws & E)|E]; [right|left; now rewrite E].
  assert (A : forall l ws, omap one l = Ok ws -> (forall h, In h l -> h < n) ->
    concat ws = map (fun x => mkLW (make_cwalker s (fst x) (snd x)) (lmat g s x)) (flat_map (fun h => (h, 1%Z) :: if oriented then [] else [(h, (-1)%Z)]) l) /\
    forall x, In x (flat_map (fun h => (h, 1%Z) :: if oriented then [] else [(h, (-1)%Z)]) l) -> normalize_matrix truediv g s (fst x) (second s x) = Ok (lmat g s x)).
  { clear ws E. induction l as [|h l IH]; intros ws E B; cbn [omap] in E.
    - injection E as <-. split; auto. intros x [].
    - apply bind_Ok in E as (w & Ew & E). apply bind_Ok in E as (r & Er & E). injection E as <-. destruct (IH r Er) as [IH1 IH2]; [intros y I; apply B; now right|]. assert (Hh : h < n) by (apply B; now left).
      unfold one in Ew. rewrite (nextV_Ok n) in Ew by auto. cbn [bind] in Ew. apply bind_Ok in Ew as (m & Em & Ew). change (nV (fT s) h) with (second s (h, 1%Z)) in Em. 
      assert (L1 : lmat g s (h, 1%Z) = m) by (unfold lmat; cbn [fst]; now rewrite Em).
      assert (I1 : In (h, 1%Z) (starts oriented n)) by (apply in_starts; auto). destruct (framed_start n s g oriented (h, 1%Z) m S G I1 Em) as [_ D1]. cbn [snd] in D1.
      cbn [concat flat_map]. destruct oriented.
      + injection Ew as <-. cbn [app map fst snd]. rewrite IH1, L1, (make_lwalker_sign s h 1 m) by auto. split; auto. intros x [<-|I]; auto. rewrite L1. auto.
      + rewrite (prevV_Ok n) in Ew by auto. cbn [bind] in Ew. apply bind_Ok in Ew as (m' & Em' & Ew). injection Ew as <-. change (pV (fT s) h) with (second s (h, (-1)%Z)) in Em'.
        assert (L2 : lmat g s (h, (-1)%Z) = m') by (unfold lmat; cbn [fst]; now rewrite Em').
        assert (I2 : In (h, (-1)%Z) (starts false n)) by (apply in_starts; auto). destruct (framed_start n s g false (h, (-1)%Z) m' S G I2 Em') as [_ D2]. cbn [snd] in D2.
        cbn [app map fst snd]. rewrite IH1, L1, L2, (make_lwalker_sign s h 1 m), (make_lwalker_sign s h (-1) m') by auto. split; auto. intros x [<-|[<-|I]]; auto; [rewrite L1|rewrite L2]; auto. }
  destruct (A _ _ E) as [A1 A2]; [intros h I; apply in_seq in I; lia|]. rewrite E. cbn [bind]. split; [now rewrite A1|]. intros x I. apply (framed_start n s g oriented); auto.
Qed.
(** Over a field, there are no exceptions. *)
Lemma linear_walkers_field n s g oriented : closed_flat n s -> (g = TRIVIAL -> oriented = true) -> (g = TRIVIAL \/ forall x y : K, (den y <> 0)%R -> exists z, truediv x y = Some z) ->
  linear_walkers truediv oriented g s <> Throw.
Proof.
  intros S G D E. assert (W := fs_wf n s (proj1 S)).
  assert (A : forall x, In x (starts oriented n) -> exists m, normalize_matrix truediv g s (fst x) (second s x) = Ok m).
  { intros x I. destruct (starts_sign _ _ _ I) as [H O]. assert (Dt := sign_nonzero _ _ (second_det n s x S H O)). destruct D as [-> |D]; [eexists; reflexivity|]. assert (H2 := second_lt n s x S H).
    assert (Dv : forall x y : K, (den y <> 0)%R -> exists z, div truediv x y = Ok z) by (intros a b Q; destruct (D a b Q) as (z & Z); exists z; unfold div; now rewrite Z).
    assert (On : exists m, orthonormalize truediv s (fst x) (second s x) = Ok m).
    { unfold orthonormalize. rewrite !(from_he_Ok s) by (now rewrite (fs_length n s (proj1 S))). cbn [bind].
      set (dt := rsub _ _). assert (Q : (den dt <> 0)%R) by (unfold dt; rewrite den_sub, !den_mul; exact Dt).
      destruct (Dv (vy (vat' s (second s x))) dt Q) as (? & ->). cbn [bind]. destruct (Dv (vx (vat' s (second s x))) dt Q) as (? & ->). cbn [bind]. destruct (Dv (vy (vat' s (fst x))) dt Q) as (? & ->). cbn [bind].
      destruct (Dv (vx (vat' s (fst x))) dt Q) as (? & ->). cbn [bind]. eauto. }
    destruct g; cbn [normalize_matrix]; eauto. destruct On as ([[[a b] c] d] & Eo). unfold orthogonalize. rewrite Eo. cbn [bind].
    assert (F := framed_det GL _ _ _ Dt (orthonormalize_ok n s _ _ _ S H H2 Dt Eo)). cbn [mdet] in F.
    cbv zeta. set (dt := if (a * d - b * c <? 0)%X then _ else _). assert (Q : (den dt <> 0)%R). { unfold dt. destruct (rltb _ _); rewrite ?den_opp, den_sub, !den_mul; intros Z; assert (Z' : (den a * den d - den b * den c = 0)%R) by lra; rewrite Z' in F; lra. }
    destruct (Dv c dt Q) as (? & ->). cbn [bind]. destruct (Dv d dt Q) as (? & ->). cbn [bind]. eauto. }
  unfold linear_walkers, half_edges in E. rewrite (wf_size n) in E by auto. rewrite (omap_map _ (fun h => make_lwalker s h (lmat g s (h, 1%Z)) :: if oriented then [] else [make_lwalker s h (lmat g s (h, (-1)%Z))])) in E; [discriminate|].
  intros h I. apply in_seq in I. assert (H : h < n) by lia. rewrite (nextV_Ok n) by auto. cbn [bind]. destruct (A (h, 1%Z)) as (m & Em); [apply in_starts; auto|]. change (nV (fT s) h) with (second s (h, 1%Z)).
  assert (L1 : lmat g s (h, 1%Z) = m) by (unfold lmat; now rewrite Em). cbn [fst] in Em. rewrite Em. cbn [bind]. rewrite L1. destruct oriented; auto.
  rewrite (prevV_Ok n) by auto. cbn [bind]. destruct (A (h, (-1)%Z)) as (m' & Em'); [apply in_starts; auto|]. change (pV (fT s) h) with (second s (h, (-1)%Z)).
  assert (L2 : lmat g s (h, (-1)%Z) = m') by (unfold lmat; now rewrite Em'). cbn [fst] in Em'. rewrite Em'. cbn [bind]. now rewrite L2.
Qed.
End facts.
