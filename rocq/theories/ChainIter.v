(** * Iterating, comparing and hashing chains *)
From Coq Require Import ZArith QArith Qreals Reals List Arith Bool Lia Lra.
From Verif Require Import Base HalfEdge HalfEdgeFacts Perm Combinatorial CombinatorialSpec CombinatorialFacts CombinatorialOps ExactReal Vector Arb PlaneSpec Plane VectorFacts ArbFacts
  FlatTri FlatSpec FlatFacts Chain ChainSpec ChainFacts ChainRun.
Import ListNotations.
Local Open Scope nat_scope.

Lemma find_next_spec cs : forall fuel pos, pos <= length cs -> length cs <= fuel + pos -> forall p, find_next fuel cs pos = p ->
  pos <= p <= length cs /\ (forall i, pos <= i < p -> fmpz_is_zero (nth i cs (Small 0)) = true) /\ (p < length cs -> fmpz_is_zero (nth p cs (Small 0)) = false).
Proof.
  induction fuel as [|k IH]; intros pos H1 H2 p E; cbn in E.
  - subst. split; [lia|]. split; intros; lia.
  - destruct (nth_error cs pos) as [f|] eqn:N.
    + apply nth_error_nth with (d := Small 0) in N as N'. assert (L : pos < length cs) by (apply nth_error_Some; congruence).
      destruct (fmpz_is_zero f) eqn:Z.
      * destruct (IH (S pos) ltac:(lia) ltac:(lia) p E) as (B & Zs & NZ). split; [lia|]. split; auto. intros i Hi. destruct (Nat.eq_dec i pos) as [->|]; [now rewrite N'|]. apply Zs; lia.
      * subst. split; [lia|]. split; [intros; lia|]. auto.
    + apply nth_error_None in N. subst. split; [lia|]. split; intros; lia.
Qed.

Definition nonzero (a : coeffs) (i : nat) : bool := negb (a i =? 0)%Z.
Definition items (a : coeffs) (l : list nat) : list (nat * Z) := map (fun i => (2 * i, a i)) (filter (nonzero a) l).

Lemma items_skip a m q p : q <= p <= m -> (forall i, q <= i < p -> a i = 0%Z) -> items a (seq q (m - q)) = items a (seq p (m - p)).
Proof.
  intros H Z. remember (p - q) as k eqn:Ek. revert q H Z Ek. induction k as [|k IH]; intros q H Z Ek.
  - now replace q with p by lia.
  - replace (m - q) with (S (m - S q)) by lia. cbn [seq]. unfold items in *. cbn [filter]. unfold nonzero at 1. rewrite (Z q) by lia. cbn.
    apply IH; [lia| |lia]. intros; apply Z; lia.
Qed.

Section chains.
Context {K : ExactReal}.
Variable n : nat.
Local Notation m := (n / 2).
Local Notation chain := (@chain K).
Implicit Types (c : chain).

Lemma cinv_zero cs a i : cinv m cs a -> i < m -> fmpz_is_zero (nth i cs (Small 0)) = (a i =? 0)%Z.
Proof.
  intros [_ H] Hi. destruct (H i Hi) as [F V]. apply eq_true_iff_eq. rewrite (fmpz_is_zero_spec _ F), V. symmetry. apply Z.eqb_eq.
Qed.

Definition at_item c a pos : Prop := pos <= m /\ (pos < m -> a pos <> 0%Z /\ nth pos (coefs c) (Small 0) = Big (a pos)).

Lemma it_make_Ok c a q : cinv m (coefs c) a -> q <= m ->
  exists (c' : chain) p, it_make c (find_next (length (coefs c)) (coefs c) q) = Ok (c', p) /\ cinv m (coefs c') a /\ cexact c' = cexact c /\ capprox c' = capprox c /\
    q <= p /\ at_item c' a p /\ (forall i, q <= i < p -> a i = 0%Z).
Proof.
  intros I Hq. destruct (I) as [L H]. destruct (find_next_spec (coefs c) (length (coefs c)) q ltac:(lia) ltac:(lia) _ eq_refl) as (B & Zs & NZ).
  set (p := find_next _ _ _) in *. rewrite L in *. unfold it_make. rewrite L.
  assert (Z0 : forall i, q <= i < p -> a i = 0%Z).
  { intros i Hi. specialize (Zs i Hi). rewrite (cinv_zero _ a) in Zs by (auto; lia). now apply Z.eqb_eq. }
  destruct (Nat.eqb_spec p m) as [E|E].
  - exists c, p. split; auto. split; auto. split; auto. split; auto. split; [lia|]. split; auto. split; intros; lia.
  - assert (Hp : p < m) by lia. specialize (NZ Hp). unfold coefficient. rewrite (vget_nth _ _ (Small 0)) by lia. cbn [bind]. rewrite NZ. cbn [bind].
    rewrite (cinv_zero _ a) in NZ by auto. apply Z.eqb_neq in NZ. destruct (H p Hp) as [F V].
    do 2 eexists. split; [reflexivity|]. cbn [coefs cexact capprox]. split.
    { apply (cinv_upd m (coefs c) a); auto. unfold fok, fmpz_promote. rewrite V. congruence. }
    split; auto. split; auto. split; [lia|]. split; auto. split; [lia|]. intros _. split; auto. cbn [coefs]. rewrite nth_upd_eq by lia. unfold fmpz_promote. now rewrite V.
Qed.

Lemma it_loop_Ok a : forall fuel c pos, cinv m (coefs c) a -> at_item c a pos -> m - pos < fuel ->
  exists c' : chain, it_loop fuel c pos = Ok (c', items a (seq pos (m - pos))) /\ cinv m (coefs c') a /\ cexact c' = cexact c /\ capprox c' = capprox c.
Proof.
  induction fuel as [|k IH]; intros c pos I At Hf; [lia|]. destruct (I) as [L H]. cbn [it_loop]. rewrite L. destruct At as [B At]. destruct (Nat.eqb_spec pos m) as [->|Ne].
  - exists c. rewrite Nat.sub_diag. split; auto.
  - destruct At as [Nz N]; [lia|]. rewrite (vget_nth _ _ (Small 0)) by lia. cbn [bind]. unfold it_next. rewrite (vget_nth _ _ (Small 0)) by lia. rewrite N. cbn [bind fmpz_demote].
    set (c1 := mkChain _ _ _).
    assert (I1 : cinv m (coefs c1) a).
    { apply (cinv_upd m (coefs c) a); auto; [lia|apply fok_normalize|apply fval_normalize]. }
    change (upd (coefs c) pos (normalize (a pos))) with (coefs c1).
    destruct (it_make_Ok c1 a (S pos) I1 ltac:(lia)) as (c2 & p & -> & I2 & E2 & A2 & P2 & At2 & Z2). cbn [bind].
    destruct At2 as [B2 At2]. destruct (IH c2 p I2) as (c3 & -> & I3 & E3 & A3); [split; auto|lia|]. cbn [bind]. exists c3.
    split; [|split; [assumption|split; [now rewrite E3, E2|now rewrite A3, A2]]].
    do 2 f_equal. replace (m - pos) with (S (m - S pos)) by lia. cbn [seq]. unfold items at 2. cbn [filter]. unfold nonzero at 1. apply Z.eqb_neq in Nz. rewrite Nz. cbn [negb map fval].
    f_equal. symmetry. apply (items_skip a m (S pos) p); auto; lia.
Qed.

Lemma chain_items_Ok c a : cinv m (coefs c) a ->
  exists c' : chain, chain_items c = Ok (c', items a (seq 0 m)) /\ cinv m (coefs c') a /\ cexact c' = cexact c /\ capprox c' = capprox c.
Proof.
  intros I. unfold chain_items, it_begin. destruct (it_make_Ok c a 0 I ltac:(lia)) as (c1 & p & -> & I1 & E1 & A1 & _ & At & Z). cbn [bind]. destruct (I1) as [L _]. rewrite L.
  destruct (it_loop_Ok a (S m) c1 p I1 At ltac:(lia)) as (c2 & -> & I2 & E2 & A2). exists c2. split; [|split; [assumption|split; congruence]].
  do 2 f_equal. symmetry. rewrite <- (Nat.sub_0_r m) at 1. apply items_skip; auto. destruct At as [At _]. lia.
Qed.

Lemma chain_bool_Ok c a : cinv m (coefs c) a -> (chain_bool c = true <-> exists i, i < m /\ a i <> 0%Z).
Proof.
  intros I. destruct (I) as [L _]. unfold chain_bool. rewrite negb_true_iff. rewrite <- not_true_iff_false, forallb_forall. split.
  - intros N. destruct (existsb (fun i => negb (a i =? 0)%Z) (seq 0 m)) eqn:E.
    + apply existsb_exists in E as (i & J & Q). apply in_seq in J. apply negb_true_iff, Z.eqb_neq in Q. exists i. split; [lia|auto].
    + exfalso. apply N. intros f J. apply In_nth with (d := Small 0) in J as (i & Hi & <-). rewrite L in Hi. rewrite (cinv_zero _ a) by auto.
      apply not_true_iff_false in E. destruct (a i =? 0)%Z eqn:Q; auto. exfalso. apply E. apply existsb_exists. exists i. split; [apply in_seq; lia|now rewrite Q].
  - intros (i & Hi & Nz) N. specialize (N (nth i (coefs c) (Small 0))). rewrite (cinv_zero _ a) in N by auto. apply Nz. apply Z.eqb_eq, N. apply nth_In. lia.
Qed.

Lemma coef_edge_Ok c a i : cinv m (coefs c) a -> i < m -> coef_edge c (2 * i) = Ok (a i).
Proof.
  intros I Hi. unfold coef_edge. rewrite div2_even. destruct (coefficient_Ok n c a i I Hi) as (c' & -> & _). cbn [bind]. destruct (Z.eqb_spec (a i) 0) as [->|]; auto.
Qed.
Lemma coef_half_edge_Ok c a h : cinv m (coefs c) a -> h / 2 < m -> coef_half_edge c h = Ok (if Nat.even h then a (h / 2) else Z.opp (a (h / 2))).
Proof.
  intros I Hi. unfold coef_half_edge. destruct (he_cases h) as (k & [->| ->]).
  - rewrite div2_even in *. unfold positive. rewrite edge_of_even, div2_even. rewrite (coef_edge_Ok c a) by auto. cbn [bind]. rewrite Nat.eqb_refl, Nat.even_mul. reflexivity.
  - rewrite div2_odd in *. unfold positive. rewrite edge_of_even, div2_odd. rewrite (coef_edge_Ok c a) by auto. cbn [bind].
    rewrite (proj2 (Nat.eqb_neq _ _)) by lia. now rewrite Nat.even_succ, <- Nat.negb_even, Nat.even_mul.
Qed.

Lemma chain_hash_Ok c (d : chain) a : cinv m (coefs c) a -> cinv m (coefs d) a -> 0 < m -> chain_hash c = chain_hash d /\ exists h, chain_hash c = Ok h.
Proof.
  intros [L1 H1] [L2 H2] Hm. unfold chain_hash.
  assert (E : map hash_fmpz (coefs c) = map hash_fmpz (coefs d)).
  { apply nth_ext with (d := hash_fmpz (Small 0)) (d' := hash_fmpz (Small 0)); [rewrite !map_length; lia|]. intros i Hi. rewrite map_length, L1 in Hi. rewrite !map_nth.
    unfold hash_fmpz. destruct (H1 i Hi) as [_ ->]. destruct (H2 i Hi) as [_ ->]. reflexivity. }
  assert (F : forall l k, fold_left (fun h g => hash_combine h (hash_fmpz g)) l k = fold_left hash_combine (map hash_fmpz l) k).
  { induction l as [|x l IH]; intros k; cbn; auto. }
  destruct (coefs c) as [|x l], (coefs d) as [|y r]; cbn [length] in L1, L2; try lia. cbn [map] in E. pose proof (f_equal (hd 0%Z) E) as E1. pose proof (f_equal (@tl Z) E) as E2. cbn [hd tl] in E1, E2. rewrite !F, E1, E2. eauto.
Qed.
End chains.

Section eq.
Variable A : ArbOps.
Context {K : ExactReal}.
Variable arb : K -> ball.
Hypothesis arb_sound : forall x, within (den x) (arb x).
Variable C : costs.
Variable n : nat.
Variable s : flat K.
Hypothesis S : flat_surface n s.
Local Notation m := (n / 2).
Local Notation chain := (@chain K).
Implicit Types (st : list chain).

Lemma Forall2_firstn {X Y} (P : X -> Y -> Prop) l r k : Forall2 P l r -> Forall2 P (firstn k l) (firstn k r).
Proof. intros F. revert k. induction F; intros [|k]; cbn; auto. Qed.
Lemma firstn_upd_last {X} (l : list X) x y : firstn (length l) (upd (l ++ [x]) (length l) y) = l.
Proof. rewrite upd_app_last, firstn_app, Nat.sub_diag, firstn_all. cbn. apply app_nil_r. Qed.

Lemma chain_eq_Ok st a i j : CI n st a -> i < length st -> j < length st ->
  exists st' b, chain_eq A arb C s st i j = Ok (st', b) /\ CI n st' a /\ (b = true <-> forall k, k < m -> nth i a czero k = nth j a czero k) /\
    (EI n s st a -> EI n s st' a) /\ (EI n s st a -> AI A n s st a -> AI A n s st' a).
Proof.
  intros I Hi Hj. pose proof (CI_len n _ _ I) as L. unfold chain_eq. rewrite (vget_nth _ _ dchain) by auto. cbn [bind].
  pose proof (CI_nth n _ _ _ I Hi) as Ii. destruct (copy_chain_Ok A arb arb_sound n s S _ _ Ii) as (c1 & d & -> & I1 & Id & _ & Q1 & Q2). cbn [bind].
  assert (C1 : CI n (upd st i c1 ++ [d]) (a ++ [nth i a czero])) by (apply CI_app; auto; apply CI_upd_same; auto).
  assert (L1 : length (upd st i c1 ++ [d]) = length st + 1) by (rewrite app_length, upd_length; reflexivity).
  destruct (add_chain_Ok A arb C n s false _ _ (length st) j C1) as (st3 & E3 & C3 & X3 & A3); [lia|lia|]. rewrite E3. cbn [bind].
  assert (L3 : length st3 = length st + 1) by (apply CI_len in C3; rewrite upd_length, app_length in C3; cbn in C3; lia).
  rewrite (vget_nth _ _ dchain) by lia. cbn [bind]. do 2 eexists. split; [reflexivity|]. rewrite L3. replace (length st + 1 - 1) with (length st) by lia.
  split; [|split; [|split]].
  - unfold CI in *. rewrite <- firstn_map. apply Forall2_firstn with (k := length st) in C3. rewrite L in C3 |- *. rewrite firstn_upd_last in C3. exact C3.
  - assert (Ib : cinv m (coefs (nth (length st) st3 dchain)) (csum false (nth i a czero) (nth j a czero))).
    { pose proof (CI_nth n _ _ (length st) C3) as Q. rewrite L3 in Q. specialize (Q ltac:(lia)). rewrite nth_upd_eq in Q by (rewrite app_length; cbn; lia).
      rewrite (app_nth2 a), L, Nat.sub_diag in Q by lia. rewrite (app_nth1 a) in Q by lia. rewrite L. exact Q. }
    rewrite negb_true_iff, <- not_true_iff_false, (chain_bool_Ok n _ _ Ib). unfold csum. split.
    + intros N k Hk. destruct (Z.eq_dec (nth i a czero k) (nth j a czero k)); auto. exfalso. apply N. exists k. split; auto. lia.
    + intros E (k & Hk & N). apply N. rewrite (E k Hk). lia.
  - intros E. destruct (Q1 (EI_nth n s _ _ _ E Hi)) as [X Y].
    assert (Z : EI n s (upd st i c1 ++ [d]) (a ++ [nth i a czero])) by (apply EI_app; auto; apply EI_upd_same; auto).
    apply X3 in Z. unfold EI in *. rewrite <- firstn_map. apply Forall2_firstn with (k := length st) in Z. rewrite L in Z |- *. rewrite firstn_upd_last in Z. exact Z.
  - intros E EA. destruct (Q2 (EI_nth n s _ _ _ E Hi) (AI_nth A n s _ _ _ EA Hi)) as [X Y].
    assert (Z : AI A n s (upd st i c1 ++ [d]) (a ++ [nth i a czero])) by (apply AI_app; auto; apply AI_upd_same; auto).
    apply A3 in Z. unfold AI in *. rewrite <- firstn_map. apply Forall2_firstn with (k := length st) in Z. rewrite L in Z |- *. rewrite firstn_upd_last in Z. exact Z.
Qed.
End eq.
