(** * Sums over half edges and the area of a surface *)
From Coq Require Import ZArith Reals List Arith Bool Lia Lra Psatz Permutation.
From Verif Require Import Base HalfEdge HalfEdgeFacts Perm PermSpec PermFacts PermCycles PermLemmas
  IndexedSet Combinatorial CombinatorialSpec CombinatorialFacts CombinatorialFlip
  CombinatorialHistory CombinatorialOps ExactReal Vector PlaneSpec Plane VectorFacts FlatTri FlatSpec FlatFacts.
Import ListNotations.
Local Open Scope R_scope.

Lemma rsum_app l r : rsum (l ++ r) = rsum l + rsum r.
Proof. induction l; cbn; lra. Qed.
Lemma rsum_perm l r : Permutation l r -> rsum l = rsum r.
Proof. induction 1; cbn; lra. Qed.
Lemma rsum_ext {A} (f g : A -> R) l : (forall x, In x l -> f x = g x) -> rsum (map f l) = rsum (map g l).
Proof. intros H. f_equal. now apply map_ext_in. Qed.
Lemma rsum_plus {A} (f g : A -> R) l : rsum (map (fun x => f x + g x) l) = rsum (map f l) + rsum (map g l).
Proof. induction l; cbn; lra. Qed.
Lemma rsum_scale {A} c (f : A -> R) l : rsum (map (fun x => c * f x) l) = c * rsum (map f l).
Proof. induction l as [|a l IH]; cbn; [lra|]. rewrite IH. lra. Qed.
Lemma rsum_const {A} c (l : list A) : rsum (map (fun _ => c) l) = INR (length l) * c.
Proof. induction l as [|a l IH]; [cbn; lra|]. cbn [map rsum length]. rewrite IH, S_INR. lra. Qed.
Lemma rsum_zero {A} (f : A -> R) l : (forall x, In x l -> f x = 0) -> rsum (map f l) = 0.
Proof. induction l as [|a l IH]; cbn; intros H; auto. rewrite H, IH; auto. lra. Qed.
Lemma rsum_nonneg {A} (f : A -> R) l : (forall x, In x l -> 0 <= f x) -> 0 <= rsum (map f l).
Proof. induction l as [|a l IH]; cbn; intros H; [lra|]. pose proof (H a (or_introl eq_refl)). specialize (IH (fun x I => H x (or_intror I))). lra. Qed.
Lemma rsum_pos {A} (f : A -> R) l : l <> [] -> (forall x, In x l -> 0 < f x) -> 0 < rsum (map f l).
Proof.
  destruct l as [|a l]; [congruence|]. cbn. intros _ H. pose proof (H a (or_introl eq_refl)).
  assert (0 <= rsum (map f l)) by (apply rsum_nonneg; intros x I; left; auto). lra.
Qed.

Lemma perm_seq n (f g : nat -> nat) : bijection n f g -> Permutation (map f (seq 0 n)) (seq 0 n).
Proof.
  intros [B1 B2]. apply NoDup_Permutation_bis.
  - assert (I : forall l, NoDup l -> (forall x, In x l -> (x < n)%nat) -> NoDup (map f l)).
    { induction l as [|a l IH]; cbn; intros N H; [constructor|]. inv N. constructor; auto.
      rewrite in_map_iff. intros (x & E & J). apply H2. assert (x = a); [|now subst].
      destruct (B1 x) as [_ X]; auto. destruct (B1 a) as [_ Y]; auto. congruence. }
    apply I; [apply seq_NoDup|]. intros x J. apply in_seq in J. lia.
  - now rewrite map_length.
  - intros x. rewrite in_map_iff. intros (y & <- & J). apply in_seq in J. apply in_seq. destruct (B1 y); lia.
Qed.

Lemma reindex n (f g : nat -> nat) (h : nat -> R) : bijection n f g ->
  rsum (map (fun e => h (f e)) (seq 0 n)) = rsum (map h (seq 0 n)).
Proof. intros B. rewrite <- map_map. apply rsum_perm, Permutation_map. eapply perm_seq; eauto. Qed.

(** A sum of differences that vanish outside of [L]. *)
Lemma rsum_support (h : nat -> R) L : NoDup L -> forall l, NoDup l -> (forall x, In x L -> In x l) ->
  (forall x, In x l -> ~ In x L -> h x = 0) -> rsum (map h l) = rsum (map h L).
Proof.
  intros N. induction N as [|a L Na N IH]; intros l Nl H Z.
  - apply rsum_zero. auto.
  - destruct (in_split a l) as (l1 & l2 & ->); [auto with datatypes|].
    rewrite map_app, rsum_app. cbn [map rsum].
    rewrite <- (IH (l1 ++ l2)).
    + rewrite map_app, rsum_app. lra.
    + now apply NoDup_remove in Nl as [? _].
    + intros x I. assert (x <> a) by congruence. assert (J := H x (or_intror I)).
      apply in_app_or in J. apply in_or_app. cbn in J. intuition congruence.
    + intros x I J. apply Z; [apply in_app_or in I; apply in_or_app; cbn; tauto|].
      intros [<-|Q]; auto. apply NoDup_remove in Nl as [_ Nl]. contradiction.
Qed.

Section flat.
Context {K : ExactReal}.
Implicit Types (s : flat K) (n e : nat).
Local Open Scope nat_scope.

Lemma bijF n s : flat_surface n s -> bijection n (fF s) (pF (fT s)).
Proof. intros S. apply wf_bijF. apply S. Qed.
Lemma bijneg n s : flat_surface n s -> bijection n neg neg.
Proof. intros S. split; intros x Hx; rewrite neg_neg; split; auto; now apply (neg_ltn n (fT s) (fs_wf n s S)). Qed.
Lemma fF_lt n s e : flat_surface n s -> e < n -> fF s e < n.
Proof. intros S. apply (nF_lt n (fT s)). apply S. Qed.
Lemma fF3 n s e : flat_surface n s -> e < n -> fF s (fF s (fF s e)) = e.
Proof. intros S. apply (wf_triangle n (fT s)). apply S. Qed.
Lemma fF_nb n s e : flat_surface n s -> e < n -> fF s e <> e -> fF s (fF s e) <> fF s e.
Proof. intros S He B E. apply B. assert (X := f_equal (fF s) E). rewrite (fF3 n s e S He) in X. congruence. Qed.

(** Twice the area of the triangle at [e], zero at the boundary. *)
Definition corner_area s e : R := if fF s e =? e then 0%R else triangle_area2 s e.
Definition area_sum n s : R := rsum (map (corner_area s) (seq 0 n)).

Lemma corner_area_next n s e : flat_surface n s -> e < n -> corner_area s (fF s e) = corner_area s e.
Proof.
  intros S He. unfold corner_area. destruct (Nat.eqb_spec (fF s e) e) as [B|B].
  - rewrite B, B, Nat.eqb_refl. reflexivity.
  - assert (C := fF_nb n s e S He B). apply Nat.eqb_neq in C. rewrite C. destruct (fs_flat n s S e He B) as [Z _].
    unfold triangle_area2. destruct (vv s e) as [x y], (vv s (fF s e)) as [x' y'], (vv s (fF s (fF s e))) as [x'' y''].
    unfold padd, pdet in *; cbn in *. injection Z as Z1 Z2. assert (x'' = (- x - x')%R) by lra. assert (y'' = (- y - y')%R) by lra. subst. lra.
Qed.

Lemma reps_cover n s reps : flat_surface n s -> one_per_triangle n s reps ->
  Permutation (reps ++ map (fF s) reps ++ map (fun e => fF s (fF s e)) reps) (filter (fun e => negb (fF s e =? e)) (seq 0 n)).
Proof.
  intros S (N & R1 & R2 & R3).
  assert (Inj : forall x y, x < n -> y < n -> fF s x = fF s y -> x = y).
  { intros x y Hx Hy E. rewrite <- (fF3 n s x S Hx), <- (fF3 n s y S Hy), E. reflexivity. }
  assert (ND : forall f : nat -> nat, (forall x y, In x reps -> In y reps -> f x = f y -> x = y) -> NoDup (map f reps)).
  { intros f. clear - N. induction N as [|a l Na N IH]; cbn; intros H; [constructor|]. constructor; auto.
    rewrite in_map_iff. intros (x & E & J). apply Na. assert (x = a) by auto. now subst. }
  assert (Lt : forall r, In r reps -> r < n /\ fF s r < n /\ fF s (fF s r) < n).
  { intros r I. destruct (R1 r I). split; auto. split; repeat apply (fF_lt n); auto. }
  assert (NoD : forall l r : list nat, NoDup l -> NoDup r -> (forall x, In x l -> ~ In x r) -> NoDup (l ++ r)).
  { intros l r Nl Nr. induction Nl as [|a l Na Nl IH]; cbn; intros H; auto. constructor; auto. rewrite in_app_iff. intros [J|J]; auto. eapply H; eauto. }
  apply NoDup_Permutation.
  - apply NoD; [auto| |].
    + apply NoD.
      * apply ND. intros x y I J E. apply Inj; auto; now apply Lt.
      * apply ND. intros x y I J E. destruct (Lt x I) as (? & ? & ?), (Lt y J) as (? & ? & ?). apply Inj in E; auto.
      * intros x I J. apply in_map_iff in I as (r & <- & I). apply in_map_iff in J as (q & E & J).
        destruct (Lt r I) as (? & ? & ?), (Lt q J) as (? & ? & ?). apply Inj in E; auto. rewrite <- E in I. destruct (R2 q J). contradiction.
    + intros x I J. apply in_app_or in J as [J|J]; apply in_map_iff in J as (r & <- & J); destruct (R2 r J); contradiction.
  - apply NoDup_filter, seq_NoDup.
  - intros x. rewrite !in_app_iff, !in_map_iff, filter_In, in_seq, negb_true_iff, Nat.eqb_neq. split.
    + intros [I|[(r & <- & I)|(r & <- & I)]].
      * destruct (R1 x I). split; [lia|auto].
      * destruct (R1 r I). destruct (Lt r I) as (? & ? & ?). split; [lia|]. now apply (fF_nb n).
      * destruct (R1 r I). destruct (Lt r I) as (? & ? & ?). split; [lia|]. rewrite (fF3 n) by auto. intros E. assert (X := f_equal (fF s) E). rewrite (fF3 n) in X by auto. congruence.
    + intros [Hx B]. destruct (R3 x) as [I|[I|I]]; auto; [lia| |].
      * right. right. exists (fF s x). split; auto. apply (fF3 n); auto. lia.
      * right. left. exists (fF s (fF s x)). split; auto. apply (fF3 n); auto. lia.
Qed.

Lemma rsum_filter (f : nat -> R) (p : nat -> bool) l : rsum (map f (filter p l)) = rsum (map (fun x => if p x then f x else 0%R) l).
Proof. induction l as [|a l IH]; cbn; auto. destruct (p a); cbn; rewrite IH; lra. Qed.

Lemma area_sum_reps n s reps : flat_surface n s -> one_per_triangle n s reps ->
  (area_sum n s = 3 * rsum (map (triangle_area2 s) reps))%R.
Proof.
  intros S O. pose proof (rsum_perm _ _ (Permutation_map (corner_area s) (reps_cover n s reps S O))) as P.
  rewrite rsum_filter in P. unfold area_sum. rewrite (rsum_ext _ (fun x => if negb (fF s x =? x) then corner_area s x else 0%R)).
  2: { intros x _. unfold corner_area. destruct (fF s x =? x); auto. }
  rewrite <- P, !map_app, !rsum_app, !map_map. destruct O as (_ & R1 & _).
  assert (A : rsum (map (corner_area s) reps) = rsum (map (triangle_area2 s) reps)).
  { apply rsum_ext. intros x I. destruct (R1 x I) as [_ B]. unfold corner_area. apply Nat.eqb_neq in B. now rewrite B. }
  assert (B : rsum (map (fun x => corner_area s (fF s x)) reps) = rsum (map (corner_area s) reps)).
  { apply rsum_ext. intros x I. apply (corner_area_next n); auto. now apply R1. }
  assert (C : rsum (map (fun x => corner_area s (fF s (fF s x))) reps) = rsum (map (corner_area s) reps)).
  { apply rsum_ext. intros x I. destruct (R1 x I). rewrite !(corner_area_next n); auto. now apply fF_lt. }
  lra.
Qed.

(** The representatives used by [area2]: the smallest half edge of each triangle. *)
Definition first_in_face (t : tri) e : bool := negb (nF t e =? e) && negb (nF t e <? e) && negb (pF t e <? e).
Definition firsts n t : list nat := filter (first_in_face t) (seq 0 n).

Lemma pF_twice n s e : flat_surface n s -> e < n -> pF (fT s) e = fF s (fF s e).
Proof.
  intros S He. assert (W := fs_wf n s S). symmetry. apply (nF_inj n (fT s) W).
  - apply (nF_lt n _ W), (nF_lt n _ W); auto.
  - now apply (pF_lt n _ W).
  - rewrite (nF_pF n _ W) by auto. now apply (wf_triangle _ _ W).
Qed.

Lemma firsts_reps n s : flat_surface n s -> one_per_triangle n s (firsts n (fT s)).
Proof.
  intros S. assert (FI : forall e, In e (firsts n (fT s)) <-> e < n /\ fF s e <> e /\ e <= fF s e /\ e <= fF s (fF s e)).
  { intros e. unfold firsts, first_in_face. rewrite filter_In, in_seq, !andb_true_iff, !negb_true_iff, Nat.eqb_neq, !Nat.ltb_ge.
    split; intros H; repeat (split; try lia); try rewrite (pF_twice n) in *; try tauto; intuition auto; unfold fF; lia. }
  split; [apply NoDup_filter, seq_NoDup|]. split; [|split].
  - intros r I. apply FI in I. tauto.
  - intros r I. apply FI in I as (H & B & L1 & L2). assert (E := fF3 n s r S H).
    assert (C := fF_nb n s r S H B). split; intros J; apply FI in J as (H' & B' & L1' & L2'); rewrite ?E in *.
    + assert (r = fF s r) by lia. congruence.
    + assert (r = fF s (fF s r)) by lia. congruence.
  - intros e H B. assert (E := fF3 n s e S H). assert (C := fF_nb n s e S H B). assert (H1 := fF_lt n s e S H).
    assert (H2 := fF_lt n s _ S H1). assert (D := fF_nb n s _ S H1 C).
    rewrite !FI, E. 
    destruct (le_lt_dec e (fF s e)), (le_lt_dec e (fF s (fF s e))), (le_lt_dec (fF s e) (fF s (fF s e))); lia.
Qed.

Lemma area2_loop_Ok n s : flat_surface n s -> forall es a, (forall e, In e es -> e < n) ->
  exists b, area2_loop s es a = Ok b /\ (den b = den a + rsum (map (triangle_area2 s) (filter (first_in_face (fT s)) es)))%R.
Proof.
  intros S. assert (W := fs_wf n s S). assert (L := fs_length n s S).
  induction es as [|e r IH]; intros a H; cbn [area2_loop filter].
  - exists a. split; auto. cbn. lra.
  - assert (He : e < n) by auto with datatypes. assert (Hr : forall e, In e r -> e < n) by auto with datatypes.
    rewrite (bdry_Ok n) by auto. cbn [bind]. unfold first_in_face at 1. destruct (Nat.eqb_spec (nF (fT s) e) e) as [B|B]; cbn [negb andb]; [now apply IH|].
    rewrite (next_Ok n) by auto. cbn [bind]. destruct (Nat.ltb_spec (nF (fT s) e) e); cbn [negb andb]; [now apply IH|].
    rewrite (prev_Ok n) by auto. cbn [bind]. destruct (Nat.ltb_spec (pF (fT s) e) e); cbn [negb andb]; [now apply IH|].
    assert (Hf1 := nF_lt n _ W e He). assert (Hf2 := nF_lt n _ W _ Hf1).
    rewrite (next_Ok n) by auto. cbn [bind]. rewrite !from_he_Ok by lia. cbn [bind].
    destruct (IH (radd a (varea2 [vat' s e; vat' s (nF (fT s) e); vat' s (nF (fT s) (nF (fT s) e))])) Hr) as (b & E & D).
    exists b. split; auto. rewrite D. cbn [map rsum]. unfold varea2. rewrite den_add, area2_from_den, den_ofZ, vden_zero. cbn [fold_left fst snd].
    change (vden (vat' s e)) with (vv s e). change (vden (vat' s (nF (fT s) e))) with (vv s (fF s e)).
    change (vden (vat' s (nF (fT s) (nF (fT s) e)))) with (vv s (fF s (fF s e))).
    destruct (fs_flat n s S e He B) as [Z _]. unfold triangle_area2. clear - Z.
    destruct (vv s e) as [x y], (vv s (fF s e)) as [x' y'], (vv s (fF s (fF s e))) as [x'' y''].
    unfold padd, pdet in *; cbn [fst snd] in *. injection Z as Z1 Z2. assert (x'' = (- x - x')%R) by lra. assert (y'' = (- y - y')%R) by lra. subst.
    change (IZR 0) with 0%R. ring.
Qed.

Lemma area2_Ok n s : flat_surface n s ->
  exists a, area2 s = Ok a /\ (3 * den a = area_sum n s)%R.
Proof.
  intros S. unfold area2. destruct (area2_loop_Ok n s S (half_edges (fT s)) (rofZ 0)) as (a & E & D).
  { intros e I. apply (half_edges_lt n (fT s)); auto. apply S. }
  exists a. split; auto. rewrite D, (area_sum_reps n s _ S (firsts_reps n s S)), den_ofZ.
  unfold firsts, half_edges. rewrite (wf_size n _ (fs_wf n s S)). lra.
Qed.

(** ** Flips *)
(** What is known about the six half edges at a flip. *)
Lemma flip_facts n s e s' : flat_surface n s -> e < n -> fflip s e = (s', Ok tt) ->
  exists a b c d, fF s e = a /\ fF s a = b /\ fF s b = e /\ fF s (neg e) = c /\ fF s c = d /\ fF s d = neg e /\
    fF s' a = neg e /\ fF s' (neg e) = d /\ fF s' d = a /\ fF s' c = e /\ fF s' e = b /\ fF s' b = c /\
    NoDup [e; a; b; neg e; c; d] /\ a < n /\ b < n /\ c < n /\ d < n /\ neg e < n /\
    (forall i, i < n -> ~ In i [e; a; b; neg e; c; d] -> fF s' i = fF s i /\ vv s' i = vv s i) /\
    vv s' a = vv s a /\ vv s' b = vv s b /\ vv s' c = vv s c /\ vv s' d = vv s d /\
    vv s (neg e) = pneg (vv s e) /\ vv s' e = pneg (padd (vv s b) (vv s c)) /\ vv s' (neg e) = padd (vv s b) (vv s c).
Proof.
  intros S He E. destruct (fflip_spec n s e s' S He E) as (CF & S' & Ft & Vo & Ve). assert (W := fs_wf n s S).
  assert (F : flippable n (fT s) e) by now apply (can_flip_iff n s e S He).
  destruct (flip_spec n (fT s) e (fT s') W He Ft) as (_ & W' & EF & EV).
  destruct (flip_six n (fT s) e W F) as (D6 & Ha & Hb & Hc & Hd & Hn & Fb & Fd).
  destruct (flip_F_six n (fT s) e W F) as (U1 & U2 & U3 & U4 & U5 & U6).
  rewrite <- EF in U1, U2, U3, U4, U5, U6 by auto.
  exists (fF s e), (fF s (fF s e)), (fF s (neg e)), (fF s (fF s (neg e))). unfold fF in *.
  do 2 (split; [reflexivity|]). split; [exact Fb|]. do 2 (split; [reflexivity|]). split; [exact Fd|].
  do 6 (split; [assumption|]). split; [exact D6|]. do 5 (split; [assumption|]).
  assert (Vv : forall i, i < n -> i <> e -> i <> neg e -> vv s' i = vv s i) by (intros i Hi I1 I2; unfold vv; now rewrite Vo).
  pose proof (nodup6 _ _ _ _ _ _ D6) as ((D1 & D2 & D3 & D4 & D5) & (D7 & D8 & D9 & D10) & (D11 & D12 & D13) & (D14 & D15) & D16).
  split. { intros i Hi N. rewrite EF by auto. split; [apply (flip_F_other n _ e W F); now rewrite in_six_iff|].
    apply Vv; auto; intros ->; apply N; cbn; auto. }
  do 4 (split; [apply Vv; auto|]). split; [apply (fs_odd n s S); auto|]. split; auto.
  rewrite (fs_odd n s' S' e He), Ve. apply pneg_pneg.
Qed.

Lemma triangle_area2_out n s e s' i : flat_surface n s -> e < n -> fflip s e = (s', Ok tt) -> i < n ->
  ~ In i [e; fF s e; fF s (fF s e); neg e; fF s (neg e); fF s (fF s (neg e))] -> corner_area s' i = corner_area s i.
Proof.
  intros S He E Hi N. destruct (flip_facts n s e s' S He E) as (a & b & c & d & Fe & Fa & Fb & Fn & Fc & Fd & _ & _ & _ & _ & _ & _ & D6 & Ha & Hb & Hc & Hd & Hn & O & _).
  rewrite Fe, Fa, Fn, Fc in N. assert (N' : ~ In (fF s i) [e; a; b; neg e; c; d]).
  { intros J. apply N. assert (X := fF3 n s i S Hi). cbn in J. cbn.
    destruct J as [J|[J|[J|[J|[J|[J|[]]]]]]]; rewrite <- J in X; rewrite ?Fe, ?Fa, ?Fb, ?Fn, ?Fc, ?Fd in X; rewrite ?Fe, ?Fa, ?Fb, ?Fn, ?Fc, ?Fd in X; auto 10. }
  destruct (O i Hi N) as [O1 O2]. destruct (O (fF s i) (fF_lt n s i S Hi) N') as [O3 O4].
  unfold corner_area, triangle_area2. now rewrite O1, O2, O4.
Qed.

Lemma area_sum_flip n s e s' : flat_surface n s -> e < n -> fflip s e = (s', Ok tt) -> area_sum n s' = area_sum n s.
Proof.
  intros S He E. pose proof (triangle_area2_out n s e s') as O.
  destruct (fflip_spec n s e s' S He E) as (_ & S' & _).
  destruct (flip_facts n s e s' S He E) as (a & b & c & d & Fe & Fa & Fb & Fn & Fc & Fd & G1 & G2 & G3 & G4 & G5 & G6 & D6 & Ha & Hb & Hc & Hd & Hn & _ & Va & Vb & Vc & Vd & On & Ve & Vn).
  rewrite Fe, Fa, Fn, Fc in O.
  assert (X : rsum (map (fun i => (corner_area s' i + - corner_area s i)%R) (seq 0 n)) = 0%R).
  { rewrite (rsum_support _ [e; a; b; neg e; c; d]).
    - pose proof (nodup6 _ _ _ _ _ _ D6) as ((D1 & D2 & D3 & D4 & D5) & (D7 & D8 & D9 & D10) & (D11 & D12 & D13) & (D14 & D15) & D16).
      assert (Z1 := fs_flat n s S e He). rewrite Fe, Fa in Z1. destruct Z1 as [Z1 _]; [congruence|].
      assert (Z2 := fs_flat n s S (neg e) Hn). rewrite Fn, Fc, On in Z2. destruct Z2 as [Z2 _]; [congruence|].
      cbn [map rsum]. unfold corner_area, triangle_area2. rewrite Fe, Fa, Fb, Fn, Fc, Fd, G1, G2, G3, G4, G5, G6, Va, Vb, Vc, Vd, On, Ve, Vn.
      repeat match goal with |- context [?x =? ?y] => replace (x =? y) with false by (symmetry; apply Nat.eqb_neq; congruence) end.
      clear - Z1 Z2. destruct (vv s e) as [x1 y1], (vv s a) as [x2 y2], (vv s b) as [x3 y3], (vv s c) as [x4 y4], (vv s d) as [x5 y5].
      unfold padd, pneg, pdet in *; cbn [fst snd] in *. injection Z1 as A1 A2. injection Z2 as B1 B2.
      assert (x3 = (- x1 - x2)%R) by lra. assert (y3 = (- y1 - y2)%R) by lra. assert (x5 = (x1 - x4)%R) by lra. assert (y5 = (y1 - y4)%R) by lra.
      subst. ring.
    - exact D6.
    - apply seq_NoDup.
    - intros x I. apply in_seq. cbn in I. destruct I as [<-|[<-|[<-|[<-|[<-|[<-|[]]]]]]]; lia.
    - intros i I N. apply in_seq in I. rewrite O; auto; [lra|lia]. }
  rewrite rsum_plus in X. unfold area_sum.
  rewrite (rsum_ext (fun x => (- corner_area s x)%R) (fun x => (-1 * corner_area s x)%R)) in X by (intros; lra).
  rewrite rsum_scale in X. lra.
Qed.

Lemma area_sum_flips n es : forall s s', flat_surface n s -> (forall e, In e es -> e < n) -> fflips s es = (s', Ok tt) -> area_sum n s' = area_sum n s.
Proof.
  induction es as [|e r IH]; cbn [fflips]; intros s s' S H E.
  - now injection E as <-.
  - destruct (fflip s e) as [s1 o] eqn:Ef. destruct o as [[]| | |]; try discriminate.
    assert (He : e < n) by auto with datatypes. destruct (fflip_spec n s e s1 S He Ef) as (_ & S1 & _).
    rewrite (IH s1 s') by auto with datatypes. eapply area_sum_flip; eauto.
Qed.

Lemma area_sum_pos n s : flat_surface n s -> (exists e, e < n /\ fF s e <> e) -> (0 < area_sum n s)%R.
Proof.
  intros S (e & He & B). pose proof (firsts_reps n s S) as R. rewrite (area_sum_reps n s _ S R).
  destruct R as (_ & R1 & _ & R3). apply Rmult_lt_0_compat; [lra|]. apply rsum_pos.
  - intros X. rewrite X in R3. destruct (R3 e He B) as [[]|[[]|[]]].
  - intros r I. destruct (R1 r I) as [Hr Br]. apply (fs_flat n s S r Hr Br).
Qed.
End flat.
