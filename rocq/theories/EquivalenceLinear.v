(** * The words of linear walkers *)
From Coq Require Import ZArith Reals List Arith Bool Lia Lra Permutation.
From Verif Require Import Base HalfEdge HalfEdgeFacts Perm PermSpec PermFacts IndexedSet Combinatorial CombinatorialSpec CombinatorialFacts CombinatorialOps
  ExactReal Vector PlaneSpec Plane VectorFacts FlatTri FlatSpec FlatFacts FlatSum FlatLinear FlatOps FlatAngle
  Point PointSpec Linear Saddle Deform DeformSpec DeformFacts DeformPath DeformGood DeformCompose
  Equivalence EquivalenceWalk EquivalenceSame EquivalenceWord EquivalenceSpec EquivalenceFacts EquivalenceNormal EquivalenceCode EquivalenceCount.
Import ListNotations.
Local Open Scope nat_scope.

Section facts.
Context {K : ExactReal}.
Implicit Types s u : flat K.

(** ** Characters are ordered *)
Definition lkey (c : list Z * vec K) : list Z * pt := (fst c, vden (snd c)).
Lemma compare_linear_lt (a b : list Z * vec K) : compare_linear a b = Lt <->
  compare_characters (fst a) (fst b) = Lt \/ fst a = fst b /\ (fst (vden (snd a)) < fst (vden (snd b)) \/ fst (vden (snd a)) = fst (vden (snd b)) /\ snd (vden (snd a)) < snd (vden (snd b)))%R.
Proof.
  destruct a as [c [x y]], b as [d [x' y']]. unfold compare_linear, vden. cbn [fst snd vx vy]. destruct (compare_characters c d) eqn:D.
  - apply compare_eq in D. subst d. destruct (rltb_reflect x x'); [split; intros _; auto|]. destruct (rltb_reflect x' x).
    { split; [discriminate|]. intros [Q|[_ Q]]; [discriminate|lra]. }
    destruct (rltb_reflect y y'); [split; intros _; auto; right; split; auto; right; split; auto; lra|].
    split; [destruct (rltb y' y); discriminate|]. intros [Q|[_ Q]]; [discriminate|lra].
  - split; auto.
  - split; [discriminate|]. intros [Q|[-> _]]; [discriminate|]. rewrite (proj2 (compare_eq d d) eq_refl) in D. discriminate.
Qed.
Lemma compare_linear_eq (a b : list Z * vec K) : compare_linear a b = Eq <-> lkey a = lkey b.
Proof.
  destruct a as [c [x y]], b as [d [x' y']]. unfold compare_linear, lkey, vden. cbn [fst snd vx vy]. destruct (compare_characters c d) eqn:D.
  - apply compare_eq in D. subst d. destruct (rltb_reflect x x'); [split; [discriminate|]; intros [= Q1 Q2]; lra|]. destruct (rltb_reflect x' x); [split; [discriminate|]; intros [= Q1 Q2]; lra|].
    destruct (rltb_reflect y y'); [split; [discriminate|]; intros [= Q1 Q2]; lra|]. destruct (rltb_reflect y' y); [split; [discriminate|]; intros [= Q1 Q2]; lra|].
    split; auto. intros _. f_equal. apply pt_eq; cbn; lra.
  - split; [discriminate|]. intros [= -> _ _]. rewrite (proj2 (compare_eq d d) eq_refl) in D. discriminate.
  - split; [discriminate|]. intros [= -> _ _]. rewrite (proj2 (compare_eq d d) eq_refl) in D. discriminate.
Qed.
Lemma compare_linear_flip (a b : list Z * vec K) : compare_linear b a = CompOpp (compare_linear a b).
Proof.
  destruct a as [c [x y]], b as [d [x' y']]. unfold compare_linear. cbn [fst snd vx vy]. rewrite (compare_flip c d). destruct (compare_characters c d); cbn [CompOpp]; auto.
  destruct (rltb_reflect x x'), (rltb_reflect x' x); cbn; auto; try lra. destruct (rltb_reflect y y'), (rltb_reflect y' y); cbn; auto; lra.
Qed.
Lemma compare_linear_trans (a b c : list Z * vec K) : compare_linear a b = Lt -> compare_linear b c = Lt -> compare_linear a c = Lt.
Proof.
  rewrite !compare_linear_lt. intros [P|[P P']] [Q|[Q Q']].
  - left. eapply compare_trans; eauto.
  - left. now rewrite <- Q.
  - left. now rewrite P.
  - right. split; [congruence|]. clear P Q. lra.
Qed.

(** ** What a walker produces *)
Definition mapply (m : matrix (K := K)) (v : vec K) : vec K := let '(a, b, c, d) := m in vapply a b c d v.
Definition mpt (m : matrix (K := K)) (p : pt) : pt := let '(a, b, c, d) := m in papply (den a) (den b) (den c) (den d) p.
Definition mdet (m : matrix (K := K)) : R := let '(a, b, c, d) := m in (den a * den d - den b * den c)%R.
Lemma vden_mapply m v : vden (mapply m v) = mpt m (vden v).
Proof. destruct m as [[[a b] c] d]. apply vden_apply. Qed.
Definition lword n s (m : matrix) (x : nat * Z) : list (list Z * vec K) := combine (cword n s x) (map (fun y => mapply m (vat' s (neg y))) (clist n s x)).

Lemma skipn_nth {A} (d : A) L k : k < length L -> skipn k L = nth k L d :: skipn (S k) L.
Proof. revert k. induction L as [|a L IH]; intros k H; [cbn in H; lia|]. destruct k as [|k]; [reflexivity|]. cbn [length] in H. cbn [skipn nth]. rewrite IH by lia. reflexivity. Qed.

Section run.
Variable fuel : nat.
Hypothesis Hfuel : 2 < fuel.
Lemma lw_emits_run n s o m : closed_flat n s -> n mod 2 = 0 -> forall j k L, walking n (gF s o) k L -> n / 2 < k + j ->
  emits (lw_step fuel) (mkLW (cw_at s o k L) m) (combine (fst (prun (gF s o) j k L)) (map (fun y => mapply m (vat' s (neg y))) (skipn k (snd (prun (gF s o) j k L)))))
    (mkLW (cw_at s o (length (snd (prun (gF s o) j k L))) (snd (prun (gF s o) j k L))) m).
Proof.
  intros S Ev. assert (T := gF_triangles n s o S). induction j as [|j IH]; intros k L W B.
  - assert (P := walking_length n _ k L Ev W). assert (Q := wk_k _ _ _ _ W). lia.
  - cbn [prun]. destruct (Nat.leb_spec (length L) k) as [D|D].
    + cbn [fst snd combine]. assert (k = length L) as -> by (assert (Q := wk_k _ _ _ _ W); lia). apply emits_nil. unfold lw_step. cbn [lw_combinatorial lw_matrix]. now rewrite (cw_step_end fuel).
    + assert (E := cw_step_at fuel Hfuel n s o k L S W D). destruct (walking_step n _ T k L W D) as (c & L1 & E1 & W1 & r1 & R1). rewrite E1 in E |- *. cbn [fst snd] in E.
      destruct (prun_ok n _ T Ev j (Datatypes.S k) L1 W1) as (cs & L2 & E2 & W2 & _ & r2 & R2); [lia|].
      specialize (IH (Datatypes.S k) L1 W1). rewrite E2 in IH |- *. cbn [fst snd] in IH |- *.
      assert (D1 : k < length L1) by (rewrite R1, app_length; lia). assert (D2 : k < length L2) by (rewrite R2, app_length; lia).
      rewrite (skipn_nth 0 L2 k D2). cbn [map combine]. eapply emits_cons; [|apply IH; lia].
      unfold lw_step. cbn [lw_combinatorial lw_matrix]. rewrite E. cbn [bind cw_labeled cw_steps cw_surface cw_at].
      replace (Datatypes.S k - 1) with k by lia. rewrite (vget_nth L1 k 0 D1). cbn [bind].
      assert (Ek : nth k L1 0 = nth k L2 0) by (rewrite R2; symmetry; now apply app_nth1). rewrite Ek.
      rewrite (from_he_Ok s). 2:{ rewrite (fs_length n s (proj1 S)). apply (neg_ltn n _ (fs_wf n s (proj1 S))). apply (lo_lt n L2 (wk_ok _ _ _ _ W2)). now apply nth_In. }
      cbn [bind]. destruct m as [[[a b] c'] d]. reflexivity.
Qed.
Lemma lw_emits n s m x : closed_flat n s -> fst x < n ->
  emits (lw_step fuel) (mkLW (make_cwalker s (fst x) (snd x)) m) (lword n s m x) (mkLW (cw_at s (snd x) (length (clist n s x)) (clist n s x)) m).
Proof.
  intros S H. assert (T := gF_triangles n s (snd x) S). apply (lw_emits_run n s (snd x) m S (wf_mod n _ (fs_wf n s (proj1 S))) (Datatypes.S n) 0 [neg (fst x)] (walking_start n _ T (fst x) H)).
  apply half_le.
Qed.
End run.

Lemma clist_length n s x : closed_flat n s -> connected n s -> fst x < n -> length (clist n s x) = n / 2.
Proof. intros S C H. assert (Q := cp_length n _ (walk_complete n s (snd x) (fst x) S C H)). fold (clist n s x) in Q. rewrite Q at 2. rewrite Nat.mul_comm, Nat.div_mul; auto. Qed.
Lemma lword_length n s m x : closed_flat n s -> connected n s -> fst x < n -> length (lword n s m x) = n / 2.
Proof. intros S C H. unfold lword. rewrite combine_length, map_length, cword_length, clist_length by auto. lia. Qed.
Lemma combine_eq {A B} (l l' : list A) (k k' : list B) : length l = length k -> length l' = length k' -> combine l k = combine l' k' -> l = l' /\ k = k'.
Proof.
  intros E E' Q. assert (P := combine_split l k E). assert (P' := combine_split l' k' E'). rewrite Q in P. rewrite P in P'. now injection P'.
Qed.
Lemma lword_keys n s m x : map lkey (lword n s m x) = combine (cword n s x) (map (fun y => mpt m (vv s (neg y))) (clist n s x)).
Proof.
  unfold lword. generalize (cword n s x) (clist n s x). intros l. induction l as [|c l IH]; intros [|y L]; auto. cbn [map combine]. rewrite IH. unfold lkey at 1. cbn [fst snd]. now rewrite vden_mapply.
Qed.
(** Words agree when the combinatorial words and the vectors agree. *)
Lemma lword_same n m s u ms mu x y : closed_connected n s -> closed_connected m u -> fst x < n -> fst y < m -> map lkey (lword n s ms x) = map lkey (lword m u mu y) <->
  cword n s x = cword m u y /\ map (fun z => mpt ms (vv s (neg z))) (clist n s x) = map (fun z => mpt mu (vv u (neg z))) (clist m u y).
Proof.
  intros (S & Cs & P) (U & Cu & Q) Hx Hy. rewrite !lword_keys. split.
  - apply combine_eq; rewrite map_length, cword_length, clist_length; auto.
  - intros [-> ->]. reflexivity.
Qed.
End facts.
