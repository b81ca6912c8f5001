(** * The codes of combinatorial equivalences *)
From Coq Require Import ZArith Reals List Arith Bool Lia Lra Permutation.
From Verif Require Import Base HalfEdge HalfEdgeFacts Perm PermSpec PermFacts IndexedSet Combinatorial CombinatorialSpec CombinatorialFacts CombinatorialOps
  ExactReal Vector PlaneSpec Plane VectorFacts FlatTri FlatSpec FlatFacts FlatSum FlatLinear FlatOps FlatAngle
  Point PointSpec Linear Saddle Deform DeformSpec DeformFacts DeformPath DeformGood DeformCompose
  Equivalence EquivalenceWalk EquivalenceSame EquivalenceWord EquivalenceSpec EquivalenceFacts EquivalenceNormal.
Import ListNotations.
Local Open Scope nat_scope.

(** ** Characters are ordered *)
Lemma compare_eq a b : compare_characters a b = Eq <-> a = b.
Proof.
  revert b. induction a as [|x a IH]; intros [|y b]; cbn; split; intros E; try discriminate; auto.
  - destruct (x ?= y)%Z eqn:D; try discriminate. apply Z.compare_eq in D. apply IH in E. congruence.
  - injection E as -> ->. rewrite Z.compare_refl. now apply IH.
Qed.
Lemma compare_flip a b : compare_characters b a = CompOpp (compare_characters a b).
Proof. revert b. induction a as [|x a IH]; intros [|y b]; cbn; auto. rewrite (Z.compare_antisym x y). destruct (x ?= y)%Z; cbn; auto. Qed.
Lemma compare_trans a b c : compare_characters a b = Lt -> compare_characters b c = Lt -> compare_characters a c = Lt.
Proof.
  revert b c. induction a as [|x a IH]; intros [|y b] [|z c]; cbn; intros P Q; try discriminate; auto.
  destruct (x ?= y)%Z eqn:D; try discriminate; destruct (y ?= z)%Z eqn:E; try discriminate.
  - apply Z.compare_eq in D, E. subst. rewrite Z.compare_refl. eauto.
  - apply Z.compare_eq in D. subst. now rewrite E.
  - apply Z.compare_eq in E. subst. now rewrite D.
  - rewrite Z.compare_lt_iff in D, E. assert (F : (x < z)%Z) by (eapply Z.lt_trans; eauto). rewrite <- Z.compare_lt_iff in F. now rewrite F.
Qed.
Lemma characters_spec a b : characters_eqb a b = true <-> a = b.
Proof.
  revert b. induction a as [|x a IH]; intros [|y b]; cbn; split; intros E; try discriminate; auto.
  - apply andb_true_iff in E as [E1 E2]. apply Z.eqb_eq in E1. apply IH in E2. congruence.
  - injection E as -> ->. rewrite Z.eqb_refl. now apply IH.
Qed.
Lemma list_eqb_spec {A B} (eqb : A -> A -> bool) (k : A -> B) (a b : list A) : (forall x y, eqb x y = true <-> k x = k y) -> list_eqb eqb a b = true <-> map k a = map k b.
Proof.
  intros S. revert b. induction a as [|x a IH]; intros [|y b]; cbn; split; intros E; try discriminate; auto.
  - apply andb_true_iff in E as [E1 E2]. f_equal; [now apply S|now apply IH].
  - injection E as E1 E2. apply andb_true_iff. split; [now apply S|now apply IH].
Qed.
Lemma words_spec a b : list_eqb characters_eqb a b = true <-> a = b.
Proof.
  rewrite (list_eqb_spec _ (fun x => x)) by apply characters_spec. now rewrite !map_id.
Qed.

(** ** Injections of finite sets *)
Lemma inj_bijection n f : (forall x, x < n -> f x < n) -> (forall x y, x < n -> y < n -> f x = f y -> x = y) -> exists g, bijection n f g.
Proof.
  intros L I.
  assert (P : Permutation (map f (seq 0 n)) (seq 0 n)).
  { apply NoDup_Permutation_bis.
    - apply NoDup_map_inj; [|apply seq_NoDup]. intros x y Hx Hy. apply in_seq in Hx, Hy. apply I; lia.
    - now rewrite map_length.
    - intros y Hy. apply in_map_iff in Hy as (x & <- & Hx). apply in_seq in Hx. apply in_seq. assert (f x < n) by (apply L; lia). lia. }
  assert (Sj : forall y, y < n -> exists x, x < n /\ f x = y).
  { intros y Hy. assert (Q : In y (map f (seq 0 n))) by (apply (Permutation_in _ (Permutation_sym P)), in_seq; lia). apply in_map_iff in Q as (x & E & Hx). apply in_seq in Hx. exists x. split; auto; lia. }
  exists (fun y => match find (fun x => f x =? y) (seq 0 n) with Some x => x | None => 0 end). split.
  - intros x Hx. split; auto. destruct (find _ _) as [z|] eqn:E.
    + apply find_some in E as [Hz E]. apply in_seq in Hz. apply Nat.eqb_eq in E. apply I; auto; lia.
    + apply find_none with (x := x) in E; [|apply in_seq; lia]. now rewrite Nat.eqb_refl in E.
  - intros y Hy. destruct (Sj y Hy) as (x & Hx & Ex). destruct (find _ _) as [z|] eqn:E.
    + apply find_some in E as [Hz E]. apply in_seq in Hz. apply Nat.eqb_eq in E. split; auto. lia.
    + apply find_none with (x := x) in E; [|apply in_seq; lia]. subst. now rewrite Nat.eqb_refl in E.
Qed.

Section facts.
Context {K : ExactReal}.
Implicit Types s u : flat K.

(** ** Gluings *)
Lemma edge_bijection_size n m f : edge_bijection n m f -> n = m.
Proof.
  intros ((g & B1 & B2) & _).
  assert (P : Permutation (map f (seq 0 n)) (seq 0 m)).
  { apply NoDup_Permutation.
    - apply NoDup_map_inj; [|apply seq_NoDup]. intros x y Hx Hy E. apply in_seq in Hx, Hy. destruct (B1 x) as [_ E1]; [lia|]. destruct (B1 y) as [_ E2]; [lia|]. congruence.
    - apply seq_NoDup.
    - intros y. rewrite in_map_iff, in_seq. split.
      + intros (x & <- & Hx). apply in_seq in Hx. destruct (B1 x); lia.
      + intros Hy. destruct (B2 y) as [H E]; [lia|]. exists (g y). split; auto. apply in_seq. lia. }
  apply Permutation_length in P. now rewrite map_length, !seq_length in P.
Qed.
Lemma edge_bijection_inj n m f x y : edge_bijection n m f -> x < n -> y < n -> f x = f y -> x = y.
Proof. intros ((g & B1 & _) & _) Hx Hy E. destruct (B1 x Hx) as [_ <-]. destruct (B1 y Hy) as [_ <-]. now f_equal. Qed.
Lemma edge_bijection_lt n m f x : edge_bijection n m f -> x < n -> f x < m.
Proof. intros ((g & B1 & _) & _) Hx. now apply B1. Qed.

(** The orientation of the image of a walker. *)
Definition turn (mirrored : bool) (o : Z) : Z := if mirrored then (- o)%Z else o.
Definition gluing (mirrored : bool) (n m : nat) s u f : Prop := if mirrored then mirror_gluing n m s u f else same_gluing n m s u f.
Lemma gluing_edges b n m s u f : gluing b n m s u f -> edge_bijection n m f.
Proof. destruct b; intros H; apply H. Qed.

(** For closed surfaces, the mirrored gluing in terms of triangles. *)
Lemma mirror_faces n s u f : closed_flat n s -> closed_flat n u -> edge_bijection n n f ->
  (forall x, x < n -> fV u (f (fV s x)) = f x) <-> (forall x, x < n -> f (fF s x) = neg (fF u (fF u (neg (f x))))).
Proof.
  intros S U E. assert (N := neg_ltn n _ (fs_wf n s (proj1 S))). assert (Nu := neg_ltn n _ (fs_wf n u (proj1 U))).
  assert (L := fun x => fF_lt n s x (proj1 S)). assert (Lu := fun x => fF_lt n u x (proj1 U)). assert (Lf := fun x => edge_bijection_lt n n f x E).
  assert (Fn : forall x, x < n -> f (neg x) = neg (f x)) by apply E.
  assert (A : forall x, x < n -> fV u (f (fV s x)) = neg (fF u (fF u (neg (f (fF s (fF s x))))))).
  { intros x H. rewrite (fV_eq n s x (proj1 S) H) by (now apply (proj2 S)). rewrite Fn by auto. rewrite (fV_eq n u _ (proj1 U)); auto. apply (proj2 U); auto. }
  split; intros H x Hx.
  - specialize (H (fF s x) (L x Hx)). rewrite A in H by auto. rewrite (fF3 n s x (proj1 S)) in H by auto. congruence.
  - rewrite A by auto. rewrite <- H by auto. f_equal. apply (fF3 n s); auto. apply S.
Qed.
Lemma sign_cases (o : Z) : o = 1%Z \/ o = (-1)%Z -> forall b, turn b o = 1%Z \/ turn b o = (-1)%Z.
Proof. intros [-> | ->] [|]; cbn; auto. Qed.
Lemma gluing_map b n s u f o : closed_flat n s -> closed_flat n u -> (o = 1%Z \/ o = (-1)%Z) -> gluing b n n s u f -> triangle_map n (gF s o) n (gF u (turn b o)) f.
Proof.
  intros S U O G. assert (E := gluing_edges _ _ _ _ _ _ G). assert (N := neg_ltn n _ (fs_wf n s (proj1 S))). assert (Nu := neg_ltn n _ (fs_wf n u (proj1 U))).
  assert (L := fun x => fF_lt n s x (proj1 S)). assert (Lu := fun x => fF_lt n u x (proj1 U)). assert (Lf := fun x => edge_bijection_lt n n f x E).
  assert (Fn : forall x, x < n -> f (neg x) = neg (f x)) by apply E.
  constructor; auto; [intros x y; now apply (edge_bijection_inj n n)|]. intros x H. rewrite !(gF_eq n) by auto.
  destruct b; cbn [gluing turn] in *; destruct G as [_ G].
  - apply (mirror_faces n s u f S U E) in G || (rewrite (mirror_faces n s u f S U E) in G). destruct O as [-> | ->]; cbn; [now apply G|].
    rewrite Fn by auto. rewrite !G by auto. rewrite Fn, !neg_neg by auto. rewrite (fF3 n u (f x) (proj1 U)) by auto. reflexivity.
  - destruct O as [-> | ->]; cbn; [now apply G|]. rewrite Fn by auto. rewrite !G by auto. now rewrite Fn.
Qed.
Lemma map_gluing n s u f o o' : closed_flat n s -> closed_flat n u -> (o = 1%Z \/ o = (-1)%Z) -> (o' = 1%Z \/ o' = (-1)%Z) -> triangle_map n (gF s o) n (gF u o') f ->
  gluing (negb (o =? o')%Z) n n s u f.
Proof.
  intros S U O O' [Lf Inj Fn Nx]. assert (N := neg_ltn n _ (fs_wf n s (proj1 S))). assert (Nu := neg_ltn n _ (fs_wf n u (proj1 U))).
  assert (L := fun x => fF_lt n s x (proj1 S)). assert (Lu := fun x => fF_lt n u x (proj1 U)).
  assert (E : edge_bijection n n f). { split; auto. destruct (inj_bijection n f Lf Inj) as (g & B). exists g. exact B. }
  assert (Q : forall y, y < n -> f (fF s (fF s y)) = fF u (fF u (f y)) -> True) by auto. clear Q.
  assert (X : (forall x, x < n -> f (neg (fF s (fF s (neg x)))) = fF u (f x)) -> forall x, x < n -> f (fF s x) = neg (fF u (fF u (neg (f x))))).
  { intros H x Hx. assert (H1 := H (neg x) (N x Hx)). rewrite neg_neg, Fn in H1 by auto. assert (H2 := H (neg (fF s (fF s x))) (N _ (L _ (L x Hx)))).
    rewrite neg_neg in H2. rewrite (fF3 n s x (proj1 S)) in H2 by auto. rewrite !Fn in * by auto. rewrite H1 in H2. rewrite <- H2, neg_neg. reflexivity. }
  assert (Y : (forall x, x < n -> f (neg (fF s (fF s (neg x)))) = neg (fF u (fF u (neg (f x))))) -> forall x, x < n -> f (fF s x) = fF u (f x)).
  { intros H x Hx. assert (A : forall y, y < n -> f (fF s (fF s y)) = fF u (fF u (f y))).
    { intros y Hy. assert (H1 := H (neg y) (N y Hy)). rewrite neg_neg, !Fn in H1 by auto. rewrite neg_neg in H1. apply neg_inj. exact H1. }
    assert (H1 := A _ (L _ (L x Hx))). rewrite (fF3 n s (x)) in H1 by (auto; apply S). rewrite A in H1 by auto. rewrite (fF3 n u (f x)) in H1 by (auto; apply U). exact H1. }
  assert (Nx' : forall x, x < n -> f (if (0 <? o)%Z then fF s x else neg (fF s (fF s (neg x)))) = if (0 <? o')%Z then fF u (f x) else neg (fF u (fF u (neg (f x))))).
  { intros x Hx. rewrite <- !(gF_eq n) by auto. auto. }
  destruct O as [-> | ->], O' as [-> | ->]; cbn in Nx' |- *; split; auto.
  - now apply (mirror_faces n).
  - apply (mirror_faces n); auto.
Qed.

(** ** The combinatorial code *)
Variable truediv : K -> K -> option K.
Variable fuel : nat.

(** The walkers. *)
Definition starts (oriented : bool) (n : nat) : list (nat * Z) := flat_map (fun h => (h, 1%Z) :: if oriented then [] else [(h, (-1)%Z)]) (seq 0 n).
Lemma in_starts oriented n h o : In (h, o) (starts oriented n) <-> h < n /\ (o = 1%Z \/ (oriented = false /\ o = (-1)%Z)).
Proof.
  unfold starts. rewrite in_flat_map. split.
  - intros (x & Hx & I). apply in_seq in Hx. destruct I as [[= -> <-]|I]; [split; [lia|auto]|]. destruct oriented; [destruct I|]. destruct I as [[= -> <-]|[]]. split; [lia|auto].
  - intros [H O]. exists h. split; [apply in_seq; lia|]. destruct O as [-> |[-> ->]]; cbn; auto.
Qed.
Lemma starts_NoDup oriented n : NoDup (starts oriented n).
Proof.
  unfold starts. generalize (seq_NoDup n 0). generalize (seq 0 n). intros l. induction l as [|x l IH]; intros N; cbn [flat_map]; [constructor|]. inversion N as [|? ? I N']; subst.
  assert (Q : forall o, ~ In (x, o) (flat_map (fun h => (h, 1%Z) :: if oriented then [] else [(h, (-1)%Z)]) l)).
  { intros o H. apply in_flat_map in H as (y & Hy & J). destruct J as [[= -> _]|J]; [auto|]. destruct oriented; [destruct J|]. destruct J as [[= -> _]|[]]. auto. }
  destruct oriented; cbn [app].
  - constructor; auto.
  - constructor; [|constructor; auto]. intros [E|H]; [discriminate|]. now apply Q in H.
Qed.
Definition cword n s (x : nat * Z) : list (list Z) := walk_word n (gF s (snd x)) (fst x).
Definition clist n s (x : nat * Z) : list nat := walk_list n (gF s (snd x)) (fst x).
Definition cjob n s (x : nat * Z) : job := mkJob (make_cwalker s (fst x) (snd x)) (cword n s x) (cw_at s (snd x) (length (clist n s x)) (clist n s x)).

Lemma combinatorial_starts oriented n s : closed_flat n s -> combinatorial_walkers oriented s = map j_walker (map (cjob n s) (starts oriented n)).
Proof.
  intros S. unfold combinatorial_walkers, starts, half_edges. rewrite (wf_size n) by apply S. rewrite map_map. generalize (seq 0 n). intros l.
  induction l as [|h l IH]; auto. cbn [flat_map]. rewrite map_app, <- IH. destruct oriented; reflexivity.
Qed.
Lemma starts_nonempty oriented n : 0 < n -> starts oriented n <> [].
Proof. intros H E. assert (I : In (0, 1%Z) (starts oriented n)) by (apply in_starts; auto). rewrite E in I. destruct I. Qed.
Lemma cword_length n s x : closed_flat n s -> connected n s -> fst x < n -> length (cword n s x) = n / 2.
Proof.
  intros S C H. assert (T := gF_triangles n s (snd x) S). assert (Ev := wf_mod n _ (fs_wf n s (proj1 S))). destruct (walk_ok n _ (fst x) T Ev H) as (_ & E & _).
  unfold cword. rewrite E. assert (Q := cp_length n _ (walk_complete n s (snd x) (fst x) S C H)). rewrite Q at 2. rewrite Nat.mul_comm, Nat.div_mul; auto.
Qed.
Lemma winner_eq cs (j : @job (@cwalker K) (list Z)) : winner compare_characters cs j = true <-> j_chars j = cs.
Proof.
  unfold winner. pose proof (lex_eq compare_characters (fun c => c) compare_eq cs (j_chars j)) as E. rewrite !map_id in E.
  destruct (lex _ _ _) eqn:D; split; intros H; try discriminate; auto.
  - symmetry. now apply E.
  - subst. assert (X : Lt = Eq) by (now apply E). discriminate.
  - subst. assert (X : Gt = Eq) by (now apply E). discriminate.
Qed.
Definition words_dec (a b : list (list Z)) : {a = b} + {a <> b} := list_eq_dec (list_eq_dec Z.eq_dec) a b.
Definition minimal_starts oriented n s (cs : list (list Z)) : list (nat * Z) := filter (fun x => if words_dec (cword n s x) cs then true else false) (starts oriented n).
Lemma in_minimal oriented n s cs x : In x (minimal_starts oriented n s cs) <-> In x (starts oriented n) /\ cword n s x = cs.
Proof. unfold minimal_starts. rewrite filter_In. destruct (words_dec _ _); split; intros [A B]; split; auto; discriminate. Qed.

Lemma combinatorial_code oriented n s : n + 1 < fuel -> closed_connected n s ->
  exists cs u ds x, code_of truediv fuel (ECombinatorial oriented) s = Ok (CCombinatorial cs, u, ds) /\
    length ds = length (minimal_starts oriented n s cs) /\ In x (minimal_starts oriented n s cs) /\
    (forall y, In y (starts oriented n) -> lex compare_characters cs (cword n s y) <> Gt) /\
    closed_flat n u /\ renames n s u (lbl (clist n s x)) (unlbl (clist n s x)).
Proof.
  intros F (S & C & P). assert (Ev := wf_mod n _ (fs_wf n s (proj1 S))). assert (D := Nat.div_mod_eq n 2).
  destruct (word_ok (cw_step fuel) compare_characters (fun c => c) compare_eq compare_flip compare_trans (n / 2) (map (cjob n s) (starts oriented n)) fuel []) as (cs & E & (j & Ij & Ej) & M).
  - intros E. apply map_eq_nil in E. now apply (starts_nonempty oriented n).
  - intros j I. apply in_map_iff in I as ([h o] & <- & I). apply in_starts in I as [H _]. split.
    + apply (cw_emits fuel) with (n := n); auto. lia.
    + now apply cword_length.
  - lia.
  - assert (Ef : map j_final (filter (winner compare_characters cs) (map (cjob n s) (starts oriented n))) = map j_final (map (cjob n s) (minimal_starts oriented n s cs))).
    { unfold minimal_starts. generalize (starts oriented n). intros l. f_equal. induction l as [|x l IH]; auto. cbn [map filter].
      pose proof (winner_eq cs (cjob n s x)) as W. cbn [cjob j_chars] in W. destruct (winner _ _ _) eqn:Q.
      - destruct (words_dec (cword n s x) cs) as [_|X]; [cbn [map]; now f_equal|]. exfalso. apply X. now apply W.
      - destruct (words_dec (cword n s x) cs) as [X|_]; auto. apply W in X. discriminate. }
    rewrite !map_id in Ej. apply in_map_iff in Ij as (x0 & <- & Ix). cbn [cjob j_chars] in Ej.
    assert (Im : In x0 (minimal_starts oriented n s cs)) by now apply in_minimal.
    destruct (minimal_starts oriented n s cs) as [|x xs] eqn:El; [destruct Im|]. clear x0 Ix Ej Im.
    assert (Hx : forall y, In y (x :: xs) -> complete n (clist n s y)).
    { intros [h o] I. rewrite <- El in I. apply in_minimal in I as [I _]. apply in_starts in I as [H _]. now apply walk_complete. }
    destruct (cw_normal n s (snd x) (length (clist n s x)) (clist n s x) S) as (u & Eu & U & R); [apply Hx; now left|].
    assert (Dd : exists ds, omap (fun w => cw_deformation w u) (map j_final (map (cjob n s) (x :: xs))) = Ok ds /\ length ds = length (x :: xs)).
    { revert Hx. clear - S U. generalize (x :: xs). intros l. induction l as [|y l IH]; intros H; [exists []; auto|]. cbn [map omap].
      destruct (cw_deformation_total n s (snd y) (length (clist n s y)) (clist n s y) u S U) as (b & Eb); [apply H; now left|]. cbn [cjob j_final]. rewrite Eb. cbn [bind].
      destruct IH as (ds & -> & Ld); [intros z I; apply H; now right|]. cbn [bind]. eexists. split; [reflexivity|]. cbn [length]. now f_equal. }
    destruct Dd as (ds & Ed & Ld). exists cs, u, ds, x. unfold code_of. rewrite (combinatorial_starts oriented n s S), E, Ef. cbn [bind app].
    assert (Fi : finish cw_normalization cw_deformation (map j_final (map (cjob n s) (x :: xs))) = Ok (u, ds)).
    { unfold finish. assert (V : vget (map j_final (map (cjob n s) (x :: xs))) 0 = Ok (cw_at s (snd x) (length (clist n s x)) (clist n s x))) by reflexivity.
      rewrite V. cbn [bind]. rewrite Eu. cbn [bind]. now rewrite Ed. }
    rewrite Fi. cbn [bind]. split; auto. rewrite El. split; auto. split; [now left|]. split; auto.
    intros y I. apply (M (cjob n s y)). now apply in_map.
Qed.
End facts.
