(** * The codes of linear equivalences *)
From Coq Require Import ZArith Reals List Arith Bool Lia Lra Permutation.
From Verif Require Import Base HalfEdge HalfEdgeFacts Perm PermSpec PermFacts IndexedSet Combinatorial CombinatorialSpec CombinatorialFacts CombinatorialOps
  ExactReal Vector PlaneSpec Plane VectorFacts FlatTri FlatSpec FlatFacts FlatSum FlatLinear FlatOps FlatAngle
  Point PointSpec Linear Saddle Deform DeformSpec DeformFacts DeformPath DeformGood DeformActs DeformCompose DeformPathProps
  Equivalence EquivalenceWalk EquivalenceSame EquivalenceWord EquivalenceSpec EquivalenceFacts EquivalenceNormal EquivalenceCode EquivalenceCount EquivalenceLinear EquivalenceFrame EquivalenceMaps EquivalenceLinearIso.
Import ListNotations.
Local Open Scope nat_scope.

Section facts.
Context {K : ExactReal}.
Implicit Types s u v w : flat K.
Variable truediv : K -> K -> option K.
Hypothesis Hdiv : exact_division truediv.
Variable fuel : nat.

(** The determinant of a normalization is a unit. *)
Lemma framed_unit g (v w : vec K) (m : matrix (K := K)) : (pdet (vden v) (vden w) <> 0)%R -> framed g (vden v) (vden w) m -> exists r : K, (den r * mdet m = 1)%R.
Proof.
  intros D F. assert (Q := framed_det g _ _ m D F). destruct g.
  - exists (rofZ 1). rewrite den_ofZ, Q. lra.
  - unfold Rabs in Q. destruct (Rcase_abs _); [exists (rofZ (-1))|exists (rofZ 1)]; rewrite den_ofZ.
    + assert (E : (mdet m = -1)%R) by (apply (Rmult_eq_reg_r (pdet (vden v) (vden w))); auto; lra). rewrite E. lra.
    + assert (E : (mdet m = 1)%R) by (apply (Rmult_eq_reg_r (pdet (vden v) (vden w))); auto; lra). rewrite E. lra.
  - exists (vx v * vy w - vy v * vx w)%X. rewrite den_sub, !den_mul. unfold pdet, vden in Q. cbn [fst snd] in Q. lra.
Qed.

Definition ljob n s (M : nat * Z -> matrix (K := K)) (x : nat * Z) : job :=
  mkJob (mkLW (make_cwalker s (fst x) (snd x)) (M x)) (lword n s (M x) x) (mkLW (cw_at s (snd x) (length (clist n s x)) (clist n s x)) (M x)).
Definition lmins oriented n s M cs : list (nat * Z) := filter (fun x => winner compare_linear cs (ljob n s M x)) (starts oriented n).
Lemma in_lmins oriented n s M cs x : In x (lmins oriented n s M cs) <-> In x (starts oriented n) /\ map lkey (lword n s (M x) x) = map lkey cs.
Proof.
  unfold lmins. rewrite filter_In. unfold winner. cbn [ljob j_chars]. pose proof (lex_eq compare_linear lkey compare_linear_eq cs (lword n s (M x) x)) as E.
  split; intros [A B]; split; auto.
  - symmetry. apply E. destruct (lex _ _ _); auto; discriminate.
  - symmetry in B. apply E in B. now rewrite B.
Qed.
Lemma lmins_NoDup oriented n s M cs : NoDup (lmins oriented n s M cs).
Proof. apply NoDup_filter, starts_NoDup. Qed.

Lemma linear_code oriented g n s : n + 1 < fuel -> closed_connected n s -> (g = TRIVIAL -> oriented = true) ->
  (linear_walkers truediv oriented g s = Throw /\ code_of truediv fuel (ELinear oriented g) s = Throw) \/
  (linear_walkers truediv oriented g s <> Throw /\ framing g oriented n s (lmat truediv g s) /\
   exists cs u ds x, code_of truediv fuel (ELinear oriented g) s = Ok (CLinear (map fst cs) (map snd cs), u, ds) /\
     In x (lmins oriented n s (lmat truediv g s) cs) /\ (forall y, In y (starts oriented n) -> lex compare_linear cs (lword n s (lmat truediv g s y) y) <> Gt) /\
     closed_flat n u /\ (forall y, In y (lmins oriented n s (lmat truediv g s) cs) -> nform n s y (lmat truediv g s y) u) /\
     Forall2 (fun y d => tracks fuel n d s u (lbl (clist n s y)) /\ exists d', relation_section truediv d = Ok d') (lmins oriented n s (lmat truediv g s) cs) ds).
Proof.
  intros F CC G. pose proof CC as (S & C & P). set (M := lmat truediv g s). destruct (linear_starts truediv Hdiv n s g oriented S G) as [E|[E Fr]]; [left|right]; unfold code_of; rewrite E; cbn [bind].
  { auto. }
  split; [discriminate|]. split; [exact Fr|]. fold M in Fr, E |- *.
  assert (Ev := wf_mod n _ (fs_wf n s (proj1 S))). assert (D := Nat.div_mod_eq n 2).
  destruct (word_ok (lw_step fuel) compare_linear lkey compare_linear_eq compare_linear_flip compare_linear_trans (n / 2) (map (ljob n s M) (starts oriented n)) fuel []) as (cs & Ew & (j & Ij & Ej) & Mn).
  - intros Q. apply map_eq_nil in Q. now apply (starts_nonempty oriented n).
  - intros j I. apply in_map_iff in I as (x & <- & I). apply starts_sign in I as [H _]. split.
    + apply lw_emits; auto. lia.
    + now apply lword_length.
  - lia.
  - assert (Ef : map j_final (filter (winner compare_linear cs) (map (ljob n s M) (starts oriented n))) = map j_final (map (ljob n s M) (lmins oriented n s M cs))).
    { unfold lmins. generalize (starts oriented n). intros l. f_equal. induction l as [|x l IH]; auto. cbn [map filter]. destruct (winner _ _ _); cbn [map]; now rewrite IH. }
    apply in_map_iff in Ij as (x0 & <- & Ix). cbn [ljob j_chars] in Ej. assert (Im : In x0 (lmins oriented n s M cs)) by now apply in_lmins.
    destruct (lmins oriented n s M cs) as [|x xs] eqn:El; [destruct Im|]. clear x0 Ix Ej Im.
    assert (Hy : forall y, In y (x :: xs) -> In y (starts oriented n) /\ map lkey (lword n s (M y) y) = map lkey cs) by (intros y I; rewrite <- El in I; now apply in_lmins).
    assert (Cp : forall y, In y (x :: xs) -> complete n (clist n s y)) by (intros y I; apply walk_complete; auto; now apply (starts_sign oriented), Hy).
    destruct (Hy x) as [Hx Wx]; [now left|].
    assert (Nu : exists u, lw_normalization (mkLW (cw_at s (snd x) (length (clist n s x)) (clist n s x)) (M x)) = Ok u /\ closed_flat n u /\ nform n s x (M x) u).
    { destruct (Fr x Hx) as [_ Dx]. destruct (M x) as [[[a b] c] d]. apply lw_normal; auto. apply Cp. now left. }
    destruct Nu as (u & Eu & U & Nx).
    assert (Ny : forall y, In y (x :: xs) -> nform n s y (M y) u).
    { intros y I. destruct (Hy y I) as [Iy Wy]. apply (same_normal n s s oriented M M x y u); auto. unfold same_words. congruence. }
    assert (Dd : exists ds, omap (fun k => lw_deformation fuel k u) (map j_final (map (ljob n s M) (x :: xs))) = Ok ds /\
      Forall2 (fun y d => tracks fuel n d s u (lbl (clist n s y)) /\ exists d', relation_section truediv d = Ok d') (x :: xs) ds).
    { clear Mn El Ew Ef Wx Eu Nx Hx. revert Hy Cp Ny. generalize (x :: xs). intros l. induction l as [|y l IH]; intros Hy Cp Ny; [exists []; auto|]. cbn [map omap]. destruct (Hy y) as [Iy _]; [now left|]. destruct (Fr y Iy) as [Fy Dy]. destruct (starts_sign _ _ _ Iy) as [Ly Oy].
      destruct (lw_deformation_ok truediv Hdiv fuel n s y (M y) u F S U) as (d & Ed & T & Sc); auto; [apply Cp; now left|apply Ny; now left|]. cbn [ljob j_final]. rewrite Ed. cbn [bind].
      destruct IH as (ds & -> & Fd); [intros z I; apply Hy; now right|intros z I; apply Cp; now right|intros z I; apply Ny; now right|]. cbn [bind]. eexists. split; [reflexivity|]. constructor; auto. split; auto. apply Sc.
      apply (framed_unit g (vat' s (fst y)) (vat' s (second s y))); auto. apply (sign_nonzero (snd y)), (second_det n); auto. }
    destruct Dd as (ds & Ed & Fd). exists cs, u, ds, x. 
    assert (Ew' : word (lw_step fuel) compare_linear fuel (map (fun x => mkLW (make_cwalker s (fst x) (snd x)) (M x)) (starts oriented n)) [] = Ok (cs, map j_final (map (ljob n s M) (x :: xs)))).
    { rewrite map_map in Ew. cbn [ljob j_walker app] in Ew. rewrite Ef in Ew. exact Ew. }
    rewrite Ew'. cbn [bind].
    assert (Fi : finish (lw_normalization) (lw_deformation fuel) (map j_final (map (ljob n s M) (x :: xs))) = Ok (u, ds)).
    { unfold finish. assert (V : vget (map j_final (map (ljob n s M) (x :: xs))) 0 = Ok (mkLW (cw_at s (snd x) (length (clist n s x)) (clist n s x)) (M x))) by reflexivity.
      rewrite V. cbn [bind]. rewrite Eu. cbn [bind]. now rewrite Ed. }
    rewrite Fi. cbn [bind]. split; auto. rewrite El. split; [now left|]. split; auto. intros y I. apply (Mn (ljob n s M y)). now apply in_map.
Qed.
Lemma cons_eq {A} (a b : A) l k : a :: l = b :: k -> a = b /\ l = k.
Proof. intros E. now injection E. Qed.
Lemma linear_code_eqb cs cu : code_eqb (CLinear (map fst cs) (map snd cs)) (CLinear (map fst cu) (map snd cu)) = true <-> map lkey cs = map lkey (cu : list (list Z * vec K)).
Proof.
  cbn [code_eqb]. rewrite andb_true_iff, words_spec, (list_eqb_spec veqb vden _ _ veqb_spec), !map_map.
  revert cu. induction cs as [|[a v] cs IH]; intros [|[b w] cu]; cbn [map lkey fst snd]; split; intros H; try (destruct H; discriminate); try discriminate; auto.
  - destruct H as [A B]. injection A as -> A. apply cons_eq in B as [E B]. f_equal; [unfold lkey; cbn [fst snd]; now rewrite E|apply IH; auto].
  - apply cons_eq in H as [E H]. unfold lkey in E. cbn [fst snd] in E. apply IH in H as [A B]. assert (E1 : a = b) by congruence. assert (E2 : vden v = vden w) by congruence. split; [now rewrite E1, A|now rewrite E2, B].
Qed.
End facts.
