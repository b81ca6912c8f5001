(** * Deformations that are given by a renaming of the half edges *)
From Coq Require Import ZArith Reals List Arith Bool Lia Lra Permutation.
From Verif Require Import Base HalfEdge HalfEdgeFacts Perm PermSpec PermFacts IndexedSet Combinatorial CombinatorialSpec CombinatorialFacts CombinatorialOps
  ExactReal Vector PlaneSpec Plane VectorFacts FlatTri FlatSpec FlatFacts FlatSum FlatLinear FlatOps FlatAngle
  Point PointSpec Linear Saddle Deform DeformSpec DeformFacts DeformPath DeformGood DeformActs DeformCompose DeformPathProps
  Equivalence EquivalenceWalk EquivalenceSame EquivalenceWord EquivalenceSpec EquivalenceFacts EquivalenceNormal EquivalenceCode EquivalenceCount EquivalenceLinear EquivalenceFrame.
Import ListNotations.
Local Open Scope nat_scope.

Section facts.
Context {K : ExactReal}.
Implicit Types s u v w : flat K.
Variable truediv : K -> K -> option K.
Hypothesis Hdiv : exact_division truediv.
Variable fuel : nat.

(** The deformation [r] goes from [s] to [u] and maps half edges like [f]. *)
Definition tracks (n : nat) (r : relation K) s u (f : nat -> nat) : Prop :=
  good n r /\ no_flips r /\ same_surface n (domain r) s /\ same_surface n (codomain r) u /\ exists k a b c d, acts n fuel r k a b c d /\ forall h, h < n -> k h = f h.
Lemma tracks_half_edge n r s u f h : tracks n r s u f -> h < n -> deformation_half_edge fuel r h = Ok (f h).
Proof. intros (G & _ & _ & _ & k & a & b & c & d & A & Q) H. rewrite <- Q by auto. exact (acts_half_edge n fuel r k a b c d h G A H). Qed.
Lemma tracks_lt n r s u f h : tracks n r s u f -> h < n -> f h < n.
Proof. intros (_ & _ & _ & _ & k & a & b & c & d & A & Q) H. rewrite <- Q by auto. now apply (ac_lt _ _ _ _ _ _ _ _ A). Qed.
Lemma tracks_same n r s u f s' u' : same_surface n s s' -> same_surface n u u' -> tracks n r s u f -> tracks n r s' u' f.
Proof. intros S U (G & N & A & B & C). split; auto. split; auto. split; [eapply same_trans; eauto|]. split; auto. eapply same_trans; eauto. Qed.
Lemma tracks_ext n r s u f f' : (forall h, h < n -> f h = f' h) -> tracks n r s u f -> tracks n r s u f'.
Proof. intros E (G & N & A & B & k & a & b & c & d & C & Q). split; auto. split; auto. split; auto. split; auto. exists k, a, b, c, d. split; auto. intros h H. rewrite Q; auto. Qed.
Lemma tracks_trivial n r s u f h : n + 1 < fuel -> tracks n r s u f -> relation_trivial fuel r = Ok true -> h < n -> f h = h.
Proof.
  intros F (G & N & _ & _ & k & a & b & c & d & A & Q) T H. destruct (acts_exists n fuel r F G N) as (k' & a' & b' & c' & d' & A' & X). destruct (X T h H) as [E _]. rewrite <- Q by auto.
  assert (P := acts_half_edge n fuel r _ _ _ _ _ h G A H). assert (P' := acts_half_edge n fuel r _ _ _ _ _ h G A' H). congruence.
Qed.
Lemma tracks_compose n f g s u w p q : n + 1 < fuel -> tracks n g s u p -> tracks n f u w q ->
  exists r f' g', compose fuel f g = Ok (r, f', g') /\ tracks n r s w (fun h => q (p h)).
Proof.
  intros F Tg Tf. pose proof Tg as (Gg & Ng & Ag & Bg & Cg). pose proof Tf as (Gf & Nf & Af & Bf & Cf).
  assert (Sm : same_surface n (codomain g) (domain f)) by (eapply same_trans; [exact Bg|now apply same_sym]).
  destruct (compose_cases n fuel f g F Gf Gg Sm) as (r & f' & g' & E & C). exists r, f', g'. split; auto.
  destruct (compose_good n fuel f g r f' g' F Gf Gg E) as (Gr & Dr & Cr).
  assert (Dr' : same_surface n (domain r) s) by (eapply same_trans; eauto). assert (Cr' : same_surface n (codomain r) w) by (eapply same_trans; eauto).
  destruct C as [(T & -> & _)|[(_ & T & -> & _)|(_ & _ & -> & _)]].
  - split; auto. split; auto. split; auto. split; auto. destruct Cg as (k & a & b & c & d & A & Q). exists k, a, b, c, d. split; auto. intros h H. rewrite (tracks_trivial n f u w q) by (auto; now apply (tracks_lt n g s u)). auto.
  - split; auto. split; auto. split; auto. split; auto. destruct Cf as (k & a & b & c & d & A & Q). exists k, a, b, c, d. split; auto. intros h H. rewrite (tracks_trivial n g s u p h) by auto. auto.
  - split; auto. split; [now split|]. split; auto. split; auto. destruct Cf as (k & a & b & c & d & A & Q). destruct Cg as (k' & a' & b' & c' & d' & A' & Q').
    eexists _, _, _, _, _. split; [apply (acts_composite n fuel f g k' a' b' c' d' k a b c d); auto; try (now apply good_domain); now apply good_codomain|].
    cbv beta. intros h H. assert (L := ac_lt _ _ _ _ _ _ _ _ A' h H). rewrite Q by auto. now rewrite Q'.
Qed.
Lemma section_no_flips r r' : no_flips r -> relation_section truediv r = Ok r' -> no_flips r'.
Proof.
  revert r'. induction r as [s|s u e|s u a b c d|s u m b|s u|l IHl r IHr]; cbn [no_flips relation_section]; intros r' N E.
  - injection E as <-. exact I.
  - destruct N.
  - apply bind_Ok in E as ([[[aa bb] cc] dd] & _ & E). injection E as <-. exact I.
  - unfold make_combinatorial in E. apply bind_Ok in E as (b' & _ & E). injection E as <-. exact I.
  - injection E as <-. exact I.
  - destruct N as [Nl Nr]. apply bind_Ok in E as (x & Ex & E). apply bind_Ok in E as (y & Ey & E). injection E as <-. split; auto.
Qed.
Lemma tracks_section n r r' s u f g : n + 1 < fuel -> bijection n f g -> tracks n r s u f -> relation_section truediv r = Ok r' -> tracks n r' u s g.
Proof.
  intros F [B1 B2] (G & N & A & B & k & a & b & c & d & C & Q) E. destruct (section_good truediv n r r' Hdiv G E) as (G' & Ed & Ec). assert (N' := section_no_flips r r' N E).
  split; auto. split; auto. rewrite Ed, Ec. split; auto. split; auto. destruct (acts_exists n fuel r' F G' N') as (k' & a' & b' & c' & d' & C' & _). exists k', a', b', c', d'. split; auto.
  intros y Hy. destruct (B2 y Hy) as [Hg Eg]. set (p := mkPoint (g y) (rofZ 1 : K) (rofZ 1) (rofZ 1)).
  assert (Np : normal n p). { unfold p, normal. cbn [pface pa pb pc]. rewrite !den_ofZ. split; auto. repeat split; lra. }
  destruct (section_point_exact truediv n r r' p Hdiv G N E Np) as (q & Eq & Ep). rewrite (ac_point _ _ _ _ _ _ _ _ C p Np) in Eq. injection Eq as <-. subst p. cbn [pface pa pb pc] in Ep. rewrite Q, Eg in Ep by auto.
  assert (Nq : normal n (mkPoint y (rofZ 1 : K) (rofZ 1) (rofZ 1))). { unfold normal. cbn [pface pa pb pc]. rewrite !den_ofZ. split; auto. repeat split; lra. }
  rewrite (ac_point _ _ _ _ _ _ _ _ C' _ Nq) in Ep. cbn [pface pa pb pc] in Ep. now injection Ep.
Qed.
(** Linear maps have a section when their determinant is a unit. *)
Lemma linear_section_ok (a b c d r : K) : (den r * (den a * den d - den b * den c) = 1)%R -> exists m, linear_section truediv a b c d = Ok m.
Proof.
  intros E. assert (D : (den (a * d - b * c)%X <> 0)%R) by (rewrite den_sub, !den_mul; intros Z; rewrite Z in E; lra).
  assert (Q : forall x, exists y, truediv x (a * d - b * c)%X = Some y).
  { intros x. assert (H := Hdiv x (a * d - b * c)%X D). destruct (truediv x (a * d - b * c)%X); eauto. exfalso. apply (H (x * r)%X). rewrite den_sub, !den_mul. rewrite Rmult_assoc, E. ring. }
  unfold linear_section. destruct (Q a) as (? & ->), (Q b) as (? & ->), (Q c) as (? & ->), (Q d) as (? & ->). eauto.
Qed.

(** ** The deformation to the normal form *)
Definition nform n s (x : nat * Z) (m : matrix (K := K)) u : Prop := let '(a, b, c, d) := m in normal_form n s (snd x) (clist n s x) (den a) (den b) (den c) (den d) u.
Lemma lw_deformation_ok n s x m u : n + 1 < fuel -> closed_flat n s -> closed_flat n u -> complete n (clist n s x) -> sign_is (snd x) (mdet m) -> nform n s x m u ->
  exists d, lw_deformation fuel (mkLW (cw_at s (snd x) (length (clist n s x)) (clist n s x)) m) u = Ok d /\ tracks n d s u (lbl (clist n s x)) /\
    ((exists r : K, (den r * mdet m = 1)%R) -> exists d', relation_section truediv d = Ok d').
Proof.
  destruct m as [[[a b] c] e]. cbn [mdet nform]. intros F S U C D N. assert (D0 := sign_nonzero _ _ D).
  unfold lw_deformation. cbn [lw_matrix lw_combinatorial cw_surface cw_at]. destruct (matrix_total n s a b c e S D0) as (v & -> & V & Ln). cbn [bind].
  rewrite (relabeling_at n) by auto. cbn [bind codomain].
  assert (R := normal_renames n s v _ _ _ _ _ _ u S V U C Ln D N). assert (M := labels_maps n (clist n s x)). rewrite (make_combinatorial_ok n v u _ _ _ V U R M). cbn [bind].
  set (g := RLinear s v a b c e). set (f := RCombinatorial v u (labels_of n (clist n s x)) true).
  assert (Gg : good n g). { unfold g. cbn [good]. split; auto. split; auto. split; auto. do 4 eexists. split; [exact Ln|]. reflexivity. }
  assert (Gf : good n f). { unfold f. cbn [good]. split; auto. split; auto. split; auto. eexists _, _. split; [exact R|exact M]. }
  assert (Tg : tracks n g s v (fun h => h)).
  { split; auto. split; [exact I|]. split; [apply same_refl|]. split; [apply same_refl|]. eexists _, _, _, _, _. split; [apply (acts_linear n fuel s v a b c e _ _ _ _ F S V D0 Ln); reflexivity|]. auto. }
  assert (Tf : tracks n f v u (lbl (clist n s x))).
  { split; auto. split; [exact I|]. split; [apply same_refl|]. split; [apply same_refl|]. eexists _, _, _, _, _. split; [apply (acts_relabel n fuel v u _ _ _ V U R M)|]. auto. }
  destruct (tracks_compose n f g s v u _ _ F Tg Tf) as (r & f' & g' & E & T). rewrite E. cbn [bind]. exists r. split; auto. split; auto.
  intros (q & Eq). assert (Sg : exists g', relation_section truediv g = Ok g').
  { unfold g. cbn [relation_section]. destruct (linear_section_ok a b c e q Eq) as ([[[? ?] ?] ?] & ->). cbn [bind]. eauto. }
  assert (Sf : exists f', relation_section truediv f = Ok f').
  { unfold f. cbn [relation_section]. rewrite (make_combinatorial_ok n u v _ (unlbl (clist n s x)) (lbl (clist n s x))); eauto; [now apply renames_back|]. apply (maps_back n _ (lbl (clist n s x)) (unlbl (clist n s x))); auto; apply R. }
  destruct (compose_cases n fuel f g F Gf Gg (same_refl n v)) as (r0 & ? & ? & E' & Cs). rewrite E in E'. injection E' as <- _ _.
  destruct Cs as [(_ & -> & _)|[(_ & _ & -> & _)|(_ & _ & -> & _)]]; auto. destruct Sf as (f1 & Ef), Sg as (g1 & Eg). cbn [relation_section]. rewrite Eg, Ef. cbn [bind]. eauto.
Qed.
End facts.
