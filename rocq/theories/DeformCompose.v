(** * Composing deformations and undoing them *)
From Coq Require Import ZArith Reals List Arith Bool Lia Lra Psatz Relations Permutation.
From Verif Require Import Base HalfEdge HalfEdgeFacts Perm PermSpec PermFacts IndexedSet Combinatorial CombinatorialSpec CombinatorialFacts CombinatorialOps
  ExactReal Vector PlaneSpec Plane VectorFacts FlatTri FlatSpec FlatFacts FlatSum FlatLinear FlatOps FlatAngle FlatSector FlatDelaunay
  Point PointSpec PointFacts PointOps PointHash PointEq PointPlane PointFlip PointFlipFacts Linear LinearProps Chain ChainSpec ChainFacts Saddle SaddleSpec SaddleFacts Deform DeformSpec DeformFacts DeformPath DeformGood DeformActs.
Import ListNotations.
Local Open Scope nat_scope.

Section facts.
Context {K : ExactReal}.
Implicit Types s u : flat K.
Implicit Types f g r l : relation K.
Implicit Types x y : segment K.
Implicit Types p q : point K.

(** ** Products *)
Lemma eqb_sizes n m s u : closed_flat n s -> closed_flat m u -> exists b, flat_eqb s u = Ok b /\ (b = true -> n = m).
Proof. intros [S _] [U _]. destruct (flat_eqb_spec n m s u S U) as (b & E & Q). exists b. split; auto. intros T. now apply Q. Qed.
Lemma compose_cases n fuel f g : n + 1 < fuel -> good n f -> good n g -> same_surface n (codomain g) (domain f) ->
  exists r f' g', compose fuel f g = Ok (r, f', g') /\
    ((relation_trivial fuel f = Ok true /\ r = g /\ f' = RTrivial (domain f) /\ g' = g) \/
     (relation_trivial fuel f = Ok false /\ relation_trivial fuel g = Ok true /\ r = f /\ f' = f /\ g' = RTrivial (domain g)) \/
     (relation_trivial fuel f = Ok false /\ relation_trivial fuel g = Ok false /\ r = RComposite f g /\ f' = f /\ g' = g)).
Proof.
  intros F Gf Gg Sm. unfold compose, deformation_trivial. apply (same_eqb n) in Sm; [|now apply good_codomain|now apply good_domain]. rewrite Sm. cbn [bind negb].
  destruct (trivial_ok n fuel f F Gf) as (b & -> & _). cbn [bind]. destruct b; [exists g, (RTrivial (domain f)), g; split; auto; left; auto|].
  destruct (trivial_ok n fuel g F Gg) as (b & -> & _). cbn [bind]. destruct b; [exists f, f, (RTrivial (domain g))|exists (RComposite f g), f, g]; split; auto.
  - right. left. auto 10.
  - right. right. auto 10.
Qed.
Lemma compose_same n fuel f g (z : relation K * relation K * relation K) : good n f -> good n g -> compose fuel f g = Ok z -> same_surface n (codomain g) (domain f).
Proof.
  intros Gf Gg E. apply (same_eqb n); [now apply good_codomain|now apply good_domain|]. unfold compose in E. apply bind_Ok in E as (b & -> & E). now destruct b.
Qed.
Lemma compose_good n fuel f g r f' g' : n + 1 < fuel -> good n f -> good n g -> compose fuel f g = Ok (r, f', g') ->
  good n r /\ same_surface n (domain r) (domain g) /\ same_surface n (codomain r) (codomain f).
Proof.
  intros F Gf Gg E. assert (Sm := compose_same n fuel f g _ Gf Gg E). destruct (compose_cases n fuel f g F Gf Gg Sm) as (r0 & f0 & g0 & E' & C). rewrite E in E'. injection E' as <- <- <-.
  destruct C as [(T & -> & _)|[(_ & T & -> & _)|(_ & _ & -> & _)]].
  - split; auto. split; [apply same_refl|]. destruct (trivial_ok n fuel f F Gf) as (b & Eb & B). rewrite T in Eb. injection Eb as <-. eapply same_trans; [exact Sm|]. now apply B.
  - split; auto. split; [|apply same_refl]. destruct (trivial_ok n fuel g F Gg) as (b & Eb & B). rewrite T in Eb. injection Eb as <-. apply same_sym. eapply same_trans; [now apply B|exact Sm].
  - split; [cbn [good]; auto|]. split; apply same_refl.
Qed.
Lemma made_good truediv fuel n r : exact_division truediv -> n + 1 < fuel -> made truediv fuel n r -> good n r.
Proof.
  intros D F M. induction M as [s S|s u e S He E|s a b c d r S E|s m r S R E|f r M IH E|f g r f' g' M1 IH1 M2 IH2 E].
  - exact S.
  - cbn [good]. split; auto. split; [now apply (flip_closed n s u e)|]. split; [apply diagonals_flip; auto; apply S|auto].
  - now apply (matrix_good n s a b c d).
  - now apply (relabel_good n s m).
  - now apply (section_good truediv n f r).
  - now apply (compose_good n fuel f g r f' g').
Qed.

(** ** Points *)
Lemma flip_relates n s u e : good n (RFlip s u e) -> exists Q : rep -> rep -> Prop,
  (forall z, fst z < n -> weights (snd z) -> exists z', Q z z') /\ (forall z', fst z' < n -> weights (snd z') -> exists z, Q z z') /\
  (forall z1 z2 z1' z2', Q z1 z1' -> Q z2 z2' -> (same_point n s z1 z2 <-> same_point n u z1' z2')) /\
  (forall p, normal n p -> exists q, flip_point s u e p = Ok q /\ normal n q /\ forall z', Q (location p) z' -> same_point n u z' (location q)) /\
  (forall q, normal n q -> exists p, flip_point u s e q = Ok p /\ normal n p /\ forall z, Q z (location q) -> same_point n s z (location p)).
Proof.
  cbn [good]. intros ([S C] & [U Cu] & _ & He & [E|E]).
  - exists (flip_image n s u e). split; [intros; now apply flip_image_total|]. split; [intros; now apply flip_image_onto|]. split; [intros; now apply (flip_image_sp n s u e)|].
    split; intros p Np; [now apply flip_point_spec|now apply flip_point_back].
  - exists (fun z z' => flip_image n u s e z' z). split; [intros; now apply flip_image_onto|]. split; [intros; now apply flip_image_total|].
    split; [intros; symmetry; now apply (flip_image_sp n u s e)|]. split; intros p Np; [now apply flip_point_back|now apply flip_point_spec].
Qed.
Lemma point_total n r p : good n r -> normal n p -> exists q, relation_point r p = Ok q /\ normal n q.
Proof.
  revert p. induction r as [s|s u e|s u a b c d|s u m b|s u|l IHl r IHr]; intros p G N.
  - exists p. auto.
  - destruct (flip_relates n s u e G) as (Q & _ & _ & _ & X & _). destruct (X p N) as (q & E & Nq & _). eauto.
  - exists p. split; auto. destruct G as (S & U & _). cbn [relation_point]. apply (linear_point_ok K n); auto; apply S || apply U.
  - destruct G as (S & U & -> & f & g & R & M). cbn [relation_point]. rewrite (combinatorial_point_ok n s u m f g p) by auto. eexists. split; [reflexivity|].
    apply normal_renamed; auto. intros h H. now apply R.
  - destruct G.
  - destruct G as (Gl & Gr & _). destruct (IHr p Gr N) as (q & E & Nq). destruct (IHl q Gl Nq) as (t & E' & Nt). exists t. cbn [relation_point]. rewrite E. auto.
Qed.
Lemma same_points n s u (z z' : rep) : same_surface n s u -> same_point n s z z' -> same_point n u z z'.
Proof. intros E. apply same_faces. intros h H. now apply E. Qed.
Lemma renamed_points n s u (f : nat -> nat) (z z' : rep) : (forall h, h < n -> f h < n) -> (forall h, h < n -> f (neg h) = neg (f h)) -> (forall h, h < n -> fF u (f h) = f (fF s h)) ->
  same_point n s z z' -> same_point n u (f (fst z), snd z) (f (fst z'), snd z').
Proof.
  intros L Ng Fc I. induction I as [z z' I|z|z z' _ I|z z' z'' _ I _ I']; [|apply rst_refl|now apply rst_sym|eapply rst_trans; eauto].
  apply rst_step. destruct I as [h a b c k H Q Hk|h a b c H Q|h a b H Q]; cbn [fst snd]; [constructor; auto| |].
  - rewrite <- (Fc h H). constructor; auto.
  - rewrite (Ng h H). constructor; auto.
Qed.
Lemma point_respects n r p1 p2 q1 q2 : good n r -> preserving r -> normal n p1 -> normal n p2 -> relation_point r p1 = Ok q1 -> relation_point r p2 = Ok q2 ->
  (same_point n (domain r) (location p1) (location p2) <-> same_point n (codomain r) (location q1) (location q2)).
Proof.
  revert p1 p2 q1 q2. induction r as [s|s u e|s u a b c d|s u m b|s u|l IHl r IHr]; intros p1 p2 q1 q2 G Pr N1 N2 E1 E2; cbn [domain codomain].
  - cbn [relation_point] in *. injection E1 as <-. injection E2 as <-. reflexivity.
  - destruct (flip_relates n s u e G) as (Q & T & _ & I & X & _). cbn [relation_point] in *.
    destruct (X p1 N1) as (q1' & E1' & Nq1 & H1). rewrite E1 in E1'. injection E1' as <-. destruct (X p2 N2) as (q2' & E2' & Nq2 & H2). rewrite E2 in E2'. injection E2' as <-.
    destruct (normal_valid n p1 N1) as [V1 W1]. destruct (normal_valid n p2 N2) as [V2 W2]. destruct (T _ V1 W1) as (z1 & Z1). destruct (T _ V2 W2) as (z2 & Z2).
    rewrite (I _ _ _ _ Z1 Z2). specialize (H1 _ Z1). specialize (H2 _ Z2). split; intros Y.
    + eapply rst_trans; [apply rst_sym; exact H1|]. eapply rst_trans; [exact Y|exact H2].
    + eapply rst_trans; [exact H1|]. eapply rst_trans; [exact Y|apply rst_sym; exact H2].
  - destruct G as (S & U & Dt & a' & b' & c' & d' & (Dl & _ & P & _) & Sg). cbn [relation_point preserving] in *.
    rewrite (linear_point_ok K n s u) in E1, E2; auto; try apply S; try apply U. injection E1 as <-. injection E2 as <-.
    assert (Fc : forall h, h < n -> fF u h = fF s h) by (intros h H; apply P; auto; now apply Sg).
    split; apply same_faces; auto. intros h H. symmetry. auto.
  - destruct G as (S & U & -> & f & g & R & M). cbn [relation_point] in *. rewrite (combinatorial_point_ok n s u m f g) in E1, E2 by auto. injection E1 as <-. injection E2 as <-.
    assert (R' := renames_back n s u f g S R). destruct R as ([B1 B2] & Fn & Ru). destruct R' as (_ & Fn' & Ru'). unfold location. cbn [pface pa pb pc].
    split; intros Y.
    + exact (renamed_points n s u f _ _ (fun h H => proj1 (B1 h H)) Fn (fun h H => proj1 (Ru h H)) Y).
    + apply (renamed_points n u s g _ _ (fun h H => proj1 (B2 h H)) Fn' (fun h H => proj1 (Ru' h H))) in Y. cbn [fst snd] in Y. destruct (B1 _ (proj1 N1)) as [_ X1]. destruct (B1 _ (proj1 N2)) as [_ X2]. now rewrite X1, X2 in Y.
  - destruct G.
  - destruct G as (Gl & Gr & Sm). destruct Pr as [Pl Pr]. cbn [relation_point] in *. apply bind_Ok in E1 as (t1 & A1 & B1). apply bind_Ok in E2 as (t2 & A2 & B2).
    destruct (point_total n r p1 Gr N1) as (t1' & A1' & M1). rewrite A1 in A1'. injection A1' as <-. destruct (point_total n r p2 Gr N2) as (t2' & A2' & M2). rewrite A2 in A2'. injection A2' as <-.
    rewrite (IHr p1 p2 t1 t2 Gr Pr N1 N2 A1 A2). rewrite <- (IHl t1 t2 q1 q2 Gl Pl M1 M2 B1 B2). split; apply same_points; auto. now apply same_sym.
Qed.
Lemma section_preserving truediv n r r' : exact_division truediv -> good n r -> preserving r -> relation_section truediv r = Ok r' -> preserving r'.
Proof.
  intros D. revert r'. induction r as [s|s u e|s u a b c d|s u m b|s u|l IHl r IHr]; cbn [good relation_section preserving]; intros r' G P E.
  - now injection E as <-.
  - now injection E as <-.
  - destruct G as (S & U & Dt & _). destruct (linear_section truediv a b c d) as [[[[aa bb] cc] dd]| | |] eqn:Q; try discriminate. cbn [bind] in E. injection E as <-. cbn [preserving].
    destruct (C32_section_orientation K truediv a b c d aa bb cc dd D Dt Q) as [X _]. nra.
  - unfold make_combinatorial in E. apply bind_Ok in E as (z & _ & E). now injection E as <-.
  - now injection E as <-.
  - destruct G as (Gl & Gr & _). apply bind_Ok in E as (x & Ex & E). apply bind_Ok in E as (y & Ey & E). injection E as <-. cbn [preserving]. split; [now apply IHr|now apply IHl].
Qed.
Lemma section_point truediv n r r' p q : exact_division truediv -> good n r -> preserving r -> relation_section truediv r = Ok r' -> normal n p -> relation_point r p = Ok q ->
  exists p', relation_point r' q = Ok p' /\ normal n p' /\ same_point n (domain r) (location p) (location p').
Proof.
  intros D. revert r' p q. induction r as [s|s u e|s u a b c d|s u m b|s u|l IHl r IHr]; intros r' p q G Pr Es N E; cbn [domain].
  - cbn in *. injection Es as <-. injection E as <-. exists p. split; auto. split; auto. apply rst_refl.
  - cbn [relation_section] in Es. injection Es as <-. cbn [relation_point] in *. destruct (flip_relates n s u e G) as (Q & T & O & I & X & Y).
    destruct (X p N) as (q' & E' & Nq & H). rewrite E in E'. injection E' as <-. destruct (Y q Nq) as (p' & Ep & Np & H'). exists p'. split; auto. split; auto.
    destruct (normal_valid n p N) as [V W]. destruct (T _ V W) as (z & Z). destruct (normal_valid n q Nq) as [V' W']. destruct (O _ V' W') as (z' & Z').
    eapply rst_trans; [|apply H'; exact Z']. apply (I _ _ _ _ Z Z'). now apply H.
  - destruct G as (S & U & Dt & _). cbn [relation_section relation_point] in *. apply bind_Ok in Es as ([[[aa bb] cc] dd] & _ & Es). injection Es as <-.
    rewrite (linear_point_ok K n s u) in E; auto; try apply S; try apply U. injection E as <-. exists p. split; [|split; [auto|apply rst_refl]].
    cbn [relation_point]. apply (linear_point_ok K n); auto; apply S || apply U.
  - destruct G as (S & U & -> & f & g & R & M). assert (R' := renames_back n s u f g S R). cbn [relation_section relation_point] in *.
    assert (M' : maps_to n (map (fun k : nat * nat => (snd k, fst k)) m) g) by (apply (maps_back n m f g); auto; apply R).
    rewrite (make_combinatorial_ok n u s _ g f) in Es; auto. injection Es as <-. rewrite (combinatorial_point_ok n s u m f g) in E by auto. injection E as <-.
    cbn [relation_point]. rewrite (combinatorial_point_ok n u s _ g f) by (auto; apply normal_renamed; auto; intros h H; now apply R). cbn [pface pa pb pc].
    assert (X : g (f (pface p)) = pface p) by (destruct R as ([B1 _] & _); apply B1; apply N). rewrite X. exists p. split; [now destruct p|]. split; [auto|apply rst_refl].
  - destruct G.
  - pose proof G as (Gl & Gr & Sm). destruct Pr as [Pl Pr]. cbn [relation_section relation_point] in *. apply bind_Ok in Es as (x & Ex & Es). apply bind_Ok in Es as (y & Ey & Es). injection Es as <-.
    apply bind_Ok in E as (t & A & B). destruct (point_total n r p Gr N) as (t' & A' & Nt). rewrite A in A'. injection A' as <-.
    destruct (IHl y t q Gl Pl Ey Nt B) as (t' & Et & Nt' & Z). destruct (IHr x p t Gr Pr Ex N A) as (p1 & E1 & N1 & Z1).
    destruct (section_good truediv n r x D Gr Ex) as (Gx & Dx & Cx). destruct (point_total n x t' Gx Nt') as (p' & Ep & Np). exists p'. cbn [relation_point]. rewrite Et. cbn [bind]. split; auto. split; auto.
    eapply rst_trans; [exact Z1|]. rewrite <- Cx. apply (point_respects n x t t' p1 p' Gx); auto; [now apply (section_preserving truediv n r)|]. rewrite Dx. apply (same_points n (domain l)); auto. now apply same_sym.
Qed.
(** Without flips, the coordinates are the same again. *)
Lemma section_point_exact truediv n r r' p : exact_division truediv -> good n r -> no_flips r -> relation_section truediv r = Ok r' -> normal n p ->
  exists q, relation_point r p = Ok q /\ relation_point r' q = Ok p.
Proof.
  intros D. revert r' p. induction r as [s|s u e|s u a b c d|s u m b|s u|l IHl r IHr]; intros r' p G Nf Es N.
  - cbn in *. injection Es as <-. exists p. auto.
  - destruct Nf.
  - destruct G as (S & U & Dt & _). cbn [relation_section relation_point] in *. apply bind_Ok in Es as ([[[aa bb] cc] dd] & _ & Es). injection Es as <-. exists p.
    cbn [relation_point]. split; apply (linear_point_ok K n); auto; apply S || apply U.
  - destruct G as (S & U & -> & f & g & R & M). assert (R' := renames_back n s u f g S R). cbn [relation_section relation_point] in *.
    assert (M' : maps_to n (map (fun k : nat * nat => (snd k, fst k)) m) g) by (apply (maps_back n m f g); auto; apply R).
    rewrite (make_combinatorial_ok n u s _ g f) in Es; auto. injection Es as <-. rewrite (combinatorial_point_ok n s u m f g) by auto. eexists. split; [reflexivity|].
    cbn [relation_point]. rewrite (combinatorial_point_ok n u s _ g f) by (auto; apply normal_renamed; auto; intros h H; now apply R). cbn [pface pa pb pc].
    assert (X : g (f (pface p)) = pface p) by (destruct R as ([B1 _] & _); apply B1; apply N). rewrite X. now destruct p.
  - destruct G.
  - pose proof G as (Gl & Gr & Sm). destruct Nf as [Nl Nr]. cbn [relation_section relation_point] in *. apply bind_Ok in Es as (x & Ex & Es). apply bind_Ok in Es as (y & Ey & Es). injection Es as <-.
    destruct (IHr x p Gr Nr Ex N) as (t & A & B). destruct (point_total n r p Gr N) as (t' & A' & Nt). rewrite A in A'. injection A' as <-.
    destruct (IHl y t Gl Nl Ey Nt) as (q & A' & B'). exists q. rewrite A. cbn [bind]. split; auto. cbn [relation_point]. rewrite B'. cbn [bind]. exact B.
Qed.

(** ** Trivial deformations without flips do nothing *)
Lemma trivial_points n fuel f p : n + 1 < fuel -> good n f -> no_flips f -> relation_trivial fuel f = Ok true -> normal n p -> relation_point f p = Ok p.
Proof.
  intros F G Nf T N. destruct (acts_exists n fuel f F G Nf) as (h & a & b & c & d & A & Q). rewrite (ac_point _ _ _ _ _ _ _ _ A p N). destruct (Q T _ (proj1 N)) as [-> _]. now destruct p.
Qed.
Lemma trivial_segment n fuel f x : n + 1 < fuel -> good n f -> no_flips f -> relation_trivial fuel f = Ok true -> seg_on n (domain f) x ->
  exists y, relation_path fuel f [x] = Ok [y] /\ seg_on n (codomain f) y /\ same_segment n x y.
Proof.
  intros F G Nf T X. destruct (acts_exists n fuel f F G Nf) as (h & a & b & c & d & A & Q). specialize (Q T). destruct (ac_segment _ _ _ _ _ _ _ _ A x X) as (y & E & Y & V & (C1 & _) & _).
  exists y. split; auto. split; auto. destruct (good_surfaces n f G) as [Sd Sc]. pose proof X as ((_ & Ox & Lx & Hs & _) & Sx & Ov). pose proof Y as (_ & Sy & _).
  destruct (trivial_ok n fuel f F G) as (t & Et & B). rewrite T in Et. injection Et as <-. specialize (B eq_refl).
  split; [|split].
  - eapply same_trans; [exact Sx|]. eapply same_trans; [exact B|]. now apply same_sym.
  - rewrite V. unfold sdir. rewrite <- (same_cvector n (sg_over x) (domain f)) by (auto; apply Ox). apply cvector_linear; [|apply Sd]. intros k Hk. symmetry. now apply Q.
  - destruct (Q _ Hs) as [E1 E2]. assert (H1 := fV_lt n _ _ (proj1 Sd) Hs). destruct (Q _ H1) as [_ E3].
    assert (P := corner_det n _ _ (proj1 Sd) Hs (proj2 Sd _ Hs)). assert (Z := pdet_papply a b c d (vv (domain f) (sg_source x)) (vv (domain f) (fV (domain f) (sg_source x)))). rewrite E2, E3 in Z.
    rewrite C1; [auto|]. nra.
Qed.
(** Images of paths under a deformation without flips. *)
Lemma path_acts n fuel f (p : trail) : n + 1 < fuel -> good n f -> no_flips f -> Forall (seg_on n (domain f)) p -> exists q : trail, relation_path fuel f p = Ok q /\ Forall (seg_on n (codomain f)) q.
Proof.
  intros F G Nf H. destruct (acts_exists n fuel f F G Nf) as (h & a & b & c & d & A & _).
  destruct (path_image n fuel f (fun _ y => seg_on n (codomain f) y) p G) as (q & E & Q).
  { intros x I. rewrite Forall_forall in H. destruct (ac_segment _ _ _ _ _ _ _ _ A x (H x I)) as (y & E & Y & _). eauto. }
  exists q. split; auto. clear - Q. induction Q; constructor; auto.
Qed.
Lemma trivial_path n fuel f (p : trail) : n + 1 < fuel -> good n f -> no_flips f -> relation_trivial fuel f = Ok true -> Forall (seg_on n (domain f)) p ->
  exists q : trail, relation_path fuel f p = Ok q /\ Forall (seg_on n (codomain f)) q /\ Forall2 (same_segment n) p q.
Proof.
  intros F G Nf T H. destruct (path_image n fuel f (fun x y => seg_on n (codomain f) y /\ same_segment n x y) p G) as (q & E & Q).
  { intros x I. rewrite Forall_forall in H. destruct (trivial_segment n fuel f x F G Nf T (H x I)) as (y & E' & Y & Z). eauto. }
  exists q. split; auto. clear - Q. induction Q; split; constructor; try tauto.
Qed.
Lemma seg_sound n s (p : trail) : Forall (seg_on n s) p -> Forall (sound n) p.
Proof. intros H. eapply Forall_impl; [|exact H]. intros x (X & _). now apply departs_sound. Qed.
Lemma same_segment_refl n x : same_segment n x x. Proof. split; [apply same_refl|auto]. Qed.
Lemma same_segment_trans n x y z : same_segment n x y -> same_segment n y z -> same_segment n x z.
Proof. intros (A1 & A2 & A3) (B1 & B2 & B3). split; [eapply same_trans; eauto|]. split; congruence. Qed.
Lemma same_segment_sym n x y : same_segment n x y -> same_segment n y x.
Proof. intros (A1 & A2 & A3). split; [now apply same_sym|]. split; congruence. Qed.
Lemma same_path_refl n (p : list (segment K)) : Forall2 (same_segment n) p p. Proof. induction p; constructor; auto. apply same_segment_refl. Qed.
Lemma same_path_trans n (p q t : list (segment K)) : Forall2 (same_segment n) p q -> Forall2 (same_segment n) q t -> Forall2 (same_segment n) p t.
Proof. intros H. revert t. induction H; intros t T; inversion T; subst; constructor; auto. eapply same_segment_trans; eauto. Qed.
Lemma same_path_sym n (p q : list (segment K)) : Forall2 (same_segment n) p q -> Forall2 (same_segment n) q p.
Proof. induction 1; constructor; auto. now apply same_segment_sym. Qed.
Lemma path_on_same n s u (p : list (segment K)) : same_surface n s u -> Forall (seg_on n s) p -> Forall (seg_on n u) p.
Proof. intros E H. eapply Forall_impl; [|exact H]. intros x. now apply seg_on_same. Qed.

(** Equal saddle connections have equal images. *)
Lemma path_respects n fuel f (p p' q q' : trail) : n + 1 < fuel -> good n f -> no_flips f -> Forall (seg_on n (domain f)) p -> Forall (seg_on n (domain f)) p' -> Forall2 (same_segment n) p p' ->
  relation_path fuel f p = Ok q -> relation_path fuel f p' = Ok q' -> Forall2 (same_segment n) q q'.
Proof.
  intros F G Nf P P' H. revert q q'. destruct (acts_exists n fuel f F G Nf) as (k & a & b & c & d & A & _). pose proof (ac_det _ _ _ _ _ _ _ _ A) as D. destruct (good_surfaces n f G) as [Sd Sc].
  induction H as [|x x' p p' X H IH]; intros q q' E E'.
  - assert (L := path_length fuel f _ _ E). assert (L' := path_length fuel f _ _ E'). destruct q, q'; try discriminate. constructor.
  - apply Forall_cons_iff in P as [Px P]. apply Forall_cons_iff in P' as [Px' P'].
    destruct (ac_segment _ _ _ _ _ _ _ _ A x Px) as (y & Ey & (Dy & Sy & _) & Vy & (C1 & C2 & C3) & _). destruct (ac_segment _ _ _ _ _ _ _ _ A x' Px') as (y' & Ey' & (Dy' & Sy' & _) & Vy' & (C1' & C2' & C3') & _).
    destruct (path_acts n fuel f p F G Nf P) as (t & Et & _). destruct (path_acts n fuel f p' F G Nf P') as (t' & Et' & _).
    rewrite (path_cons fuel f x y p t Ey Et) in E. rewrite (path_cons fuel f x' y' p' t' Ey' Et') in E'. injection E as <-. injection E' as <-. constructor; [|now apply IH].
    destruct X as (X1 & X2 & X3). split; [eapply same_trans; [exact Sy|now apply same_sym]|]. split; [congruence|]. rewrite <- X2, <- X3 in *.
    destruct (Rtotal_order (a * d - b * c) 0) as [Z|[Z|Z]]; [|contradiction|].
    + destruct (Req_dec (pdet (vv (domain f) (sg_source x)) (sdir n x)) 0) as [W|W]; [rewrite (C2 Z W), (C2' Z W)|rewrite (C3 Z W), (C3' Z W)]; auto.
    + rewrite (C1 Z), (C1' Z). auto.
Qed.
End facts.
