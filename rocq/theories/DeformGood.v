(** * Deformations that come from the library *)
From Coq Require Import ZArith Reals List Arith Bool Lia Lra Psatz Relations Permutation.
From Verif Require Import Base HalfEdge HalfEdgeFacts Perm PermSpec PermFacts IndexedSet Combinatorial CombinatorialSpec CombinatorialFacts CombinatorialOps
  ExactReal Vector PlaneSpec Plane VectorFacts FlatTri FlatSpec FlatFacts FlatSum FlatLinear FlatOps FlatAngle FlatSector FlatDelaunay
  Point PointSpec PointFacts PointOps PointHash Linear LinearProps Chain ChainSpec ChainFacts Saddle SaddleSpec SaddleFacts Deform DeformSpec DeformFacts DeformPath.
Import ListNotations.
Local Open Scope nat_scope.

Section facts.
Context {K : ExactReal}.
Implicit Types s u : flat K.
Implicit Types r l : relation K.
Implicit Types x : segment K.

(** What is true of the relations that are made by the library. *)
Fixpoint good (n : nat) r : Prop :=
  match r with
  | RTrivial s => closed_flat n s
  | RFlip s u e => closed_flat n s /\ closed_flat n u /\ diagonals n s u e /\ e < n /\ (fflip s e = (u, Ok tt) \/ fflip u e = (s, Ok tt))
  | RLinear s u a b c d => closed_flat n s /\ closed_flat n u /\ (den a * den d - den b * den c <> 0)%R /\
      exists a' b' c' d', linearly n s u a' b' c' d' /\ (0 < den a * den d - den b * den c <-> 0 < a' * d' - b' * c')%R
  | RCombinatorial s u m b => closed_flat n s /\ closed_flat n u /\ b = true /\ exists f g, renames n s u f g /\ maps_to n m f
  | RSlit _ _ => False
  | RComposite l r => good n l /\ good n r /\ same_surface n (codomain r) (domain l)
  end.
Lemma good_surfaces n r : good n r -> closed_flat n (domain r) /\ closed_flat n (codomain r).
Proof. induction r as [s|s u e|s u a b c d|s u m b|s u|l IHl r IHr]; cbn [good domain codomain]; try tauto. Qed.
Lemma good_domain n r : good n r -> closed_flat n (domain r). Proof. apply good_surfaces. Qed.
Lemma good_codomain n r : good n r -> closed_flat n (codomain r). Proof. apply good_surfaces. Qed.

(** ** Making relations *)
Lemma flip_closed n s u e : closed_flat n s -> e < n -> fflip s e = (u, Ok tt) -> closed_flat n u.
Proof.
  intros [S C] He E. destruct (fflip_spec n s e u S He E) as (_ & U & _). split; auto. exact (closed_flip n s e u S C He E).
Qed.
Lemma veqb_same (v w : vec K) : vden v = vden w -> veqb v w = true.
Proof. intros E. now apply veqb_spec. Qed.
Lemma relabels_ok n s u m f g es b : closed_flat n s -> closed_flat n u -> renames n s u f g -> maps_to n m f -> (forall e, In e es -> e < n) ->
  relabels s u m es b = Ok b.
Proof.
  intros S U (B & Fn & Ru) M. induction es as [|e es IH]; intros H; cbn [relabels]; auto.
  assert (He : e < n) by (apply H; cbn; auto). unfold positive. rewrite (lookup_mapped n m f e M He).
  rewrite (from_he_Ok s e) by (now rewrite (fs_length n s (proj1 S))). cbn [bind].
  assert (Hf : f e < n) by now apply B. rewrite (from_he_Ok u (f e)) by (now rewrite (fs_length n u (proj1 U))). cbn [bind].
  rewrite veqb_same; [cbn [negb]; apply IH; intros; apply H; cbn; auto|]. destruct (Ru e He) as (_ & _ & E). symmetry. exact E.
Qed.
Lemma make_combinatorial_ok n s u m f g : closed_flat n s -> closed_flat n u -> renames n s u f g -> maps_to n m f ->
  make_combinatorial s u m = Ok (RCombinatorial s u m true).
Proof.
  intros S U R M. unfold make_combinatorial. rewrite (relabels_ok n s u m f g); auto. intros e I. now apply (in_edges n _ e (fs_wf n s (proj1 S))) in I.
Qed.
Lemma relabel_good n s p r : closed_flat n s -> renaming n p -> deform_relabel s p = Ok r -> good n r /\ domain r = s /\ frelabel s p = Ok (codomain r).
Proof.
  intros S [W E] H. unfold deform_relabel in H. destruct S as [S C]. destruct (frelabel_Ok n s p S C W E) as (u & Eu & U & Q). rewrite Eu in H |- *. cbn [bind] in H.
  assert (Cu : closed_surface n u).
  { intros x Hx B. pose proof W as (_ & _ & B1 & B2). destruct (B2 x Hx) as [L X]. destruct (Q _ L) as (F & _). rewrite X in F. rewrite B in F. apply (C _ L).
    assert (L' := fF_lt n s _ S L). destruct (B1 _ L') as [_ Y]. rewrite <- F in Y. destruct (B1 _ L) as [_ Z]. congruence. }
  assert (Pf : psize p = n) by (destruct W as (X & _); exact X).
  unfold make_combinatorial_perm in H. rewrite (omap_map _ (fun h => (h, fw p h))) in H.
  2:{ intros a I. apply in_seq in I. rewrite (papp_Ok n); [reflexivity|apply W|lia]. }
  cbn [bind] in H.
  assert (R : renames n s u (fw p) (bw p)).
  { split; [apply W|]. split; [exact E|]. intros h Hh. now apply Q. }
  assert (M : maps_to n (map (fun h => (h, fw p h)) (seq 0 (psize p))) (fw p)).
  { exists (seq 0 (psize p)). split; auto. intros h. rewrite in_seq. lia. }
  rewrite (make_combinatorial_ok n s u _ (fw p) (bw p)) in H; auto; try (split; assumption). injection H as <-. cbn [good domain codomain].
  split; auto. split; [now split|]. split; [now split|]. split; auto. exists (fw p), (bw p). auto.
Qed.
Lemma matrix_good n s a b c d r : closed_flat n s -> deform_matrix s a b c d = Ok r -> good n r.
Proof.
  intros S H. unfold deform_matrix in H. apply bind_Ok in H as (u & E & H). injection H as <-. cbn [good].
  destruct (linearly_matrix n s u a b c d S E) as [U L]. split; auto. split; auto. split; [apply L|]. exists (den a), (den b), (den c), (den d). split; auto. tauto.
Qed.
Lemma linearly_back n s u a b c d : closed_flat n s -> closed_flat n u -> linearly n s u a b c d ->
  let det := (a * d - b * c)%R in linearly n u s (d / det) (- b / det) (- c / det) (a / det).
Proof.
  intros S U (D & V & P & M) det. fold det in D, P, M.
  assert (E : (d / det * (a / det) - - b / det * (- c / det) = / det)%R) by (unfold det; field; exact D).
  unfold linearly. rewrite E. split; [now apply Rinv_neq_0_compat|]. split; [|split].
  - intros h H. rewrite V by auto. unfold papply; cbn [fst snd]. destruct (vv s h) as [x y]; cbn [fst snd]. apply pt_eq; cbn [fst snd]; unfold det; field; exact D.
  - intros Q h H. assert (Q' : (0 < det)%R) by (destruct (Rtotal_order det 0) as [X|[X|X]]; auto; [|contradiction]; exfalso; apply Rinv_lt_0_compat in X; lra).
    destruct (P Q' h H). auto.
  - intros Q h H. assert (Q' : (det < 0)%R) by (destruct (Rtotal_order det 0) as [X|[X|X]]; auto; [contradiction|]; exfalso; apply Rinv_0_lt_compat in X; lra).
    assert (Sf := fs_wf n s (proj1 S)). assert (Uf := fs_wf n u (proj1 U)).
    split.
    + (* faces *)
      assert (X : forall k, k < n -> exists j, j < n /\ k = neg (fF s j)).
      { intros k Hk. assert (Nk := neg_ltn n _ Sf k Hk). exists (pF (fT s) (neg k)). split; [now apply (pF_lt n (fT s) Sf)|]. unfold fF. rewrite (nF_pF n (fT s) Sf) by auto. now rewrite neg_neg. }
      destruct (X h H) as (j & Hj & ->). rewrite (proj1 (M Q' j Hj)), neg_neg. now rewrite neg_neg.
    + assert (X : exists j, j < n /\ h = fV s j).
      { exists (pV (fT s) h). split; [now apply (pV_lt n (fT s) Sf)|]. unfold fV. now rewrite (nV_pV n (fT s) Sf). }
      destruct X as (j & Hj & ->). now rewrite (proj2 (M Q' j Hj)).
Qed.
Lemma renames_back n s u f g : closed_flat n s -> renames n s u f g -> renames n u s g f.
Proof.
  intros S ([B1 B2] & Fn & Ru). split; [now split|]. assert (W := fs_wf n s (proj1 S)). split.
  - intros h H. destruct (B2 h H) as [L E]. rewrite <- E at 1. rewrite <- Fn by auto. now apply B1, (neg_ltn n _ W).
  - intros h H. destruct (B2 h H) as [L E]. destruct (Ru _ L) as (Q1 & Q2 & Q3). rewrite E in *.
    assert (L1 := fF_lt n s _ (proj1 S) L). assert (L2 := fV_lt n s _ (proj1 S) L). split; [|split].
    + rewrite Q1. symmetry. now apply B1.
    + rewrite Q2. symmetry. now apply B1.
    + auto.
Qed.
Lemma section_good truediv n r r' : exact_division truediv -> good n r -> relation_section truediv r = Ok r' ->
  good n r' /\ domain r' = codomain r /\ codomain r' = domain r.
Proof.
  intros D. revert r'. induction r as [s|s u e|s u a b c d|s u m b|s u|l IHl r IHr]; cbn [good relation_section domain codomain]; intros r' G E.
  - injection E as <-. auto.
  - injection E as <-. cbn [good domain codomain]. destruct G as (S & U & Q & He & X). split; [|auto]. split; auto. split; auto. split; [now apply diagonals_sym|]. split; auto. tauto.
  - destruct G as (S & U & Dt & a' & b' & c' & d' & Ln & Sg). destruct (linear_section truediv a b c d) as [[[[aa bb] cc] dd]| | |] eqn:Q; try discriminate. cbn [bind] in E. injection E as <-.
    cbn [good domain codomain]. split; [|auto]. split; auto. split; auto.
    destruct (C32_section_orientation K truediv a b c d aa bb cc dd D Dt Q) as [P _].
    split; [intros Z; rewrite Z in P; lra|]. pose proof (linearly_back n s u a' b' c' d' S U Ln) as L. cbv zeta in L.
    eexists _, _, _, _. split; [exact L|]. destruct Ln as (Dl & _). set (det := (a' * d' - b' * c')%R) in *.
    assert (Ed : (d' / det * (a' / det) - - b' / det * (- c' / det) = / det)%R) by (unfold det; field; exact Dl). rewrite Ed.
    set (k := (den a * den d - den b * den c)%R) in *. set (k' := (den aa * den dd - den bb * den cc)%R) in *.
    assert (0 < k' <-> 0 < k)%R by (split; intros; nra). rewrite H, Sg. split; intros X; [now apply Rinv_0_lt_compat|].
    destruct (Rtotal_order det 0) as [Y|[Y|Y]]; auto; [|contradiction]. apply Rinv_lt_0_compat in Y. lra.
  - destruct G as (S & U & -> & f & g & R & M). assert (R' := renames_back n s u f g S R).
    rewrite (make_combinatorial_ok n u s _ g f) in E; auto; [|apply (maps_back n m f g); auto; apply R]. injection E as <-. cbn [good domain codomain].
    split; [|auto]. split; auto. split; auto. split; auto. exists g, f. split; auto. apply (maps_back n m f g); auto; apply R.
  - destruct G.
  - destruct G as (Gl & Gr & Sm). apply bind_Ok in E as (x & Ex & E). apply bind_Ok in E as (y & Ey & E). injection E as <-.
    destruct (IHr x Gr Ex) as (Gx & D1 & D2). destruct (IHl y Gl Ey) as (Gy & D3 & D4). cbn [good domain codomain]. rewrite D1, D2, D3, D4. split; [|auto]. split; auto. split; auto. now apply same_sym.
Qed.

(** ** Half edges have images *)
(** The chain of [x] is the chain of a half edge. *)
Definition thin (n : nat) (x : segment K) : Prop :=
  closed_flat n (sg_surface x) /\ closed_flat n (sg_over x) /\ length (sg_chain x) = n / 2 /\ sg_source x < n /\ sg_target x < n /\
  exists h, h < n /\ forall i, nth i (sg_chain x) 0%Z = single h i.
Lemma thin_dir n (x : segment K) h : closed_flat n (sg_over x) -> h < n -> (forall i, nth i (sg_chain x) 0%Z = single h i) -> sdir n x = vv (sg_over x) h.
Proof. intros [S _] H N. unfold sdir, cvector. rewrite <- (cv_single n _ S h H). apply cv_ext. intros i _. apply N. Qed.
Lemma thin_half_edge n s h : closed_flat n s -> h < n -> exists x : sconn K, sc_half_edge s h = Ok x /\ thin n (segment_of x) /\ sc_source x = h /\ sc_target x = neg h /\ sc_surface x = s /\
  sdir n (segment_of x) = vv s h /\ departs n (segment_of x).
Proof.
  intros S H. destruct (half_edge_coefs n s h (proj1 S) H) as (c & E & L & N). exists (mkSconn s h (neg h) c). unfold sc_half_edge. rewrite E. cbn [bind].
  assert (Hn : neg h < n) by (apply (neg_ltn n _ (fs_wf n s (proj1 S)) h H)). split; auto.
  assert (V : sdir n (segment_of (mkSconn s h (neg h) c)) = vv s h) by (apply (thin_dir n (segment_of (mkSconn s h (neg h) c)) h S H N)).
  split; [|split; [|split; [|split; [|split]]]]; auto.
  - unfold thin, segment_of. cbn. split; auto. split; auto. split; auto. split; auto. split; auto. exists h. auto.
  - unfold departs. rewrite V. unfold segment_of. cbn. split; auto. split; auto. split; auto. split; auto. split; auto. split; [now apply (vv_nonzero n)|].
    split; [now apply (contains_self n)|]. rewrite <- (fs_odd n s (proj1 S) h H). now apply (contains_self n).
Qed.
Lemma thin_turn n u h x fuel (y : vec K) : closed_flat n u -> h < n -> closed_flat n (sg_over x) -> (exists h, h < n /\ forall i, nth i (sg_chain x) 0%Z = single h i) ->
  n + 1 < fuel -> (vden y = sdir n x \/ vden y = pneg (sdir n x)) -> exists e, sector_turn fuel u h COUNTERCLOCKWISE y false = Ok e /\ e < n.
Proof.
  intros U H O (k & Hk & N) F V. assert (Z : sdir n x <> (0, 0)%R) by (rewrite (thin_dir n x k); auto; now apply (vv_nonzero n)).
  destruct (turn_total n u h y fuel U H) as (e & E & L & _); auto; [|eauto]. destruct V as [-> | ->]; auto. now apply pneg_nz.
Qed.
Lemma flip_thin n s u e x fuel : closed_flat n s -> closed_flat n u -> n + 1 < fuel -> thin n x -> exists y, flip_segment fuel s u e x = Ok y /\ thin n y.
Proof.
  intros S U F (Sx & Ox & L & Hs & Ht & T).
  destruct (segment_vectors n x (proj1 Ox) L) as (v & w & Ev & Vv & Ew & Vw).
  assert (P : forall h, h < n -> exists h0, (if (h =? e) || (h =? neg e) then previousAtVertex (fT s) h else Ok h) = Ok h0 /\ h0 < n).
  { intros h H. destruct ((h =? e) || (h =? neg e)); [|eauto]. rewrite (prevV_Ok n) by (auto; apply S). eexists. split; [reflexivity|]. apply (pV_lt n (fT s)); auto. apply S. }
  destruct (P _ Hs) as (h0 & E0 & H0). destruct (P _ Ht) as (g0 & E0' & H0').
  destruct (thin_turn n u h0 x fuel v U H0 Ox T F) as (h & Eh & Lh); auto. destruct (thin_turn n u g0 x fuel w U H0' Ox T F) as (g & Eg & Lg); auto.
  exists (mkSegment u h g (sg_chain x) (sg_over x)). unfold flip_segment. rewrite E0. cbn [bind]. rewrite E0'. cbn [bind]. rewrite Ev. cbn [bind].
  rewrite Eh. cbn [bind]. rewrite Ew. cbn [bind]. rewrite Eg. cbn [bind]. split; auto. unfold thin. cbn. auto 10.
Qed.
Lemma linear_thin n s u a b c d x fuel : closed_flat n s -> closed_flat n u -> n + 1 < fuel -> thin n x -> exists y, linear_segment fuel s u a b c d x = Ok y /\ thin n y.
Proof.
  intros S U F (Sx & Ox & L & Hs & Ht & k & Hk & N).
  destruct (copy_ok n s u (sg_chain x) (proj1 S) (proj1 U) L) as (r & Er & Lr & Nr).
  assert (P : forall h, h < n -> exists h0, (if linear_positive a b c d then Ok h else nextAtVertex (fT s) h) = Ok h0 /\ h0 < n).
  { intros h H. destruct (linear_positive a b c d); [eauto|]. rewrite (nextV_Ok n) by (auto; apply S). eexists. split; [reflexivity|]. apply (nV_lt n (fT s)); auto. apply S. }
  destruct (P _ Hs) as (h0 & E0 & H0). destruct (P _ Ht) as (g0 & E0' & H0').
  set (z := mkSegment u 0 0 r u). assert (T : exists h, h < n /\ forall i, nth i (sg_chain z) 0%Z = single h i) by (exists k; split; auto; intros i; cbn; now rewrite Nr).
  destruct (segment_vectors n z (proj1 U) Lr) as (v & w & Ev & Vv & Ew & Vw).
  destruct (thin_turn n u h0 z fuel v U H0 U T F) as (h & Eh & Lh); auto. destruct (thin_turn n u g0 z fuel w U H0' U T F) as (g & Eg & Lg); auto.
  exists (mkSegment u h g r u). unfold linear_segment. rewrite Er. cbn [bind]. rewrite E0. cbn [bind]. rewrite E0'. cbn [bind].
  change (zc_vector u r) with (sg_vector z). rewrite Ev. cbn [bind]. rewrite Eh. cbn [bind]. change (zc_vector u (zc_neg r)) with (zc_vector (sg_over z) (zc_neg (sg_chain z))). rewrite Ew. cbn [bind]. rewrite Eg. cbn [bind].
  split; auto. unfold thin. cbn. auto 10.
Qed.
Lemma combinatorial_thin n s u m f g x : closed_flat n s -> closed_flat n u -> renames n s u f g -> maps_to n m f -> thin n x -> exists y, combinatorial_segment u m x = Ok y /\ thin n y.
Proof.
  intros S U ([B1 B2] & Fn & Ru) M (Sx & Ox & L & Hs & Ht & k & Hk & N). assert (Lt : forall h, h < n -> f h < n) by (intros h H; now apply B1).
  destruct (map_chain_ok n u m f (sg_chain x) (proj1 U) M Lt 0 (zc_zero u)) as (r & Er & Lr & Nr); [exact L|now apply zc_zero_length; apply U|].
  exists (mkSegment u (f (sg_source x)) (f (sg_target x)) r u). unfold combinatorial_segment. rewrite Er. cbn [bind]. rewrite !(map_to_ok n m f) by auto. cbn [bind].
  split; auto. unfold thin. cbn. split; auto. split; auto. split; auto. split; auto. split; auto. exists (f k). split; auto. intros i.
  rewrite Nr, (zero_coef n u i (proj1 U)). cbn [plus]. rewrite Z.add_0_l. apply (mapped_single n u f (sg_chain x) k (proj1 U)); auto.
Qed.
Lemma thin_image n fuel r x : n + 1 < fuel -> good n r -> thin n x -> exists y, relation_path fuel r [x] = Ok [y] /\ thin n y.
Proof.
  intros F. revert x. induction r as [s|s u e|s u a b c d|s u m b|s u|l IHl r IHr]; cbn [good relation_path omap]; intros x G T.
  - eauto.
  - destruct G as (S & U & _). destruct (flip_thin n s u e x fuel S U F T) as (y & E & Y). exists y. now rewrite E.
  - destruct G as (S & U & _). destruct (linear_thin n s u a b c d x fuel S U F T) as (y & E & Y). exists y. now rewrite E.
  - destruct G as (S & U & -> & f & g & R & M). cbn [negb]. destruct (combinatorial_thin n s u m f g x S U R M T) as (y & E & Y). exists y. now rewrite E.
  - destruct G.
  - destruct G as (Gl & Gr & _). destruct (IHr x Gr T) as (z & E & Z). rewrite E. cbn [bind]. now apply IHl.
Qed.
End facts.
