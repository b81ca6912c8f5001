(** * C61, C62: what deformations do to paths and half edges *)
From Coq Require Import ZArith Reals List Arith Bool Lia Lra Psatz Relations Permutation.
From Verif Require Import Base HalfEdge HalfEdgeFacts Perm PermSpec PermFacts IndexedSet Combinatorial CombinatorialSpec CombinatorialFacts CombinatorialOps
  ExactReal Vector PlaneSpec Plane VectorFacts VectorProps FlatTri FlatSpec FlatFacts FlatSum FlatLinear FlatOps FlatAngle FlatSector FlatDelaunay FlatProps
  Point PointSpec PointFacts PointOps PointHash PointEq PointPlane PointFlip PointFlipFacts PointProps Linear LinearProps Chain ChainSpec ChainFacts Saddle SaddleSpec SaddleFacts
  Deform DeformSpec DeformFacts DeformPath DeformGood DeformActs DeformCompose DeformProps.
Import ListNotations.
Local Open Scope nat_scope.

(** ** C61: flips *)
(** [x] is a saddle connection of [s] whose chain may still be over a surface before a flip. *)
Definition seg_in {K : ExactReal} (n : nat) (s : flat K) (x : segment K) : Prop := departs n x /\ same_surface n (sg_surface x) s.
(** A flip does not change the vectors of saddle connections, and source and target are in the sectors where they have been. *)
Theorem C61_path : forall (K : ExactReal) truediv fuel n (s u : flat K) e p, exact_division truediv -> n + 1 < fuel -> made truediv fuel n (RFlip s u e) ->
  Forall (seg_in n s) p ->
  exists q, relation_path fuel (RFlip s u e) p = Ok q /\
    Forall2 (fun x y => seg_in n u y /\ sdir n y = sdir n x /\ same_corner s u e (sg_source x) (sg_source y) (sdir n x) /\
      same_corner s u e (sg_target x) (sg_target y) (pneg (sdir n x))) p q.
Proof.
  intros K truediv fuel n s u e p D F M P. assert (G := made_good truediv fuel n _ D F M). pose proof G as (S & U & Q & _). apply (path_image n fuel (RFlip s u e)); auto.
  intros x I. rewrite Forall_forall in P. destruct (P x I) as [X1 X2]. destruct (flip_segment_ok n s u e x fuel S U Q F X1 X2) as (y & E & Sy & Cy & Oy & Dy & C1 & C2). exists y. cbn [relation_path omap]. rewrite E. cbn [bind].
  split; auto. split; [split; auto; rewrite Sy; apply same_refl|]. split; [unfold sdir; now rewrite Cy, Oy|auto].
Qed.
Print Assumptions C61_path.

(** Two neighbouring sectors have no direction in common. *)
Lemma sectors_apart {K : ExactReal} n (s : flat K) h d : closed_flat n s -> h < n -> d <> (0, 0)%R -> sector_contains s h d -> sector_contains s (fV s h) d -> False.
Proof.
  intros S H N A B. assert (H1 := fV_lt n s h (proj1 S) H). apply (contains_signs n s h d S H N) in A as [_ A]. apply (contains_signs n s _ d S H1 N) in B as [B _].
  assert (X : pdet (vv s (fV s h)) d = (- pdet d (vv s (fV s h)))%R) by (unfold pdet; ring). lra.
Qed.
(** The half edges of an edge do not bound a common sector. *)
Lemma no_turn {K : ExactReal} n (s : flat K) h h' e : closed_flat n s -> h < n -> fV s h = h' -> h = e \/ h = neg e -> h' = e \/ h' = neg e -> False.
Proof.
  intros S H V A B. assert (P := corner_det n s h (proj1 S) H (proj2 S h H)). rewrite V in P.
  assert (X : vv s h' = vv s h \/ vv s h' = pneg (vv s h)).
  { assert (Y : h' = h \/ h' = neg h) by (destruct A as [->| ->], B as [->| ->]; rewrite ?neg_neg; auto). destruct Y as [->| ->]; auto. right. now apply (fs_odd n s (proj1 S)). }
  destruct X as [X|X]; rewrite X in P; unfold pdet, pneg in P; cbn [fst snd] in P; lra.
Qed.
Lemma corner_back {K : ExactReal} n (s u : flat K) e h h' h'' d : closed_flat n s -> closed_flat n u -> h < n -> h' < n -> h'' < n -> d <> (0, 0)%R ->
  same_corner s u e h h' d -> same_corner u s e h' h'' d -> h'' = h.
Proof.
  intros S U H H' H'' N (A1 & A2 & A) (B1 & B2 & B).
  destruct A as [(E & N1 & N2)|[(E & E')|(E & E')]], B as [(Q & M1 & M2)|[(Q & Q')|(Q & Q')]].
  - congruence.
  - subst h'. destruct Q; contradiction.
  - subst h'. exfalso. rewrite <- Q' in B2. now apply (sectors_apart n s h d).
  - subst h''. exfalso. rewrite <- E' in A1. now apply (sectors_apart n s h' d).
  - exfalso. exact (no_turn n s h' h e S H' E' Q E).
  - congruence.
  - exfalso. destruct E; contradiction.
  - assert (X : fV u h = fV u h'') by congruence. apply (nV_inj n _ (fs_wf n u (proj1 U))) in X; auto.
  - exfalso. rewrite <- Q' in Q. exact (no_turn n s h' (fV s h') e S H' eq_refl E Q).
Qed.
(** The section of a flip undoes it. *)
Theorem C61_section : forall (K : ExactReal) truediv fuel n (s u : flat K) e p, exact_division truediv -> n + 1 < fuel -> made truediv fuel n (RFlip s u e) ->
  Forall (seg_in n s) p ->
  exists q p', relation_section truediv (RFlip s u e) = Ok (RFlip u s e) /\ relation_path fuel (RFlip s u e) p = Ok q /\ relation_path fuel (RFlip u s e) q = Ok p' /\ trail_eqb p' p = Ok true.
Proof.
  intros K truediv fuel n s u e p D F M P. assert (M' : made truediv fuel n (RFlip u s e)) by (exact (made_section truediv fuel n _ _ M eq_refl)).
  destruct (C61_path K truediv fuel n s u e p D F M P) as (q & E & Q). assert (P2 : Forall (seg_in n u) q) by (clear - Q; induction Q; constructor; tauto).
  destruct (C61_path K truediv fuel n u s e q D F M' P2) as (p' & E' & Q'). exists q, p'. split; auto. split; auto. split; auto.
  assert (P3 : Forall (seg_in n s) p') by (clear - Q'; induction Q'; constructor; tauto).
  apply (trail_eqb_same n); [eapply Forall_impl; [|exact P3]|eapply Forall_impl; [|exact P]|]; try (intros x [X _]; now apply departs_sound).
  assert (G := made_good truediv fuel n _ D F M). destruct G as (S & U & _).
  clear E E' M M' P2 P3. revert p' Q'. induction Q as [|x y p q (Y1 & Y2 & Y3 & _) Q IH]; intros p' Q'; inversion Q' as [|y' z q' t (Z1 & Z2 & Z3 & _) Q'']; subst; constructor.
  - apply Forall_cons_iff in P as [[Dx Sx] _]. destruct Y1 as [Dy Sy]. destruct Z1 as [Dz Sz]. split; [eapply same_trans; [exact Sz|now apply same_sym]|]. split; [congruence|].
    rewrite Y2 in Z3. apply (corner_back n s u e (sg_source x) (sg_source y) (sg_source z) (sdir n x)); auto; try apply Dx; try apply Dy; apply Dz.
  - apply Forall_cons_iff in P as [_ P]. now apply IH.
Qed.
Print Assumptions C61_section.

(** The image of a half edge is the half edge itself; the flipped half edges have no image. *)
Theorem C61_half_edge : forall (K : ExactReal) truediv fuel n (s u : flat K) e h, exact_division truediv -> n + 1 < fuel -> made truediv fuel n (RFlip s u e) -> h < n ->
  (h <> e -> h <> neg e -> deformation_half_edge fuel (RFlip s u e) h = Ok h /\ vv u h = vv s h) /\
  (h = e \/ h = neg e -> deformation_half_edge fuel (RFlip s u e) h = Throw).
Proof.
  intros K truediv fuel n s u e h D F M H. assert (G := made_good truediv fuel n _ D F M). pose proof G as (S & U & Q & He & _).
  destruct (thin_half_edge n s h S H) as (x & Ex & _ & Sx & _ & Ux & Vx & Dx). assert (X2 : same_surface n (sg_surface (segment_of x)) s) by (cbn; rewrite Ux; apply same_refl).
  destruct (flip_segment_ok n s u e (segment_of x) fuel S U Q F Dx X2) as (y & Ey & Sy & Cy & Oy & Dy & (C1 & C2 & C3) & _). cbn [segment_of sg_source] in C1, C2, C3. rewrite Sx, Vx in *.
  assert (Vy : sdir n y = vv s h) by (unfold sdir; rewrite Cy, Oy; exact Vx). pose proof Dy as (_ & _ & _ & Hy & _).
  destruct (thin_half_edge n u (sg_source y) U Hy) as (z & Ez & _ & Sz & _ & Uz & Vz & Dz).
  assert (Eq : deformation_half_edge fuel (RFlip s u e) h = do b <- sg_eqb y (segment_of z); if b then Ok (sg_source y) else Throw).
  { unfold deformation_half_edge. cbn [domain codomain]. rewrite Ex. cbn [bind relation_path omap]. rewrite Ey. cbn [bind]. rewrite Ez. reflexivity. }
  destruct (sg_eqb_ok n y (segment_of z) (departs_sound n y Dy) (departs_sound n _ Dz)) as (b & Eb & B). rewrite Eq, Eb. cbn [bind].
  assert (Nz := vv_nonzero n s h S H).
  assert (Vo : forall i, i < n -> i <> e -> i <> neg e -> vv u i = vv s i) by (destruct Q as (a0 & b0 & c0 & d0 & x0 & Q); apply Q).
  split.
  - intros N1 N2. assert (Yh : sg_source y = h).
    { destruct C3 as [(E & _)|[([E|E] & _)|(E & E')]]; auto; try contradiction. exfalso.
      (* the new edge is not in the direction of an old one *)
      apply (contains_signs n u _ _ U Hy Nz) in C2 as [C2 _]. assert (P := corner_det n u h (proj1 U) H (proj2 U h H)). rewrite E', (Vo h H N1 N2) in P.
      assert (Z : pdet (vv u (sg_source y)) (vv s h) = (- pdet (vv s h) (vv u (sg_source y)))%R) by (unfold pdet; ring). lra. }
    rewrite Yh in *. split; [|now apply Vo]. assert (T : b = true); [|now rewrite T]. apply B. split; [rewrite Sy; cbn [segment_of sg_surface]; rewrite Uz; apply same_refl|]. split; [rewrite Vy, Vz; symmetry; now apply Vo|].
    cbn [segment_of sg_source]. now rewrite Yh, Sz.
  - intros Ne. destruct b; auto. exfalso. destruct (proj1 B eq_refl) as (_ & V & _). rewrite Vy, Vz in V.
    destruct C3 as [(_ & N1 & N2)|[(_ & E)|(E & E')]].
    + destruct Ne; contradiction.
    + assert (P := corner_det n s _ (proj1 S) Hy (proj2 S _ Hy)). rewrite E in P.
      destruct (Nat.eq_dec (sg_source y) e) as [Y|Y]; [exact (no_turn n s _ h e S Hy E (or_introl Y) Ne)|]. destruct (Nat.eq_dec (sg_source y) (neg e)) as [Y'|Y']; [exact (no_turn n s _ h e S Hy E (or_intror Y') Ne)|].
      rewrite (Vo _ Hy Y Y') in V. rewrite V in P. unfold pdet in P. lra.
    + exact (no_turn n u h _ e U H E' Ne E).
Qed.
Print Assumptions C61_half_edge.

(** A sequence of flips. *)
Fixpoint only_flips {K : ExactReal} (r : relation K) : Prop :=
  match r with RTrivial _ => True | RFlip _ _ _ => True | RComposite l r => only_flips l /\ only_flips r | _ => False end.
(** Any number of flips, and sections of flips, do not change the vectors of saddle connections; the images are saddle connections of the last surface. *)
Theorem C61_history : forall (K : ExactReal) truediv fuel n (f : relation K) p, exact_division truediv -> n + 1 < fuel -> made truediv fuel n f -> only_flips f ->
  Forall (seg_in n (domain f)) p ->
  exists q, relation_path fuel f p = Ok q /\ Forall2 (fun x y => seg_in n (codomain f) y /\ sdir n y = sdir n x) p q.
Proof.
  intros K truediv fuel n f p D F M Of P. assert (G := made_good truediv fuel n f D F M). clear M. apply (path_image n fuel f); auto. intros x I. rewrite Forall_forall in P. specialize (P x I). clear p I.
  revert x P. induction f as [s|s u e|s u a b c d|s u m b|s u|l IHl r IHr]; intros x P; try destruct Of as [Ol Or]; try contradiction.
  - exists x. auto.
  - pose proof G as (S & U & Q & _). destruct P as [X1 X2]. cbn [relation_path omap domain codomain] in *. destruct (flip_segment_ok n s u e x fuel S U Q F X1 X2) as (y & E & Sy & Cy & Oy & Dy & _). exists y. rewrite E. cbn [bind].
    split; auto. split; [split; auto; rewrite Sy; apply same_refl|]. unfold sdir. now rewrite Cy, Oy.
  - destruct G as (Gl & Gr & Sm). cbn [domain codomain relation_path] in *. destruct (IHr Or Gr x P) as (y & Ey & [Dy Sy] & Vy). destruct (IHl Ol Gl y) as (z & Ez & Z & Vz); [split; auto; eapply same_trans; eauto|].
    exists z. rewrite Ey. cbn [bind]. split; auto. split; auto. congruence.
Qed.
Print Assumptions C61_history.
Definition path_data (o : outcome (list (segment ExactZ))) : list (nat * nat * list Z) := match o with Ok l => map (fun x : segment ExactZ => (sg_source x, sg_target x, sg_chain x)) l | _ => [] end.
Example C61_ex : made zdiv 10 6 (RFlip torus_s twist1 0) /\ seg_in 6 torus_s (segment_of edge_sc) /\ made zdiv 10 6 flips_r /\ only_flips flips_r /\
  path_data (relation_path 10 (RFlip torus_s twist1 0) [segment_of edge_sc]) = [(3, 2, [1%Z; 0%Z; 0%Z])] /\
  deformation_half_edge 10 (RFlip torus_s twist1 0) 2 = Ok 2 /\ deformation_half_edge 10 (RFlip torus_s twist1 0) 0 = Throw.
Proof.
  split; [apply made_flip0|]. split. { destruct edge_on as (A & B & _). now split. } split; [apply made_flips|]. split; [cbn; auto|]. split; [vm_compute; reflexivity|]. split; vm_compute; reflexivity.
Qed.

(** The chain of the image is over the old surface.  So a linear map that is applied after a flip maps the saddle connection to one with the wrong vector. *)
Definition double_r : relation ExactZ := RLinear twist1 (match apply_matrix twist1 (iz 2) (iz 0) (iz 0) (iz 2) with Ok u => u | _ => torus_s end) (iz 2) (iz 0) (iz 0) (iz 2).
Lemma double_made : deform_matrix twist1 (iz 2) (iz 0) (iz 0) (iz 2) = Ok double_r.
Proof. unfold deform_matrix. rewrite (from_ok (apply_matrix twist1 (iz 2) (iz 0) (iz 0) (iz 2)) torus_s) by (vm_compute; reflexivity). reflexivity. Qed.
Definition vector_data (o : outcome (list (segment ExactZ))) : list (Z * Z) :=
  match o with Ok l => map (fun x : segment ExactZ => match sg_vector x with Ok v => ((vx v : Z), (vy v : Z)) | _ => (0, 0)%Z end) l | _ => [] end.
Lemma vector_from (o : outcome (list (segment ExactZ))) a b : vector_data o = [(a, b)] -> exists y : segment ExactZ, o = Ok [y] /\
  (match sg_vector y with Ok v => ((vx v : Z), (vy v : Z)) | _ => (0, 0)%Z end) = (a, b).
Proof. destruct o as [[|y [|z l]]| | |]; cbn; try discriminate. intros E. injection E as E. eauto. Qed.
Theorem C61_refuted : exists (f g r f' g' : relation ExactZ) x y v w, made zdiv 10 6 f /\ made zdiv 10 6 g /\ compose 10 f g = Ok (r, f', g') /\
  deform_matrix (domain f) (iz 2) (iz 0) (iz 0) (iz 2) = Ok f /\ only_flips g /\ seg_on 6 (domain g) x /\ sg_vector x = Ok v /\
  relation_path 10 r [x] = Ok [y] /\ sg_vector y = Ok w /\ vden w <> papply 2 0 0 2 (vden v).
Proof.
  assert (E : vector_data (relation_path 10 (RComposite double_r (RFlip torus_s twist1 0)) [segment_of edge_sc]) = [(2, 4)%Z]) by (vm_compute; reflexivity).
  destruct (vector_from _ _ _ E) as (y & Ey & Vy). clear E.
  assert (Ev : vector_data (Ok [segment_of edge_sc]) = [(1, 0)%Z]) by (vm_compute; reflexivity). destruct (vector_from _ _ _ Ev) as (x & Ex & Vx). injection Ex as <-. clear Ev.
  destruct (sg_vector y) as [w| | |] eqn:W; try discriminate. destruct (sg_vector (segment_of edge_sc)) as [v| | |] eqn:V; try discriminate.
  exists double_r, (RFlip torus_s twist1 0), (RComposite double_r (RFlip torus_s twist1 0)), double_r, (RFlip torus_s twist1 0), (segment_of edge_sc), y, v, w.
  split; [exact (made_linear zdiv 10 6 _ _ _ _ _ _ twist1_cf double_made)|]. split; [apply made_flip0|]. split; [apply compose_nontrivial; vm_compute; reflexivity|]. split; [exact double_made|]. split; [exact I|].
  split; [apply edge_on|]. split; [exact V|]. split; [exact Ey|]. split; [exact W|]. clear V W Ey. destruct v as [v1 v2], w as [w1 w2]. injection Vx as -> ->. injection Vy as -> ->. unfold vden, papply. cbn. intros X. injection X. intros. lra.
Qed.
Print Assumptions C61_refuted.

(** ** C62: linear maps and relabelings *)
(** The image of a path under a linear map: the vectors are mapped by the matrix; so are the sectors at source and target. *)
Theorem C62_linear : forall (K : ExactReal) fuel n (s : flat K) (a b c d : K) f p, n + 1 < fuel -> closed_flat n s -> deform_matrix s a b c d = Ok f -> Forall (seg_on n s) p ->
  exists q, relation_path fuel f p = Ok q /\
    Forall2 (fun x y => seg_on n (codomain f) y /\ sdir n y = papply (den a) (den b) (den c) (den d) (sdir n x) /\
      corner_image s (fun h => h) (den a * den d - den b * den c) (sg_source x) (sdir n x) (sg_source y) /\
      corner_image s (fun h => h) (den a * den d - den b * den c) (sg_target x) (pneg (sdir n x)) (sg_target y)) p q.
Proof.
  intros K fuel n s a b c d f p F S E P. assert (G := matrix_good n s a b c d f S E). unfold deform_matrix in E. apply bind_Ok in E as (u & Eu & E). injection E as <-.
  destruct (linearly_matrix n s u a b c d S Eu) as [U L]. assert (A := acts_linear n fuel s u a b c d _ _ _ _ F S U (proj1 L) L (iff_refl _)).
  apply (path_image n fuel); auto. intros x I. rewrite Forall_forall in P. destruct (ac_segment _ _ _ _ _ _ _ _ A x (P x I)) as (y & Ey & Y). exists y. split; auto.
Qed.
Print Assumptions C62_linear.
(** The image of a path under a relabeling: the vectors are the same; source and target are relabeled. *)
Theorem C62_relabel : forall (K : ExactReal) fuel n (s : flat K) m f p, n + 1 < fuel -> closed_flat n s -> renaming n m -> deform_relabel s m = Ok f -> Forall (seg_on n s) p ->
  exists q, relation_path fuel f p = Ok q /\
    Forall2 (fun x y => seg_on n (codomain f) y /\ sdir n y = sdir n x /\ papp m (sg_source x) = Ok (sg_source y) /\ papp m (sg_target x) = Ok (sg_target y)) p q.
Proof.
  intros K fuel n s m f p F S R E P. destruct (relabel_good n s m f S R E) as (G & Ds & Fr).
  assert (X : exists k, f = RCombinatorial s (codomain f) k true /\ closed_flat n (codomain f) /\ renames n s (codomain f) (fw m) (bw m) /\ maps_to n k (fw m)).
  { assert (U := good_codomain n f G). destruct R as [W Em]. destruct (frelabel_Ok n s m (proj1 S) (proj2 S) W Em) as (u & Eu & _ & Q). rewrite Fr in Eu. injection Eu as <-.
    set (u := codomain f) in *. assert (R : renames n s u (fw m) (bw m)) by (split; [apply W|split; [exact Em|intros h Hh; now apply Q]]).
    unfold deform_relabel in E. rewrite Fr in E. cbn [bind] in E. unfold make_combinatorial_perm in E. rewrite (omap_map _ (fun h => (h, fw m h))) in E.
    2:{ intros a I. apply in_seq in I. rewrite (papp_Ok n); [reflexivity|apply W|]. destruct W as (X & _). unfold psize in I. lia. }
    cbn [bind] in E. assert (M : maps_to n (map (fun h => (h, fw m h)) (seq 0 (psize m))) (fw m)).
    { exists (seq 0 (psize m)). split; auto. intros h. rewrite in_seq. destruct W as (X & _). unfold psize. lia. }
    rewrite (make_combinatorial_ok n s u _ (fw m) (bw m)) in E by auto. injection E as E. eexists. split; [symmetry; exact E|]. auto. }
  destruct X as (k & Ef & U & Rn & M). rewrite Ef in G |- *. cbn [codomain] in *. apply (path_image n fuel); auto. intros x I. rewrite Forall_forall in P.
  destruct (combinatorial_segment_ok n s _ k (fw m) (bw m) x S U Rn M (P x I)) as (y & Ey & Sy & Oy & Dy & Vy & C1 & C2). exists y. cbn [relation_path negb omap]. rewrite Ey. cbn [bind].
  split; auto. destruct (P x I) as ((_ & _ & _ & Hs & Ht & _) & _). split; [split; auto; rewrite Sy, Oy; split; apply same_refl|]. split; auto. rewrite C1, C2. split; (apply (papp_Ok n); [apply R|auto]).
Qed.
Print Assumptions C62_relabel.
Lemma acts_half_edge {K : ExactReal} n fuel (f : relation K) k a b c d h : good n f -> acts n fuel f k a b c d -> h < n -> deformation_half_edge fuel f h = Ok (k h).
Proof.
  intros G A H. destruct (good_surfaces n f G) as [Sd Sc]. destruct (thin_half_edge n (domain f) h Sd H) as (x & Ex & _ & Sx & _ & Ux & Vx & Dx).
  assert (X : seg_on n (domain f) (segment_of x)) by (split; auto; cbn; rewrite Ux; split; apply same_refl).
  destruct (ac_segment _ _ _ _ _ _ _ _ A _ X) as (y & Ey & (Dy & Sy & _) & Vy & (C1 & C2 & _) & _). cbn [segment_of sg_source] in C1, C2. rewrite Sx, Vx in *.
  assert (Yk : sg_source y = k h).
  { pose proof (ac_det _ _ _ _ _ _ _ _ A) as D. destruct (Rtotal_order (a * d - b * c) 0) as [Z|[Z|Z]]; [|contradiction|now apply C1]. apply C2; auto. unfold pdet. ring. }
  assert (Hk := ac_lt _ _ _ _ _ _ _ _ A h H). destruct (thin_half_edge n (codomain f) (k h) Sc Hk) as (z & Ez & _ & Sz & _ & Uz & Vz & Dz).
  unfold deformation_half_edge. rewrite Ex. cbn [bind]. rewrite Ey. cbn [bind]. rewrite Yk, Ez. cbn [bind].
  destruct (sg_eqb_ok n y (segment_of z) (departs_sound n y Dy) (departs_sound n _ Dz)) as (t & -> & B). cbn [bind].
  assert (t = true) as ->; auto. apply B. split; [cbn [segment_of sg_surface]; rewrite Uz; exact Sy|]. split; [rewrite Vy, Vz; symmetry; now apply (ac_vec _ _ _ _ _ _ _ _ A)|]. cbn [segment_of sg_source]. now rewrite Yk, Sz.
Qed.
(** Half edges are mapped to the half edges with the same name, or with the new name. *)
Theorem C62_half_edge : forall (K : ExactReal) fuel n (s : flat K) f h, n + 1 < fuel -> closed_flat n s -> h < n ->
  (forall a b c d : K, deform_matrix s a b c d = Ok f -> deformation_half_edge fuel f h = Ok h /\ vv (codomain f) h = papply (den a) (den b) (den c) (den d) (vv s h)) /\
  (forall m, renaming n m -> deform_relabel s m = Ok f -> exists h', papp m h = Ok h' /\ deformation_half_edge fuel f h = Ok h' /\ vv (codomain f) h' = vv s h).
Proof.
  intros K fuel n s f h F S H. split.
  - intros a b c d E. assert (G := matrix_good n s a b c d f S E). unfold deform_matrix in E. apply bind_Ok in E as (u & Eu & E). injection E as <-.
    destruct (linearly_matrix n s u a b c d S Eu) as [U L]. assert (A := acts_linear n fuel s u a b c d _ _ _ _ F S U (proj1 L) L (iff_refl _)).
    split; [exact (acts_half_edge n fuel _ _ _ _ _ _ h G A H)|]. cbn [codomain]. now apply L.
  - intros m R E. destruct (relabel_good n s m f S R E) as (G & Ds & _). destruct (thin_half_edge n s h S H) as (x & Ex & _ & Sx & _ & Ux & Vx & Dx).
    assert (X : seg_on n s (segment_of x)) by (split; auto; cbn; rewrite Ux; split; apply same_refl).
    destruct (C62_relabel K fuel n s m f [segment_of x] F S R E (Forall_cons _ X (Forall_nil _))) as (q & Eq & Q). inversion Q as [|? y ? ? ((Dy & Sy & _) & Vy & C1 & _) Q']; subst. inversion Q'; subst.
    cbn [segment_of sg_source] in C1. rewrite Vx in Vy. exists (sg_source y). split; auto. pose proof Dy as (_ & _ & _ & Hy & _).
    destruct (good_surfaces n f G) as [Sd Sc]. destruct (thin_half_edge n (codomain f) (sg_source y) Sc Hy) as (z & Ez & _ & Sz & _ & Uz & Vz & Dz).
    assert (V : vv (codomain f) (sg_source y) = vv (domain f) (sc_source x)).
    { destruct R as [W Em]. destruct (frelabel_Ok n (domain f) m (proj1 S) (proj2 S) W Em) as (u & Eu & _ & P). destruct (relabel_good n (domain f) m f S (conj W Em) E) as (_ & _ & Eu'). rewrite Eu' in Eu. injection Eu as <-.
      rewrite (papp_Ok n) in C1 by (auto; apply W). injection C1 as <-. now apply P. }
    split; auto. unfold deformation_half_edge. rewrite Ex. cbn [bind]. rewrite Eq. cbn [bind]. rewrite Ez. cbn [bind].
    destruct (sg_eqb_ok n y (segment_of z) (departs_sound n y Dy) (departs_sound n _ Dz)) as (t & -> & B). cbn [bind].
    assert (t = true) as ->; auto. apply B. split; [cbn [segment_of sg_surface]; rewrite Uz; exact Sy|]. split; [rewrite Vy, Vz; now rewrite V|]. cbn [segment_of sg_source]. now rewrite Sz.
Qed.
Print Assumptions C62_half_edge.
(** Products of these, and sections: there are one renaming and one matrix that describe what happens to half edges, points and paths. *)
Theorem C62_product : forall (K : ExactReal) truediv fuel n (f : relation K), exact_division truediv -> n + 1 < fuel -> made truediv fuel n f -> no_flips f ->
  exists (k : nat -> nat) (a b c d : R), (a * d - b * c <> 0)%R /\
    (forall h, h < n -> k h < n /\ k (neg h) = neg (k h) /\ deformation_half_edge fuel f h = Ok (k h) /\ vv (codomain f) (k h) = papply a b c d (vv (domain f) h) /\
      ((0 < a * d - b * c)%R -> fF (codomain f) (k h) = k (fF (domain f) h) /\ fV (codomain f) (k h) = k (fV (domain f) h)) /\
      ((a * d - b * c < 0)%R -> fF (codomain f) (neg (k (fF (domain f) h))) = neg (k h) /\ fV (codomain f) (k (fV (domain f) h)) = k h)) /\
    (forall p, normal n p -> relation_point f p = Ok (mkPoint (k (pface p)) (pa p) (pb p) (pc p))) /\
    (forall p, Forall (seg_on n (domain f)) p -> exists q, relation_path fuel f p = Ok q /\
      Forall2 (fun x y => seg_on n (codomain f) y /\ sdir n y = papply a b c d (sdir n x) /\ corner_image (domain f) k (a * d - b * c) (sg_source x) (sdir n x) (sg_source y) /\
        corner_image (domain f) k (a * d - b * c) (sg_target x) (pneg (sdir n x)) (sg_target y)) p q).
Proof.
  intros K truediv fuel n f D F M Nf. assert (G := made_good truediv fuel n f D F M). destruct (acts_exists n fuel f F G Nf) as (k & a & b & c & d & A & _). exists k, a, b, c, d.
  split; [apply (ac_det _ _ _ _ _ _ _ _ A)|]. split; [|split].
  - intros h H. split; [now apply (ac_lt _ _ _ _ _ _ _ _ A)|]. split; [now apply (ac_neg _ _ _ _ _ _ _ _ A)|]. split; [now apply (acts_half_edge n fuel f k a b c d)|].
    split; [now apply (ac_vec _ _ _ _ _ _ _ _ A)|]. split; intros X; [now apply (ac_pos _ _ _ _ _ _ _ _ A)|now apply (ac_mir _ _ _ _ _ _ _ _ A)].
  - apply (ac_point _ _ _ _ _ _ _ _ A).
  - intros p P. apply (path_image n fuel); auto. intros x I. rewrite Forall_forall in P. exact (ac_segment _ _ _ _ _ _ _ _ A x (P x I)).
Qed.
Print Assumptions C62_product.
(** A relabeling after a linear map; and a reflection of the torus, which maps the diagonal of the face at 0 to the face at the other side. *)
Definition long_sc : segment ExactZ := mkSegment torus_s 0 1 [2%Z; 1%Z; 0%Z] torus_s.
Example C62_ex :
  (made zdiv 10 6 (RComposite turn_r shear_r) /\ no_flips (RComposite turn_r shear_r) /\ deformation_half_edge 10 (RComposite turn_r shear_r) 1 = Ok 3) /\
  seg_on 6 torus_s long_sc /\ deform_matrix torus_s (iz (-1)) (iz 0) (iz 0) (iz 1) = Ok mirror_r /\
  path_data (relation_path 10 mirror_r [long_sc]) = [(5, 4, [2%Z; 1%Z; 0%Z])] /\ vector_data (relation_path 10 mirror_r [long_sc]) = [(-2, 1)%Z] /\ deformation_half_edge 10 mirror_r 3 = Ok 3.
Proof.
  split.
  - split; [|split].
    + apply (made_compose zdiv 10 6 turn_r shear_r _ turn_r shear_r made_turn made_shear). apply compose_nontrivial; vm_compute; reflexivity.
    + split; [apply turn_no_flips|exact I].
    + vm_compute. reflexivity.
  - split.
    + assert (V : sdir 6 long_sc = (2, 1)%R) by (unfold sdir, cvector, chain_vector, psum, padd, pscale; cbn; apply pt_eq; cbn; lra).
      split; [|split; apply same_refl]. unfold departs. rewrite V. cbn [long_sc sg_surface sg_over sg_source sg_target sg_chain].
      split; [apply torus_cf|]. split; [apply torus_cf|]. split; [reflexivity|]. split; [lia|]. split; [lia|]. split; [intros X; injection X; lra|].
      split; (apply (contains_signs 6 torus_s); [apply torus_cf|lia|intros X; unfold pneg in X; cbn in X; injection X; lra|unfold pdet, pneg, vv; cbn; lra]).
    + split; [exact mirror_made|]. split; [vm_compute; reflexivity|]. split; vm_compute; reflexivity.
Qed.
