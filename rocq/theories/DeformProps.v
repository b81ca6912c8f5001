(** * C48: composing deformations *)
From Coq Require Import ZArith Reals List Arith Bool Lia Lra Psatz Relations Permutation.
From Verif Require Import Base HalfEdge HalfEdgeFacts Perm PermSpec PermFacts IndexedSet Combinatorial CombinatorialSpec CombinatorialFacts CombinatorialOps
  ExactReal Vector PlaneSpec Plane VectorFacts VectorProps FlatTri FlatSpec FlatFacts FlatSum FlatLinear FlatOps FlatAngle FlatSector FlatDelaunay FlatProps
  Point PointSpec PointFacts PointOps PointHash PointEq PointPlane PointFlip PointFlipFacts PointProps Linear LinearProps Chain ChainSpec ChainFacts Saddle SaddleSpec SaddleFacts
  Deform DeformSpec DeformFacts DeformPath DeformGood DeformActs DeformCompose.
Import ListNotations.
Local Open Scope nat_scope.

(** ** When deformations can be composed *)
(** Exactly the deformations whose surfaces fit can be composed; the product starts where the right factor starts and ends where the left factor ends.  Nothing else goes wrong. *)
Theorem C48_rejected : forall (K : ExactReal) truediv fuel n m (f g : relation K), exact_division truediv -> n + 1 < fuel -> m + 1 < fuel ->
  made truediv fuel n f -> made truediv fuel m g ->
  (n = m /\ same_surface n (codomain g) (domain f) ->
    exists r f' g', compose fuel f g = Ok (r, f', g') /\ same_surface n (domain r) (domain g) /\ same_surface n (codomain r) (codomain f) /\
      domain f' = domain f /\ domain g' = domain g) /\
  (~ (n = m /\ same_surface n (codomain g) (domain f)) -> compose fuel f g = Throw).
Proof.
  intros K truediv fuel n m f g D F F' Mf Mg. assert (Gf := made_good truediv fuel n f D F Mf). assert (Gg := made_good truediv fuel m g D F' Mg). split.
  - intros [<- Sm]. destruct (compose_cases n fuel f g F Gf Gg Sm) as (r & f' & g' & E & C). exists r, f', g'. split; auto.
    destruct (compose_good n fuel f g r f' g' F Gf Gg E) as (_ & A & B). split; auto. split; auto.
    destruct C as [(_ & _ & -> & ->)|[(_ & _ & _ & -> & ->)|(_ & _ & _ & -> & ->)]]; auto.
  - intros N. unfold compose. destruct (eqb_sizes m n _ _ (good_codomain m g Gg) (good_domain n f Gf)) as (b & E & B). rewrite E. cbn [bind]. destruct b; auto. exfalso. apply N.
    assert (X : n = m) by (symmetry; now apply B). split; auto. subst m. apply (same_eqb n); auto; [now apply good_codomain|now apply good_domain].
Qed.
Print Assumptions C48_rejected.

(** Composing with the identity changes nothing. *)
Theorem C48_unit : forall (K : ExactReal) truediv fuel n (f : relation K) s, exact_division truediv -> n + 1 < fuel -> made truediv fuel n f -> closed_flat n s ->
  (same_surface n (codomain f) s -> exists l, compose fuel (RTrivial s) f = Ok (f, l, f)) /\
  (same_surface n s (domain f) -> exists r l, compose fuel f (RTrivial s) = Ok (r, l, RTrivial s) /\ (r = f \/ relation_trivial fuel f = Ok true /\ r = RTrivial s)).
Proof.
  intros K truediv fuel n f s D F Mf S. assert (Gf := made_good truediv fuel n f D F Mf). assert (Gs : good n (RTrivial s)) by exact S. split; intros Sm.
  - destruct (compose_cases n fuel (RTrivial s) f F Gs Gf Sm) as (r & f' & g' & E & [(_ & -> & -> & ->)|[(T & _)|(T & _)]]); try discriminate T. eauto.
  - destruct (compose_cases n fuel f (RTrivial s) F Gf Gs Sm) as (r & f' & g' & E & [(T & -> & -> & ->)|[(T & _ & -> & -> & ->)|(_ & T & _)]]); try discriminate T; eauto 10.
Qed.
Print Assumptions C48_unit.

(** ** Points *)
(** There are no flips in [f] or [f] is not reported as trivial. *)
Definition honest {K : ExactReal} (fuel : nat) (f : relation K) : Prop := no_flips f \/ relation_trivial fuel f = Ok false.
(** The product maps a point by the right factor, then by the left factor; and the factors still do what they did. *)
Theorem C48_points : forall (K : ExactReal) truediv fuel n (f g r f' g' : relation K) p, exact_division truediv -> n + 1 < fuel ->
  made truediv fuel n f -> made truediv fuel n g -> honest fuel f -> honest fuel g -> compose fuel f g = Ok (r, f', g') -> normal n p ->
  exists q t, relation_point g p = Ok q /\ normal n q /\ relation_point f q = Ok t /\ normal n t /\ relation_point r p = Ok t /\
    relation_point g' p = Ok q /\ relation_point f' q = Ok t.
Proof.
  intros K truediv fuel n f g r f' g' p D F Mf Mg Hf Hg E N. assert (Gf := made_good truediv fuel n f D F Mf). assert (Gg := made_good truediv fuel n g D F Mg).
  assert (Sm := compose_same n fuel f g _ Gf Gg E). destruct (point_total n g p Gg N) as (q & Eq & Nq). destruct (point_total n f q Gf Nq) as (t & Et & Nt).
  exists q, t. split; auto. split; auto. split; auto. split; auto.
  destruct (compose_cases n fuel f g F Gf Gg Sm) as (r0 & f0 & g0 & E' & C). rewrite E in E'. injection E' as <- <- <-.
  destruct C as [(T & -> & -> & ->)|[(_ & T & -> & -> & ->)|(_ & _ & -> & -> & ->)]].
  - destruct Hf as [Hf|Hf]; [|congruence]. assert (X := trivial_points n fuel f q F Gf Hf T Nq). rewrite Et in X. injection X as ->. auto.
  - destruct Hg as [Hg|Hg]; [|congruence]. assert (X := trivial_points n fuel g p F Gg Hg T N). rewrite Eq in X. injection X as ->. auto.
  - cbn [relation_point]. rewrite Eq. cbn [bind]. auto.
Qed.
Print Assumptions C48_points.

Lemma compose_no_flips {K : ExactReal} fuel n (f g r f' g' : relation K) : n + 1 < fuel -> good n f -> good n g -> no_flips f -> no_flips g -> compose fuel f g = Ok (r, f', g') -> no_flips r.
Proof.
  intros F Gf Gg Nf Ng E. assert (Sm := compose_same n fuel f g _ Gf Gg E). destruct (compose_cases n fuel f g F Gf Gg Sm) as (r0 & f0 & g0 & E' & C). rewrite E in E'. injection E' as <- <- <-.
  destruct C as [(T & -> & -> & ->)|[(_ & T & -> & -> & ->)|(_ & _ & -> & -> & ->)]]; auto. cbn [no_flips]. auto.
Qed.
Lemma compose_paths {K : ExactReal} fuel n (f g r f' g' : relation K) p : n + 1 < fuel -> good n f -> good n g -> no_flips f -> no_flips g -> compose fuel f g = Ok (r, f', g') ->
  Forall (seg_on n (domain g)) p ->
  exists q t t', relation_path fuel g p = Ok q /\ relation_path fuel f q = Ok t /\ relation_path fuel r p = Ok t' /\
    Forall (seg_on n (codomain g)) q /\ Forall (seg_on n (codomain f)) t /\ Forall (seg_on n (codomain f)) t' /\ Forall2 (same_segment n) t t'.
Proof.
  intros F Gf Gg Nf Ng E P. assert (Sm := compose_same n fuel f g _ Gf Gg E).
  destruct (path_acts n fuel g p F Gg Ng P) as (q & Eq & Q). assert (Q' := path_on_same n _ _ q Sm Q). destruct (path_acts n fuel f q F Gf Nf Q') as (t & Et & T).
  destruct (compose_cases n fuel f g F Gf Gg Sm) as (r0 & f0 & g0 & E' & C). rewrite E in E'. injection E' as <- <- <-.
  destruct C as [(Tr & -> & _)|[(_ & Tr & -> & _)|(_ & _ & -> & _)]].
  - destruct (trivial_path n fuel f q F Gf Nf Tr Q') as (t' & Et' & T' & X). rewrite Et in Et'. injection Et' as <-. exists q, t, q. do 5 (split; auto). split; [|now apply same_path_sym].
    destruct (trivial_ok n fuel f F Gf) as (b & Eb & B). rewrite Tr in Eb. injection Eb as <-. apply (path_on_same n (domain f)); auto.
  - destruct (trivial_path n fuel g p F Gg Ng Tr P) as (q' & Eq' & _ & X). rewrite Eq in Eq'. injection Eq' as <-.
    destruct (trivial_ok n fuel g F Gg) as (b & Eb & B). rewrite Tr in Eb. injection Eb as <-.
    assert (P' : Forall (seg_on n (domain f)) p) by (apply (path_on_same n (domain g)); auto; eapply same_trans; [now apply B|exact Sm]).
    destruct (path_acts n fuel f p F Gf Nf P') as (t' & Et' & T'). exists q, t, t'. do 6 (split; auto). apply (path_respects n fuel f q p t t'); auto. now apply same_path_sym.
  - exists q, t, t. cbn [relation_path]. rewrite Eq. cbn [bind]. do 6 (split; auto). apply same_path_refl.
Qed.
(** ** Paths *)
(** Without flips, paths are mapped by the right factor, then by the left factor. *)
Theorem C48_paths : forall (K : ExactReal) truediv fuel n (f g r f' g' : relation K) p, exact_division truediv -> n + 1 < fuel ->
  made truediv fuel n f -> made truediv fuel n g -> no_flips f -> no_flips g -> compose fuel f g = Ok (r, f', g') -> Forall (seg_on n (domain g)) p ->
  exists q t t', relation_path fuel g p = Ok q /\ relation_path fuel f q = Ok t /\ relation_path fuel r p = Ok t' /\ trail_eqb t t' = Ok true /\
    Forall (seg_on n (codomain f)) t /\ Forall (seg_on n (codomain f)) t'.
Proof.
  intros K truediv fuel n f g r f' g' p D F Mf Mg Nf Ng E P. assert (Gf := made_good truediv fuel n f D F Mf). assert (Gg := made_good truediv fuel n g D F Mg).
  destruct (compose_paths fuel n f g r f' g' p F Gf Gg Nf Ng E P) as (q & t & t' & A & B & C & _ & T & T' & X). exists q, t, t'. do 3 (split; auto). split; auto.
  apply (trail_eqb_same n); auto; now apply (seg_sound n (codomain f)).
Qed.
Print Assumptions C48_paths.

(** ** Associativity *)
Theorem C48_associative : forall (K : ExactReal) truediv fuel n (f g h : relation K), exact_division truediv -> n + 1 < fuel ->
  made truediv fuel n f -> made truediv fuel n g -> made truediv fuel n h -> no_flips f -> no_flips g -> no_flips h ->
  same_surface n (codomain g) (domain f) -> same_surface n (codomain h) (domain g) ->
  exists fg gh l r x1 x2 x3 x4 x5 x6 x7 x8, compose fuel f g = Ok (fg, x1, x2) /\ compose fuel g h = Ok (gh, x3, x4) /\ compose fuel fg h = Ok (l, x5, x6) /\ compose fuel f gh = Ok (r, x7, x8) /\
    (forall p, normal n p -> exists q, relation_point l p = Ok q /\ relation_point r p = Ok q) /\
    (forall p, Forall (seg_on n (domain h)) p -> exists q q', relation_path fuel l p = Ok q /\ relation_path fuel r p = Ok q' /\ trail_eqb q q' = Ok true).
Proof.
  intros K truediv fuel n f g h D F Mf Mg Mh Nf Ng Nh S1 S2. assert (Gf := made_good truediv fuel n f D F Mf). assert (Gg := made_good truediv fuel n g D F Mg). assert (Gh := made_good truediv fuel n h D F Mh).
  destruct (compose_cases n fuel f g F Gf Gg S1) as (fg & x1 & x2 & E1 & _). destruct (compose_cases n fuel g h F Gg Gh S2) as (gh & x3 & x4 & E2 & _).
  assert (Mfg := made_compose truediv fuel n f g fg x1 x2 Mf Mg E1). assert (Mgh := made_compose truediv fuel n g h gh x3 x4 Mg Mh E2).
  destruct (compose_good n fuel f g fg x1 x2 F Gf Gg E1) as (Gfg & D1 & C1). destruct (compose_good n fuel g h gh x3 x4 F Gg Gh E2) as (Ggh & D2 & C2).
  assert (Nfg := compose_no_flips fuel n f g fg x1 x2 F Gf Gg Nf Ng E1). assert (Ngh := compose_no_flips fuel n g h gh x3 x4 F Gg Gh Ng Nh E2).
  assert (S3 : same_surface n (codomain h) (domain fg)) by (eapply same_trans; [exact S2|]; now apply same_sym).
  assert (S4 : same_surface n (codomain gh) (domain f)) by (eapply same_trans; [exact C2|exact S1]).
  destruct (compose_cases n fuel fg h F Gfg Gh S3) as (l & x5 & x6 & E3 & _). destruct (compose_cases n fuel f gh F Gf Ggh S4) as (r & x7 & x8 & E4 & _).
  exists fg, gh, l, r, x1, x2, x3, x4, x5, x6, x7, x8. do 4 (split; [assumption|]). split.
  - intros p N. assert (Hof : forall k : relation K, no_flips k -> honest fuel k) by (intros k X; now left).
    destruct (C48_points K truediv fuel n fg h l x5 x6 p D F Mfg Mh (Hof _ Nfg) (Hof _ Nh) E3 N) as (q & t & A1 & Nq & A2 & Nt & A3 & _).
    destruct (C48_points K truediv fuel n f g fg x1 x2 q D F Mf Mg (Hof _ Nf) (Hof _ Ng) E1 Nq) as (q1 & t1 & B1 & _ & B2 & _ & B3 & _).
    destruct (C48_points K truediv fuel n f gh r x7 x8 p D F Mf Mgh (Hof _ Nf) (Hof _ Ngh) E4 N) as (q2 & t2 & P1 & _ & P2 & _ & P3 & _).
    destruct (C48_points K truediv fuel n g h gh x3 x4 p D F Mg Mh (Hof _ Ng) (Hof _ Nh) E2 N) as (q3 & t3 & Q1 & _ & Q2 & _ & Q3 & _).
    exists t. split; auto. rewrite P3. congruence.
  - intros p P.
    destruct (compose_paths fuel n fg h l x5 x6 p F Gfg Gh Nfg Nh E3 P) as (q & t & t' & A1 & A2 & A3 & Q & T & T' & X). assert (Qg := path_on_same n _ _ q S2 Q).
    destruct (compose_paths fuel n f g fg x1 x2 q F Gf Gg Nf Ng E1 Qg) as (q1 & t1 & t1' & B1 & B2 & B3 & Q1 & T1 & T1' & X1). rewrite A2 in B3. injection B3 as <-.
    assert (P' : Forall (seg_on n (domain gh)) p) by (apply (path_on_same n (domain h)); auto; now apply same_sym).
    destruct (compose_paths fuel n f gh r x7 x8 p F Gf Ggh Nf Ngh E4 P') as (q2 & t2 & t2' & P1 & P2 & P3 & Q2 & T2 & T2' & X2).
    destruct (compose_paths fuel n g h gh x3 x4 p F Gg Gh Ng Nh E2 P) as (q3 & t3 & t3' & R1 & R2 & R3 & Q3 & T3 & T3' & X3).
    rewrite A1 in R1. injection R1 as <-. rewrite B1 in R2. injection R2 as <-. rewrite P1 in R3. injection R3 as <-.
    exists t', t2'. split; auto. split; auto. apply (trail_eqb_same n); [now apply (seg_sound n (codomain fg))|now apply (seg_sound n (codomain f))|].
    eapply same_path_trans; [apply same_path_sym; exact X|]. eapply same_path_trans; [apply same_path_sym; exact X1|]. eapply same_path_trans; [|exact X2].
    apply (path_respects n fuel f q1 q2 t1 t2); auto; [now apply (path_on_same n (codomain g))|now apply (path_on_same n (codomain g))].
Qed.
Print Assumptions C48_associative.

(** ** Sections *)
(** The section of a deformation undoes it, on points: for deformations that preserve orientation, and for deformations without flips. *)
Theorem C48_section : forall (K : ExactReal) truediv fuel n (f sf : relation K) p, exact_division truediv -> n + 1 < fuel ->
  made truediv fuel n f -> relation_section truediv f = Ok sf -> normal n p ->
  domain sf = codomain f /\ codomain sf = domain f /\
  (preserving f -> exists q p', relation_point f p = Ok q /\ relation_point sf q = Ok p' /\ point_eqb (domain f) p p' = Ok true) /\
  (no_flips f -> exists q, relation_point f p = Ok q /\ relation_point sf q = Ok p).
Proof.
  intros K truediv fuel n f sf p D F M E N. assert (G := made_good truediv fuel n f D F M). destruct (section_good truediv n f sf D G E) as (_ & A & B). split; auto. split; auto. split.
  - intros P. destruct (point_total n f p G N) as (q & Eq & _). destruct (section_point truediv n f sf p q D G P E N Eq) as (p' & Ep & Np & X). exists q, p'. split; auto. split; auto.
    destruct (good_domain n f G) as [S C]. destruct (point_eqb_ok n (domain f) S C p p' N Np) as (b & -> & Q). f_equal. now apply Q.
  - intros Nf. now apply (section_point_exact truediv n f sf p).
Qed.
Print Assumptions C48_section.

(** ** Examples *)
Lemma from_ok {A} (o : outcome A) (d : A) : match o with Ok _ => true | _ => false end = true -> o = Ok (match o with Ok a => a | _ => d end).
Proof. now destruct o. Qed.
Lemma compose_nontrivial {K : ExactReal} fuel (f g : relation K) : flat_eqb (codomain g) (domain f) = Ok true -> relation_trivial fuel f = Ok false -> relation_trivial fuel g = Ok false ->
  compose fuel f g = Ok (RComposite f g, f, g).
Proof. intros A B C. unfold compose, deformation_trivial. rewrite A. cbn [bind negb]. rewrite B. cbn [bind]. rewrite C. reflexivity. Qed.
Lemma compose_trivial_left {K : ExactReal} fuel (f g : relation K) : flat_eqb (codomain g) (domain f) = Ok true -> relation_trivial fuel f = Ok true ->
  compose fuel f g = Ok (g, RTrivial (domain f), g).
Proof. intros A B. unfold compose, deformation_trivial. rewrite A. cbn [bind negb]. rewrite B. reflexivity. Qed.
Lemma compose_trivial_right {K : ExactReal} fuel (f g : relation K) : flat_eqb (codomain g) (domain f) = Ok true -> relation_trivial fuel f = Ok false -> relation_trivial fuel g = Ok true ->
  compose fuel f g = Ok (f, f, RTrivial (domain g)).
Proof. intros A B C. unfold compose, deformation_trivial. rewrite A. cbn [bind negb]. rewrite B. cbn [bind]. rewrite C. reflexivity. Qed.
Lemma flip_pair {K : ExactReal} (s : flat K) e : snd (fflip s e) = Ok tt -> fflip s e = (fst (fflip s e), Ok tt).
Proof. intros E. rewrite <- E. apply surjective_pairing. Qed.

(** The torus, after two flips, and after a linear map which makes it the same triangulation again. *)
Definition iz (z : Z) : ExactZ := z.
Definition twist1 : flat ExactZ := fst (fflip torus_s 0).
Definition twist2 : flat ExactZ := fst (fflip twist1 4).
Definition twist3 : flat ExactZ := match apply_matrix twist2 (iz 1) (iz 0) (iz (-2)) (iz 1) with Ok u => u | _ => torus_s end.
Definition twist4 : flat ExactZ := match apply_matrix twist3 (iz 2) (iz 0) (iz 0) (iz 2) with Ok u => u | _ => torus_s end.
Definition flips_r : relation ExactZ := RComposite (RFlip twist1 twist2 4) (RFlip torus_s twist1 0).
Definition shear_r : relation ExactZ := RLinear twist2 twist3 (iz 1) (iz 0) (iz (-2)) (iz 1).
Definition scale_r : relation ExactZ := RLinear twist3 twist4 (iz 2) (iz 0) (iz 0) (iz 2).
Definition twist_r : relation ExactZ := RComposite shear_r flips_r.
Lemma torus_cf : closed_flat 6 torus_s. Proof. destruct torus_flat as (_ & S & C). now split. Qed.
Lemma twist1_flip : fflip torus_s 0 = (twist1, Ok tt). Proof. apply flip_pair. vm_compute. reflexivity. Qed.
Lemma twist1_cf : closed_flat 6 twist1. Proof. apply (flip_closed 6 torus_s twist1 0); [apply torus_cf|lia|apply twist1_flip]. Qed.
Lemma twist2_flip : fflip twist1 4 = (twist2, Ok tt). Proof. apply flip_pair. vm_compute. reflexivity. Qed.
Lemma twist2_cf : closed_flat 6 twist2. Proof. apply (flip_closed 6 twist1 twist2 4); [apply twist1_cf|lia|apply twist2_flip]. Qed.
Lemma shear_made : deform_matrix twist2 (iz 1) (iz 0) (iz (-2)) (iz 1) = Ok shear_r.
Proof. unfold deform_matrix. rewrite (from_ok (apply_matrix twist2 (iz 1) (iz 0) (iz (-2)) (iz 1)) torus_s) by (vm_compute; reflexivity). reflexivity. Qed.
Lemma twist3_cf : closed_flat 6 twist3. Proof. apply (good_codomain 6 shear_r). exact (matrix_good 6 twist2 _ _ _ _ _ twist2_cf shear_made). Qed.
Lemma scale_made : deform_matrix twist3 (iz 2) (iz 0) (iz 0) (iz 2) = Ok scale_r.
Proof. unfold deform_matrix. rewrite (from_ok (apply_matrix twist3 (iz 2) (iz 0) (iz 0) (iz 2)) torus_s) by (vm_compute; reflexivity). reflexivity. Qed.
Lemma made_flip0 : made zdiv 10 6 (RFlip torus_s twist1 0). Proof. apply made_flip; [apply torus_cf|lia|apply twist1_flip]. Qed.
Lemma made_flip4 : made zdiv 10 6 (RFlip twist1 twist2 4). Proof. apply made_flip; [apply twist1_cf|lia|apply twist2_flip]. Qed.
Lemma flips_compose : compose 10 (RFlip twist1 twist2 4) (RFlip torus_s twist1 0) = Ok (flips_r, RFlip twist1 twist2 4, RFlip torus_s twist1 0).
Proof. apply compose_nontrivial; vm_compute; reflexivity. Qed.
Lemma made_flips : made zdiv 10 6 flips_r. Proof. exact (made_compose zdiv 10 6 _ _ _ _ _ made_flip4 made_flip0 flips_compose). Qed.
Lemma made_shear : made zdiv 10 6 shear_r. Proof. exact (made_linear zdiv 10 6 _ _ _ _ _ _ twist2_cf shear_made). Qed.
Lemma made_scale : made zdiv 10 6 scale_r. Proof. exact (made_linear zdiv 10 6 _ _ _ _ _ _ twist3_cf scale_made). Qed.
Lemma twist_compose : compose 10 shear_r flips_r = Ok (twist_r, shear_r, flips_r).
Proof. apply compose_nontrivial; vm_compute; reflexivity. Qed.
Lemma made_twist : made zdiv 10 6 twist_r. Proof. exact (made_compose zdiv 10 6 _ _ _ _ _ made_shear made_flips twist_compose). Qed.

(** A relabeling. *)
Definition turn_perm : perm := mkPerm [2; 3; 4; 5; 0; 1] [4; 5; 0; 1; 2; 3].
Lemma turn_renaming : renaming 6 turn_perm.
Proof.
  assert (A : forall (P : nat -> Prop), P 0 -> P 1 -> P 2 -> P 3 -> P 4 -> P 5 -> forall i, i < 6 -> P i) by (intros P P0 P1 P2 P3 P4 P5 i Hi; do 6 (destruct i as [|i]; [assumption|]); lia).
  split.
  - split; [reflexivity|]. split; [reflexivity|]. split; apply A; cbn; split; (reflexivity || lia).
  - unfold edge_map. apply A; reflexivity.
Qed.
Definition turned_s : flat ExactZ := match frelabel twist3 turn_perm with Ok u => u | _ => torus_s end.
Definition turn_r : relation ExactZ := match deform_relabel twist3 turn_perm with Ok r => r | _ => RTrivial torus_s end.
Lemma turn_made : deform_relabel twist3 turn_perm = Ok turn_r. Proof. apply from_ok. vm_compute. reflexivity. Qed.
Lemma made_turn : made zdiv 10 6 turn_r. Proof. exact (made_relabel zdiv 10 6 _ _ _ twist3_cf turn_renaming turn_made). Qed.
Lemma turn_no_flips : no_flips turn_r. Proof. vm_compute. exact I. Qed.
Lemma turn_domain : domain turn_r = twist3.
Proof. exact (proj1 (proj2 (relabel_good 6 twist3 turn_perm turn_r twist3_cf turn_renaming turn_made))). Qed.

(** Data of points and paths. *)
Definition point_data (o : outcome (point ExactZ)) : list Z := match o with Ok p => [Z.of_nat (pface p); (pa p : Z); (pb p : Z); (pc p : Z)] | _ => [] end.
Lemma point_from (o : outcome (point ExactZ)) f a b c : point_data o = [Z.of_nat f; a; b; c] -> o = Ok (zp f a b c).
Proof. destruct o as [[h x y z]| | |]; cbn; try discriminate. intros E. injection E as E1 -> -> ->. apply Nat2Z.inj in E1. now subst. Qed.

Example C48_points_ex :
  made zdiv 10 6 shear_r /\ made zdiv 10 6 flips_r /\ honest 10 shear_r /\ honest 10 flips_r /\ compose 10 shear_r flips_r = Ok (twist_r, shear_r, flips_r) /\ normal 6 (zp 0 1 3 1) /\
  relation_point flips_r (zp 0 1 3 1) = Ok (zp 4 3 1 1) /\ relation_point shear_r (zp 4 3 1 1) = Ok (zp 4 3 1 1) /\ relation_point twist_r (zp 0 1 3 1) = Ok (zp 4 3 1 1).
Proof.
  split; [apply made_shear|]. split; [apply made_flips|]. split; [left; exact I|]. split; [right; vm_compute; reflexivity|]. split; [apply twist_compose|]. split; [normal_ex|].
  split; [|split]; apply point_from; vm_compute; reflexivity.
Qed.
Example C48_associative_ex : made zdiv 10 6 turn_r /\ made zdiv 10 6 shear_r /\ no_flips turn_r /\ no_flips shear_r /\ same_surface 6 (codomain shear_r) (domain turn_r) /\
  relation_trivial 10 turn_r = Ok false /\ relation_trivial 10 shear_r = Ok false /\
  exists r x, compose 10 turn_r shear_r = Ok (r, x, shear_r) /\ relation_point r (zp 0 1 3 1) = Ok (zp 2 1 3 1).
Proof.
  split; [apply made_turn|]. split; [apply made_shear|]. split; [apply turn_no_flips|]. split; [exact I|]. split; [rewrite turn_domain; apply same_refl|]. split; [vm_compute; reflexivity|]. split; [vm_compute; reflexivity|].
  exists (RComposite turn_r shear_r), turn_r. split; [apply compose_nontrivial; vm_compute; reflexivity|]. apply point_from. vm_compute. reflexivity.
Qed.
Example C48_rejected_ex : compose 10 shear_r scale_r = Throw /\ ~ same_surface 6 (codomain scale_r) (domain shear_r).
Proof.
  assert (N : ~ same_surface 6 (codomain scale_r) (domain shear_r)).
  { intros H. apply (same_eqb 6) in H; [|apply (good_codomain 6 scale_r), (matrix_good 6 twist3 _ _ _ _ _ twist3_cf scale_made)|apply twist2_cf].
    assert (E : match flat_eqb (codomain scale_r) (domain shear_r) with Ok b => b | _ => false end = false) by (vm_compute; reflexivity). rewrite H in E. discriminate. }
  split; [|assumption]. assert (L : 6 + 1 < 10) by lia. apply (C48_rejected ExactZ zdiv 10 6 6 shear_r scale_r zdiv_exact L L made_shear made_scale). intros [_ H]. contradiction.
Qed.

(** ** Where the short cut for trivial deformations goes wrong *)
(** [trivial] is true of a deformation that moves points: two flips and a linear map that together are a multi twist. *)
Theorem C48_trivial_refuted : exists (f : relation ExactZ) p q, made zdiv 10 6 f /\ relation_trivial 10 f = Ok true /\ normal 6 p /\ normal 6 q /\
  relation_point f p = Ok q /\ point_eqb (domain f) p q = Ok false /\ flat_eqb (domain f) (codomain f) = Ok true.
Proof.
  exists twist_r, (zp 0 1 3 1), (zp 4 3 1 1). split; [apply made_twist|]. split; [vm_compute; reflexivity|]. split; [normal_ex|]. split; [normal_ex|].
  split; [apply point_from; vm_compute; reflexivity|]. split; vm_compute; reflexivity.
Qed.
Print Assumptions C48_trivial_refuted.
(** So the product need not be the composition of the factors. *)
Theorem C48_points_refuted : exists (f g r f' g' : relation ExactZ) p q t t', made zdiv 10 6 f /\ made zdiv 10 6 g /\ compose 10 f g = Ok (r, f', g') /\ normal 6 p /\
  relation_point g p = Ok q /\ relation_point f q = Ok t /\ relation_point r p = Ok t' /\ point_eqb (codomain f) t t' = Ok false.
Proof.
  exists scale_r, twist_r, scale_r, scale_r, (RTrivial (domain twist_r)), (zp 0 1 3 1), (zp 4 3 1 1), (zp 4 3 1 1), (zp 0 1 3 1).
  split; [apply made_scale|]. split; [apply made_twist|]. split; [apply compose_trivial_right; vm_compute; reflexivity|]. split; [normal_ex|].
  split; [|split; [|split]]; try (apply point_from; vm_compute; reflexivity). vm_compute. reflexivity.
Qed.
Print Assumptions C48_points_refuted.
(** And composition is not associative. *)
Theorem C48_associative_refuted : exists (f g h fg gh l r x1 x2 x3 x4 x5 x6 x7 x8 : relation ExactZ) p q q', made zdiv 10 6 f /\ made zdiv 10 6 g /\ made zdiv 10 6 h /\
  compose 10 f g = Ok (fg, x1, x2) /\ compose 10 g h = Ok (gh, x3, x4) /\ compose 10 fg h = Ok (l, x5, x6) /\ compose 10 f gh = Ok (r, x7, x8) /\ normal 6 p /\
  relation_point l p = Ok q /\ relation_point r p = Ok q' /\ point_eqb (codomain f) q q' = Ok false.
Proof.
  exists scale_r, shear_r, flips_r, (RComposite scale_r shear_r), twist_r, (RComposite (RComposite scale_r shear_r) flips_r), scale_r.
  exists scale_r, shear_r, shear_r, flips_r, (RComposite scale_r shear_r), flips_r, scale_r, (RTrivial (domain twist_r)), (zp 0 1 3 1), (zp 4 3 1 1), (zp 0 1 3 1).
  split; [apply made_scale|]. split; [apply made_shear|]. split; [apply made_flips|].
  split; [apply compose_nontrivial; vm_compute; reflexivity|]. split; [apply twist_compose|]. split; [apply compose_nontrivial; vm_compute; reflexivity|].
  split; [apply compose_trivial_right; vm_compute; reflexivity|]. split; [normal_ex|].
  split; [|split]; try (apply point_from; vm_compute; reflexivity). vm_compute. reflexivity.
Qed.
Print Assumptions C48_associative_refuted.
(** When there are flips, then the image of a path under a product is not the image of its image, even if the other factor is the identity. *)
Definition same_r : relation ExactZ := RLinear twist1 (match apply_matrix twist1 (iz 1) (iz 0) (iz 0) (iz 1) with Ok u => u | _ => torus_s end) (iz 1) (iz 0) (iz 0) (iz 1).
Definition edge_sc : sconn ExactZ := match sc_half_edge torus_s 0 with Ok x => x | _ => mkSconn torus_s 0 0 [] end.
Lemma edge_sc_Ok : sc_half_edge torus_s 0 = Ok edge_sc. Proof. apply from_ok. vm_compute. reflexivity. Qed.
Lemma edge_on : seg_on 6 torus_s (segment_of edge_sc).
Proof.
  destruct (thin_half_edge 6 torus_s 0 torus_cf) as (x & E & _ & _ & _ & U & _ & De); [lia|]. rewrite edge_sc_Ok in E. injection E as <-. split; auto. cbn [segment_of sg_surface sg_over]. rewrite U. split; apply same_refl.
Qed.
Lemma same_made : deform_matrix twist1 (iz 1) (iz 0) (iz 0) (iz 1) = Ok same_r.
Proof. unfold deform_matrix. rewrite (from_ok (apply_matrix twist1 (iz 1) (iz 0) (iz 0) (iz 1)) torus_s) by (vm_compute; reflexivity). reflexivity. Qed.
Theorem C48_paths_refuted : exists (f g r f' g' : relation ExactZ) x q t t', made zdiv 10 6 f /\ made zdiv 10 6 g /\ compose 10 f g = Ok (r, f', g') /\ seg_on 6 (domain g) x /\
  relation_path 10 g [x] = Ok q /\ relation_path 10 f q = Ok t /\ relation_path 10 r [x] = Ok t' /\ trail_eqb t t' = Ok false.
Proof.
  set (g := RFlip torus_s twist1 0).
  set (q := match relation_path 10 g [segment_of edge_sc] with Ok q => q | _ => [] end).
  set (t := match relation_path 10 same_r q with Ok q => q | _ => [] end).
  exists same_r, g, g, (RTrivial (domain same_r)), g, (segment_of edge_sc), q, t, q.
  split; [exact (made_linear zdiv 10 6 _ _ _ _ _ _ twist1_cf same_made)|]. split; [apply made_flip0|]. split; [apply compose_trivial_left; vm_compute; reflexivity|]. split; [apply edge_on|].
  split; [apply (from_ok (relation_path 10 g [segment_of edge_sc]) []); vm_compute; reflexivity|].
  split; [apply (from_ok (relation_path 10 same_r q) []); vm_compute; reflexivity|].
  split; [apply (from_ok (relation_path 10 g [segment_of edge_sc]) []); vm_compute; reflexivity|]. vm_compute. reflexivity.
Qed.
Print Assumptions C48_paths_refuted.
(** When orientation is reversed and there are flips, then the section does not undo a deformation. *)
Definition mirror_r : relation ExactZ := RLinear torus_s mirrored_torus (iz (-1)) (iz 0) (iz 0) (iz 1).
Definition mirrored1 : flat ExactZ := fst (fflip mirrored_torus 2).
Lemma mirror_made : deform_matrix torus_s (iz (-1)) (iz 0) (iz 0) (iz 1) = Ok mirror_r. Proof. reflexivity. Qed.
Lemma mirrored_cf : closed_flat 6 mirrored_torus. Proof. apply (good_codomain 6 mirror_r). exact (matrix_good 6 torus_s _ _ _ _ _ torus_cf mirror_made). Qed.
Theorem C48_section_refuted : exists (f sf : relation ExactZ) p q p', made zdiv 10 6 f /\ relation_section zdiv f = Ok sf /\ normal 6 p /\
  relation_point f p = Ok q /\ relation_point sf q = Ok p' /\ point_eqb (domain f) p p' = Ok false.
Proof.
  set (e := RFlip mirrored_torus mirrored1 2).
  assert (Fl : fflip mirrored_torus 2 = (mirrored1, Ok tt)) by (apply flip_pair; vm_compute; reflexivity).
  set (sf := match relation_section zdiv (RComposite e mirror_r) with Ok x => x | _ => e end).
  exists (RComposite e mirror_r), sf, (zp 0 1 3 1), (zp 2 1 4 0), (zp 2 1 1 3).
  split. { apply (made_compose zdiv 10 6 e mirror_r _ e mirror_r); [apply made_flip; [apply mirrored_cf|lia|exact Fl]|exact (made_linear zdiv 10 6 _ _ _ _ _ _ torus_cf mirror_made)|].
    apply compose_nontrivial; vm_compute; reflexivity. }
  split; [apply (from_ok _ e); vm_compute; reflexivity|]. split; [normal_ex|]. split; [|split]; try (apply point_from; vm_compute; reflexivity). vm_compute. reflexivity.
Qed.
Print Assumptions C48_section_refuted.
Example C48_section_ex : made zdiv 10 6 twist_r /\ preserving twist_r /\ exists sf q p', relation_section zdiv twist_r = Ok sf /\ normal 6 (zp 0 1 3 1) /\
  relation_point twist_r (zp 0 1 3 1) = Ok q /\ relation_point sf q = Ok p' /\ point_eqb torus_s (zp 0 1 3 1) p' = Ok true.
Proof.
  assert (P : preserving twist_r). { change ((0 < IZR 1 * IZR 1 - IZR 0 * IZR (-2))%R /\ True /\ True). split; [lra|auto]. }
  split; [apply made_twist|]. split; [assumption|].
  assert (E : exists sf, relation_section zdiv twist_r = Ok sf) by (eexists; apply (from_ok (relation_section zdiv twist_r) twist_r); vm_compute; reflexivity).
  destruct E as (sf & E). assert (N : normal 6 (zp 0 1 3 1)) by normal_ex. assert (L : 6 + 1 < 10) by lia.
  destruct (C48_section ExactZ zdiv 10 6 twist_r sf (zp 0 1 3 1) zdiv_exact L made_twist E N) as (_ & _ & H & _). destruct (H P) as (q & p' & A & B & C). exists sf, q, p'. auto.
Qed.
