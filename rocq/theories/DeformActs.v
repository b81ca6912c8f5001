(** * What deformations without flips do *)
From Coq Require Import ZArith Reals List Arith Bool Lia Lra Psatz Relations Permutation.
From Verif Require Import Base HalfEdge HalfEdgeFacts Perm PermSpec PermFacts IndexedSet Combinatorial CombinatorialSpec CombinatorialFacts CombinatorialOps
  ExactReal Vector PlaneSpec Plane VectorFacts FlatTri FlatSpec FlatFacts FlatSum FlatLinear FlatOps FlatAngle FlatSector FlatDelaunay
  Point PointSpec PointFacts PointOps PointHash Linear LinearProps Chain ChainSpec ChainFacts Saddle SaddleSpec SaddleFacts Deform DeformSpec DeformFacts DeformPath DeformGood.
Import ListNotations.
Local Open Scope nat_scope.

Section facts.
Context {K : ExactReal}.
Implicit Types s u : flat K.
Implicit Types r l : relation K.
Implicit Types x y : segment K.

(** ** Paths *)
Lemma omap_length {A B} (f : A -> outcome B) p q : omap f p = Ok q -> length q = length p.
Proof. intros H. apply omap_Ok in H. induction H; cbn; auto. Qed.
Lemma path_length fuel r : forall p q, relation_path fuel r p = Ok q -> length q = length p.
Proof.
  induction r as [s|s u e|s u a b c d|s u m b|s u|l IHl r IHr]; cbn [relation_path]; intros p q E.
  - now injection E as <-.
  - now apply omap_length in E.
  - now apply omap_length in E.
  - destruct b; [|discriminate]. now apply omap_length in E.
  - discriminate.
  - apply bind_Ok in E as (z & E1 & E2). rewrite (IHl _ _ E2). now apply IHr.
Qed.
Lemma omap_cons {A B} (f : A -> outcome B) (x : A) (y : B) p q : omap f [x] = Ok [y] -> omap f p = Ok q -> omap f (x :: p) = Ok (y :: q).
Proof. cbn [omap]. intros H E. destruct (f x) as [z| | |]; try discriminate. cbn [bind] in *. injection H as ->. now rewrite E. Qed.
Lemma path_cons fuel r : forall x y p q, relation_path fuel r [x] = Ok [y] -> relation_path fuel r p = Ok q -> relation_path fuel r (x :: p) = Ok (y :: q).
Proof.
  induction r as [s|s u e|s u a b c d|s u m b|s u|l IHl r IHr]; cbn [relation_path]; intros x y p q E1 E2.
  - injection E1 as ->. injection E2 as ->. reflexivity.
  - now apply omap_cons.
  - now apply omap_cons.
  - destruct b; [|discriminate]. cbn [negb] in *. now apply omap_cons.
  - discriminate.
  - apply bind_Ok in E1 as (z & A1 & B1). apply bind_Ok in E2 as (w & A2 & B2). assert (L := path_length fuel r _ _ A1). cbn in L. destruct z as [|z [|]]; try discriminate L.
    rewrite (IHr x z p w A1 A2). cbn [bind]. now apply IHl.
Qed.
Lemma path_nil n fuel r : good n r -> relation_path fuel r [] = Ok [].
Proof.
  induction r as [s|s u e|s u a b c d|s u m b|s u|l IHl r IHr]; cbn [relation_path good omap]; intros G; auto.
  - destruct G as (_ & _ & -> & _). reflexivity.
  - destruct G.
  - rewrite IHr by tauto. cbn [bind]. apply IHl. tauto.
Qed.
Lemma path_image n fuel r (R : segment K -> segment K -> Prop) p : good n r -> (forall x, In x p -> exists y, relation_path fuel r [x] = Ok [y] /\ R x y) ->
  exists q, relation_path fuel r p = Ok q /\ Forall2 R p q.
Proof.
  intros G. induction p as [|x p IH]; intros H.
  - exists []. split; [now apply (path_nil n)|constructor].
  - destruct (H x) as (y & E & Y); [cbn; auto|]. destruct IH as (q & Eq & Q); [intros z Z; apply H; cbn; auto|]. exists (y :: q). split; [now apply path_cons|now constructor].
Qed.

(** ** Comparing *)
(** What can be compared. *)
Definition sound (n : nat) x : Prop := closed_flat n (sg_surface x) /\ closed_flat n (sg_over x) /\ length (sg_chain x) = n / 2.
Lemma thin_sound n x : thin n x -> sound n x. Proof. unfold thin, sound. tauto. Qed.
Lemma departs_sound n x : departs n x -> sound n x. Proof. unfold departs, sound. tauto. Qed.
Definition same_segment (n : nat) x y : Prop := same_surface n (sg_surface x) (sg_surface y) /\ sdir n x = sdir n y /\ sg_source x = sg_source y.
Lemma sg_eqb_ok n x y : sound n x -> sound n y -> exists b, sg_eqb x y = Ok b /\ (b = true <-> same_segment n x y).
Proof.
  intros (Sx & Ox & Lx) (Sy & Oy & Ly). unfold sg_eqb, same_segment. destruct (eqb_total n _ _ Sx Sy) as (b & E). rewrite E. cbn [bind].
  assert (Q := same_eqb n _ _ Sx Sy). rewrite E in Q.
  destruct b; cbn [negb].
  - destruct (zc_vector_Ok n _ (proj1 Ox) _ Lx) as (v & Ev & Vv). destruct (zc_vector_Ok n _ (proj1 Oy) _ Ly) as (w & Ew & Vw). unfold sg_vector. rewrite Ev, Ew. cbn [bind].
    eexists. split; [reflexivity|]. rewrite andb_true_iff, Nat.eqb_eq, veqb_spec. unfold sdir. rewrite Vv, Vw. assert (X : same_surface n (sg_surface x) (sg_surface y)) by now apply Q. tauto.
  - exists false. split; auto. split; [discriminate|]. intros (X & _). apply Q in X. discriminate.
Qed.
Lemma trail_eqb_same n p q : Forall (sound n) p -> Forall (sound n) q -> Forall2 (same_segment n) p q -> trail_eqb p q = Ok true.
Proof.
  intros P Q F. unfold trail_eqb. assert (L : length p = length q) by (clear - F; induction F; cbn; auto). rewrite L, Nat.eqb_refl. clear L. induction F as [|x y p q S F IH]; auto. cbn [segments_equal].
  apply Forall_cons_iff in P as [Px P]. apply Forall_cons_iff in Q as [Qy Q]. destruct (sg_eqb_ok n x y Px Qy) as (b & -> & B). cbn [bind]. rewrite (proj2 B S). auto.
Qed.

(** ** The test for trivial deformations *)
Lemma fixes_ok n fuel r es : n + 1 < fuel -> good n r -> (forall e, In e es -> e < n) ->
  exists b, fixes_edges fuel r es = Ok b /\
    (b = true -> forall e, In e es -> exists (x : sconn K) y, sc_half_edge (domain r) e = Ok x /\ relation_path fuel r [segment_of x] = Ok [y] /\ sg_source y = e /\ sdir n y = vv (codomain r) e).
Proof.
  intros F G. destruct (good_surfaces n r G) as [Sd Sc]. induction es as [|e es IH]; intros H; cbn [fixes_edges].
  - exists true. split; auto. intros _ e [].
  - assert (He : e < n) by (apply H; cbn; auto). unfold positive.
    destruct (thin_half_edge n (domain r) e Sd He) as (x & Ex & Tx & _). rewrite Ex. cbn [bind].
    destruct (thin_image n fuel r (segment_of x) F G Tx) as (y & Ey & Ty). rewrite Ey. cbn [bind].
    destruct (thin_half_edge n (codomain r) e Sc He) as (z & Ez & Tz & Sz & _ & _ & Vz & _). rewrite Ez. cbn [bind].
    unfold trail_eqb. cbn [length Nat.eqb segments_equal]. destruct (sg_eqb_ok n y (segment_of z) (thin_sound _ _ Ty) (thin_sound _ _ Tz)) as (b & -> & B). cbn [bind].
    destruct b; cbn [bind].
    + destruct IH as (b & E & Q); [intros; apply H; cbn; auto|]. exists b. split; auto. intros T k [<-|I]; [|auto]. destruct (proj1 B eq_refl) as (_ & V & S'). exists x, y. split; auto. split; auto.
      split; [rewrite S'; exact Sz|]. now rewrite V, Vz.
    + exists false. split; auto. discriminate.
Qed.
Lemma generic_ok n fuel r : n + 1 < fuel -> good n r ->
  exists b, generic_trivial fuel r = Ok b /\
    (b = true -> same_surface n (domain r) (codomain r) /\ forall e, e < n -> Nat.even e = true -> exists (x : sconn K) y, sc_half_edge (domain r) e = Ok x /\ relation_path fuel r [segment_of x] = Ok [y] /\ sg_source y = e /\ sdir n y = vv (codomain r) e).
Proof.
  intros F G. destruct (good_surfaces n r G) as [Sd Sc]. unfold generic_trivial. destruct (eqb_total n _ _ Sd Sc) as (b & E). rewrite E. cbn [bind]. assert (Q := same_eqb n _ _ Sd Sc). rewrite E in Q.
  destruct b; cbn [negb]; [|exists false; split; auto; discriminate].
  assert (W := fs_wf n _ (proj1 Sd)).
  destruct (fixes_ok n fuel r (edges (fT (domain r))) F G) as (b & Eb & B); [intros e I; now apply (in_edges n _ e W) in I|].
  exists b. split; auto. intros T. split; [now apply Q|]. intros e He Ev. apply B; auto. apply (in_edges n _ e W). split; auto. apply Nat.even_spec in Ev as (k & ->). now exists k.
Qed.
Lemma identical_ok n m f es : maps_to n m f -> (forall e, In e es -> e < n) -> exists b, identical m es = Ok b /\ (b = true -> forall e, In e es -> f e = e).
Proof.
  intros M. induction es as [|e es IH]; intros H; cbn [identical].
  - exists true. split; auto. intros _ e [].
  - assert (He : e < n) by (apply H; cbn; auto). unfold positive. rewrite (map_to_ok n m f e M He). cbn [bind]. destruct (Nat.eqb_spec (f e) e) as [E|E].
    + destruct IH as (b & Eb & B); [intros; apply H; cbn; auto|]. exists b. split; auto. intros T k [<-|I]; auto.
    + exists false. split; auto. discriminate.
Qed.
Lemma all_even n s (P : nat -> Prop) : flat_surface n s -> (forall h, h < n -> P h -> P (neg h)) -> (forall h, h < n -> Nat.even h = true -> P h) -> forall h, h < n -> P h.
Proof.
  intros S N E h H. destruct (he_cases h) as (j & [Ej|Ej]).
  - apply E; auto. subst. apply Nat.even_spec. now exists j.
  - assert (Q : h = neg (2 * j)) by (subst h; rewrite neg_even; lia). assert (L : 2 * j < n) by lia. rewrite Q. apply N; auto. apply E; auto. apply Nat.even_spec. now exists j.
Qed.
Lemma renames_identity n s u f g es : closed_flat n s -> renames n s u f g -> (forall e, In e es -> f e = e) -> (forall e, e < n -> Nat.even e = true -> In e es) ->
  (forall h, h < n -> f h = h) /\ same_surface n s u.
Proof.
  intros S (B & Fn & Ru) E I.
  assert (Q : forall h, h < n -> f h = h).
  { apply (all_even n s); [apply S| |intros h H Ev; apply E; auto]. intros h H X. now rewrite Fn, X. }
  split; auto. intros h H. destruct (Ru h H) as (A1 & A2 & A3). assert (H1 := fF_lt n s h (proj1 S) H). assert (H2 := fV_lt n s h (proj1 S) H). rewrite (Q h H) in A1, A2, A3. rewrite (Q _ H1) in A1. rewrite (Q _ H2) in A2. auto.
Qed.
Lemma trivial_ok n fuel r : n + 1 < fuel -> good n r -> exists b, relation_trivial fuel r = Ok b /\ (b = true -> same_surface n (domain r) (codomain r)).
Proof.
  intros F. induction r as [s|s u e|s u a b c d|s u m b|s u|l IHl r IHr]; intros G.
  - exists true. split; auto. intros _. apply same_refl.
  - exists false. split; auto. discriminate.
  - cbn [relation_trivial linear_trivial domain codomain]. destruct G as (S & U & _). unfold linear_trivial. destruct (_ && _); [|exists false; split; auto; discriminate].
    destruct (eqb_total n s u S U) as (b' & E). exists b'. split; auto. intros ->. now apply (same_eqb n).
  - cbn [relation_trivial domain codomain]. destruct G as (S & U & -> & f & g & R & M). cbn [negb].
    assert (W := fs_wf n _ (proj1 S)). destruct (identical_ok n m f (edges (fT s)) M) as (b & E & B); [intros e I; now apply (in_edges n _ e W) in I|].
    exists b. split; auto. intros T. eapply (renames_identity n s u f g (edges (fT s))); auto. intros e He Ev. apply (in_edges n _ e W). split; auto. apply Nat.even_spec in Ev as (k & ->). now exists k.
  - destruct G.
  - cbn [relation_trivial]. pose proof G as (Gl & Gr & Sm). destruct (IHl Gl) as (bl & El & Bl). destruct (IHr Gr) as (br & Er & Br). rewrite El, Er. cbn [bind].
    assert (X : bl = true -> br = true -> same_surface n (domain r) (codomain l)).
    { intros T T'. eapply same_trans; [apply Br; auto|]. eapply same_trans; [exact Sm|]. now apply Bl. }
    destruct bl; [exists br; split; auto|]. destruct br; [exists false; split; auto; discriminate|].
    destruct (generic_ok n fuel (RComposite l r) F G) as (b & E & B). exists b. split; auto. intros T. now apply B.
Qed.

(** ** Deformations without flips *)
Record acts (n fuel : nat) r (f : nat -> nat) (a b c d : R) : Prop := {
  ac_lt : forall h, h < n -> f h < n;
  ac_neg : forall h, h < n -> f (neg h) = neg (f h);
  ac_det : (a * d - b * c <> 0)%R;
  ac_vec : forall h, h < n -> vv (codomain r) (f h) = papply a b c d (vv (domain r) h);
  ac_pos : (0 < a * d - b * c)%R -> forall h, h < n -> fF (codomain r) (f h) = f (fF (domain r) h) /\ fV (codomain r) (f h) = f (fV (domain r) h);
  ac_mir : (a * d - b * c < 0)%R -> forall h, h < n -> fF (codomain r) (neg (f (fF (domain r) h))) = neg (f h) /\ fV (codomain r) (f (fV (domain r) h)) = f h;
  ac_point : forall p, normal n p -> relation_point r p = Ok (mkPoint (f (pface p)) (pa p) (pb p) (pc p));
  ac_segment : forall x, seg_on n (domain r) x -> exists y, relation_path fuel r [x] = Ok [y] /\ seg_on n (codomain r) y /\ sdir n y = papply a b c d (sdir n x) /\
    corner_image (domain r) f (a * d - b * c) (sg_source x) (sdir n x) (sg_source y) /\
    corner_image (domain r) f (a * d - b * c) (sg_target x) (pneg (sdir n x)) (sg_target y)
}.
Lemma papply_id p : papply 1 0 0 1 p = p. Proof. unfold papply. destruct p; cbn. apply pt_eq; cbn; ring. Qed.
Lemma papply_comp a b c d a' b' c' d' p : papply a b c d (papply a' b' c' d' p) = papply (a * a' + b * c') (a * b' + b * d') (c * a' + d * c') (c * b' + d * d') p.
Proof. unfold papply; cbn. apply pt_eq; cbn; ring. Qed.
Lemma det_comp (a b c d a' b' c' d' : R) : ((a * a' + b * c') * (c * b' + d * d') - (a * b' + b * d') * (c * a' + d * c') = (a * d - b * c) * (a' * d' - b' * c'))%R.
Proof. ring. Qed.
Lemma normal_renamed n (f : nat -> nat) (p : point K) : (forall h, h < n -> f h < n) -> normal n p -> normal n (mkPoint (f (pface p)) (pa p) (pb p) (pc p)).
Proof. intros L N. destruct p. unfold normal in *. cbn in *. destruct N as (H & N). split; auto. Qed.
Lemma seg_on_same n s u x : same_surface n s u -> seg_on n s x -> seg_on n u x.
Proof. intros E (D & A & B). split; auto. split; eapply same_trans; eauto. Qed.
Lemma corner_same n s u f det h d h' : same_surface n s u -> h < n -> corner_image s f det h d h' -> corner_image u f det h d h'.
Proof. intros E H (A & B & C). destruct (E h H) as (_ & V & W). unfold corner_image. rewrite V, W. auto. Qed.
Lemma acts_trivial n fuel s : closed_flat n s -> acts n fuel (RTrivial s) (fun h => h) 1 0 0 1.
Proof.
  intros S. assert (D : (1 * 1 - 0 * 0 = 1)%R) by ring. constructor; cbn [domain codomain relation_point relation_path]; auto; try (rewrite ?D; intros; lra).
  - intros h H. now rewrite papply_id.
  - intros p N. now destruct p.
  - intros x X. exists x. split; auto. split; auto. split; [now rewrite papply_id|]. rewrite D. split; repeat split; auto; lra.
Qed.
Lemma acts_linear n fuel s u (a b c d : K) a' b' c' d' : n + 1 < fuel -> closed_flat n s -> closed_flat n u -> (den a * den d - den b * den c <> 0)%R -> linearly n s u a' b' c' d' ->
  (0 < den a * den d - den b * den c <-> 0 < a' * d' - b' * c')%R -> acts n fuel (RLinear s u a b c d) (fun h => h) a' b' c' d'.
Proof.
  intros F S U Dt Ln Sg. pose proof Ln as (Dl & V & P & M). constructor; cbn [domain codomain relation_point relation_path]; auto.
  - intros p N. rewrite (linear_point_ok K n s u p); [now destruct p|apply S|apply S|apply U|apply U|auto].
  - intros x X. destruct (linear_segment_ok n s u a b c d a' b' c' d' x fuel S U Ln Dt Sg F X) as (y & E & Sy & Oy & Dy & _ & Vy & C1 & C2).
    exists y. cbn [omap]. rewrite E. cbn [bind]. split; auto. split; [|auto]. split; auto. rewrite Sy, Oy. split; apply same_refl.
Qed.
Lemma combinatorial_point_ok n s u m f g (p : point K) : closed_flat n s -> closed_flat n u -> renames n s u f g -> maps_to n m f -> normal n p ->
  combinatorial_point s u m true p = Ok (mkPoint (f (pface p)) (pa p) (pb p) (pc p)).
Proof.
  intros [S C] [U Cu] (B & _) M N. unfold combinatorial_point. cbn [negb]. rewrite (map_to_ok n m f) by (auto; apply N). cbn [bind].
  rewrite (coordinates_self n s S C p N). cbn [bind]. unfold make_point_array, make_point. apply (normalize_normal n u U Cu). apply normal_renamed; auto. intros h H. now apply B.
Qed.
Lemma acts_relabel n fuel s u m f g : closed_flat n s -> closed_flat n u -> renames n s u f g -> maps_to n m f -> acts n fuel (RCombinatorial s u m true) f 1 0 0 1.
Proof.
  intros S U R M. pose proof R as ([B1 B2] & Fn & Ru). assert (D : (1 * 1 - 0 * 0 = 1)%R) by ring.
  constructor; cbn [domain codomain relation_point relation_path negb]; auto; try (rewrite ?D; intros; lra).
  - intros h H. now apply B1.
  - intros h H. rewrite papply_id. now apply Ru.
  - intros _ h H. destruct (Ru h H) as (Q1 & Q2 & _). auto.
  - intros p N. now apply (combinatorial_point_ok n s u m f g).
  - intros x X. destruct (combinatorial_segment_ok n s u m f g x S U R M X) as (y & E & Sy & Oy & Dy & Vy & C1 & C2).
    exists y. cbn [omap]. rewrite E. cbn [bind]. split; auto. split; [|split; [now rewrite papply_id|]]. { split; auto. rewrite Sy, Oy. split; apply same_refl. }
    rewrite D. split; repeat split; auto; lra.
Qed.
Lemma corner_comp n s u f f' a b c d a' b' c' d' h w h' h'' : closed_flat n s -> h < n -> w <> (0, 0)%R -> sector_contains s h w ->
  (forall h, h < n -> vv u (f h) = papply a b c d (vv s h)) ->
  ((0 < a * d - b * c)%R -> forall h, h < n -> fV u (f h) = f (fV s h)) -> ((a * d - b * c < 0)%R -> forall h, h < n -> fV u (f (fV s h)) = f h) ->
  (a * d - b * c <> 0)%R -> (a' * d' - b' * c' <> 0)%R ->
  corner_image s f (a * d - b * c) h w h' -> corner_image u f' (a' * d' - b' * c') h' (papply a b c d w) h'' ->
  corner_image s (fun h => f' (f h)) ((a' * d' - b' * c') * (a * d - b * c)) h w h''.
Proof.
  intros S H Nw T V P M D D' (A1 & A2 & A3) (B1 & B2 & B3). set (det := (a * d - b * c)%R) in *. set (det' := (a' * d' - b' * c')%R) in *.
  assert (H1 := fV_lt n s h (proj1 S) H).
  assert (Z : forall k, k < n -> pdet (vv u (f k)) (papply a b c d w) = (det * pdet (vv s k) w)%R) by (intros k Hk; rewrite V, pdet_papply by auto; reflexivity).
  destruct (Rtotal_order det 0) as [X|[X|X]]; [|contradiction|]; destruct (Rtotal_order det' 0) as [X'|[X'|X']]; try contradiction; unfold corner_image.
  - assert (Q : (0 < det' * det)%R) by nra. split; [|split; intros; lra]. intros _.
    destruct (Req_dec (pdet (vv s h) w) 0) as [Y|Y].
    + rewrite (A2 X Y) in *. rewrite (B2 X'); auto. rewrite (Z h H), Y. ring.
    + rewrite (A3 X Y) in *. rewrite (B3 X'); [now rewrite (M X h H)|]. rewrite (Z _ H1). intros Q'. apply Rmult_integral in Q' as [Q'|Q']; [contradiction|]. now apply (sector_strict n s h w S H Nw T).
  - assert (Q : (det' * det < 0)%R) by nra. split; [intros; lra|]. split; intros _ Y; rewrite (B1 X'); [now rewrite (A2 X Y)|now rewrite (A3 X Y)].
  - assert (Q : (det' * det < 0)%R) by nra. split; [intros; lra|]. split; intros _ Y; rewrite (A1 X) in *.
    + apply B2; auto. rewrite (Z h H), Y. ring.
    + rewrite (B3 X'); [now rewrite (P X h H)|]. rewrite (Z h H). intros Q'. apply Rmult_integral in Q' as [Q'|Q']; contradiction.
  - assert (Q : (0 < det' * det)%R) by nra. split; [|split; intros; lra]. intros _. now rewrite (B1 X'), (A1 X).
Qed.
Lemma corner_lt n s f det h w h' : closed_flat n s -> h < n -> (forall h, h < n -> f h < n) -> (det <> 0)%R -> corner_image s f det h w h' -> h' < n.
Proof.
  intros S H L D (A & B & C). destruct (Rtotal_order det 0) as [X|[X|X]]; [|contradiction|].
  - destruct (Req_dec (pdet (vv s h) w) 0) as [Y|Y]; [rewrite (B X Y)|rewrite (C X Y)]; auto. apply L. apply (fV_lt n s h (proj1 S) H).
  - rewrite (A X). auto.
Qed.
Lemma acts_composite n fuel l r f a b c d f' a' b' c' d' : closed_flat n (domain r) -> closed_flat n (codomain r) -> closed_flat n (domain l) -> same_surface n (codomain r) (domain l) ->
  acts n fuel r f a b c d -> acts n fuel l f' a' b' c' d' ->
  acts n fuel (RComposite l r) (fun h => f' (f h)) (a' * a + b' * c) (a' * b + b' * d) (c' * a + d' * c) (c' * b + d' * d).
Proof.
  intros Sd Sc Sl Sm A B. pose proof (ac_det _ _ _ _ _ _ _ _ A) as D. pose proof (ac_det _ _ _ _ _ _ _ _ B) as D'.
  assert (Lt := ac_lt _ _ _ _ _ _ _ _ A). assert (Lt' := ac_lt _ _ _ _ _ _ _ _ B).
  constructor; cbn [domain codomain relation_point relation_path].
  - intros h H. auto.
  - intros h H. rewrite (ac_neg _ _ _ _ _ _ _ _ A h H). now apply (ac_neg _ _ _ _ _ _ _ _ B), Lt.
  - rewrite det_comp. intros Q. apply Rmult_integral in Q as [Q|Q]; contradiction.
  - intros h H. rewrite (ac_vec _ _ _ _ _ _ _ _ B) by auto. destruct (Sm (f h) (Lt h H)) as (_ & _ & ->). rewrite (ac_vec _ _ _ _ _ _ _ _ A) by auto. apply papply_comp.
  - rewrite det_comp. intros Q h H. destruct (Sm (f h) (Lt h H)) as (S1 & S2 & _).
    destruct (Rtotal_order (a * d - b * c) 0) as [X|[X|X]]; [|contradiction|].
    + assert (X' : (a' * d' - b' * c' < 0)%R) by nra.
      assert (H1 := fF_lt n _ h (proj1 Sd) H). assert (H2 := fF_lt n _ _ (proj1 Sd) H1). assert (H3 := fV_lt n _ h (proj1 Sd) H).
      assert (Wl := fs_wf n _ (proj1 Sl)).
      (* in the image the faces are reversed twice *)
      assert (Y : forall k, k < n -> fF (domain l) (neg (f (fF (domain r) k))) = neg (f k)).
      { intros k Hk. assert (Hk1 := fF_lt n _ k (proj1 Sd) Hk). assert (L1 := neg_ltn n _ Wl _ (Lt _ Hk1)). destruct (Sm _ L1) as (-> & _). now apply (ac_mir _ _ _ _ _ _ _ _ A X). }
      split.
      * assert (L1 := neg_ltn n _ Wl _ (Lt _ H1)). destruct (ac_mir _ _ _ _ _ _ _ _ B X' _ L1) as [Z _]. rewrite (Y h H) in Z.
        rewrite !(ac_neg _ _ _ _ _ _ _ _ B) in Z by auto. rewrite !neg_neg in Z. exact Z.
      * destruct (ac_mir _ _ _ _ _ _ _ _ A X h H) as [_ Z]. destruct (Sm _ (Lt _ H3)) as (_ & Z' & _). rewrite Z in Z'. rewrite <- Z' at 1.
        apply (ac_mir _ _ _ _ _ _ _ _ B X' _ (Lt _ H3)).
    + assert (X' : (0 < a' * d' - b' * c')%R) by nra. destruct (ac_pos _ _ _ _ _ _ _ _ B X' _ (Lt h H)) as [-> ->]. rewrite S1, S2. destruct (ac_pos _ _ _ _ _ _ _ _ A X h H) as [-> ->]. auto.
  - rewrite det_comp. intros Q h H. assert (H1 := fF_lt n _ h (proj1 Sd) H). assert (H3 := fV_lt n _ h (proj1 Sd) H).
    assert (Wl := fs_wf n _ (proj1 Sl)).
    destruct (Rtotal_order (a * d - b * c) 0) as [X|[X|X]]; [|contradiction|].
    + assert (X' : (0 < a' * d' - b' * c')%R) by nra. destruct (ac_mir _ _ _ _ _ _ _ _ A X h H) as [Z1 Z2].
      assert (L1 := neg_ltn n _ Wl _ (Lt _ H1)). destruct (Sm _ L1) as (Y1 & _). destruct (Sm _ (Lt _ H3)) as (_ & Y2 & _). rewrite Z1 in Y1. rewrite Z2 in Y2.
      destruct (ac_pos _ _ _ _ _ _ _ _ B X' _ L1) as [R1 _]. destruct (ac_pos _ _ _ _ _ _ _ _ B X' _ (Lt _ H3)) as [_ R2].
      rewrite Y1, !(ac_neg _ _ _ _ _ _ _ _ B) in R1 by auto. rewrite Y2 in R2. auto.
    + assert (X' : (a' * d' - b' * c' < 0)%R) by nra. destruct (ac_pos _ _ _ _ _ _ _ _ A X h H) as [Z1 Z2].
      destruct (Sm _ (Lt h H)) as (Y1 & Y2 & _). rewrite Z1 in Y1. rewrite Z2 in Y2. destruct (ac_mir _ _ _ _ _ _ _ _ B X' _ (Lt h H)) as [R1 R2]. rewrite Y1 in R1. rewrite Y2 in R2. auto.
  - intros p N. rewrite (ac_point _ _ _ _ _ _ _ _ A p N). cbn [bind]. rewrite (ac_point _ _ _ _ _ _ _ _ B); [reflexivity|]. now apply normal_renamed.
  - intros x X. destruct (ac_segment _ _ _ _ _ _ _ _ A x X) as (y & Ey & Y & Vy & C1 & C2). rewrite Ey. cbn [bind].
    assert (Y' := seg_on_same _ _ _ _ Sm Y). destruct (ac_segment _ _ _ _ _ _ _ _ B y Y') as (z & Ez & Z & Vz & C3 & C4). exists z. split; auto. split; auto.
    split; [rewrite Vz, Vy; apply papply_comp|]. rewrite det_comp. rewrite Vy in C3, C4. rewrite <- papply_pneg in C4.
    destruct X as ((Sx & Ox & Lx & Hs & Ht & Nz & Cs & Ct) & Smx & Sox).
    apply (same_contains n _ (domain r)) in Cs; auto. apply (same_contains n _ (domain r)) in Ct; auto.
    assert (G1 := corner_lt n _ f _ _ _ _ Sd Hs Lt D C1). assert (G2 := corner_lt n _ f _ _ _ _ Sd Ht Lt D C2).
    apply (corner_same n _ (codomain r)) in C3; [|now apply same_sym|auto]. apply (corner_same n _ (codomain r)) in C4; [|now apply same_sym|auto].
    assert (Pv : (0 < a * d - b * c)%R -> forall h, h < n -> fV (codomain r) (f h) = f (fV (domain r) h)) by (intros W h H; apply (ac_pos _ _ _ _ _ _ _ _ A W h H)).
    assert (Mv : (a * d - b * c < 0)%R -> forall h, h < n -> fV (codomain r) (f (fV (domain r) h)) = f h) by (intros W h H; apply (ac_mir _ _ _ _ _ _ _ _ A W h H)).
    assert (Vv := ac_vec _ _ _ _ _ _ _ _ A).
    split.
    + exact (corner_comp n (domain r) (codomain r) f f' a b c d a' b' c' d' _ _ _ _ Sd Hs Nz Cs Vv Pv Mv D D' C1 C3).
    + exact (corner_comp n (domain r) (codomain r) f f' a b c d a' b' c' d' _ _ _ _ Sd Ht (pneg_nz _ Nz) Ct Vv Pv Mv D D' C2 C4).
Qed.
Lemma acts_exists n fuel r : n + 1 < fuel -> good n r -> no_flips r ->
  exists f a b c d, acts n fuel r f a b c d /\
    (relation_trivial fuel r = Ok true -> forall h, h < n -> f h = h /\ papply a b c d (vv (domain r) h) = vv (domain r) h).
Proof.
  intros F. induction r as [s|s u e|s u a b c d|s u m b|s u|l IHl r IHr]; intros G Nf.
  - exists (fun h => h), 1%R, 0%R, 0%R, 1%R. split; [now apply acts_trivial|]. intros _ h H. split; auto. apply papply_id.
  - destruct Nf.
  - pose proof G as (S & U & Dt & a' & b' & c' & d' & Ln & Sg). exists (fun h => h), a', b', c', d'. split; [now apply acts_linear|].
    intros T h H. split; auto. destruct (trivial_ok n fuel (RLinear s u a b c d) F G) as (t & E & B). rewrite T in E. injection E as <-. destruct (B eq_refl h H) as (_ & _ & V). cbn [domain codomain] in *.
    destruct Ln as (_ & Vl & _). now rewrite <- (Vl h H).
  - pose proof G as (S & U & -> & f & g & R & M). exists f, 1%R, 0%R, 0%R, 1%R. split; [now apply (acts_relabel n fuel s u m f g)|].
    intros T h H. split; [|apply papply_id]. cbn [relation_trivial negb] in T. assert (W := fs_wf n _ (proj1 S)). destruct (identical_ok n m f (edges (fT s)) M) as (b & E & B); [intros e I; now apply (in_edges n _ e W) in I|].
    rewrite T in E. injection E as <-. destruct (renames_identity n s u f g (edges (fT s)) S R (B eq_refl)) as [Q _]; auto.
    intros e He Ev. apply (in_edges n _ e W). split; auto. apply Nat.even_spec in Ev as (k & ->). now exists k.
  - destruct G.
  - pose proof G as (Gl & Gr & Sm). destruct Nf as [Nl Nr]. destruct (IHl Gl Nl) as (f' & a' & b' & c' & d' & Al & Tl). destruct (IHr Gr Nr) as (f & a & b & c & d & Ar & Tr).
    assert (Sd := good_domain n r Gr). assert (Ac := acts_composite n fuel l r f a b c d f' a' b' c' d' Sd (good_codomain n r Gr) (good_domain n l Gl) Sm Ar Al).
    eexists _, _, _, _, _. split; [exact Ac|]. intros T h H. cbn [relation_trivial] in T. cbn [domain].
    destruct (trivial_ok n fuel l F Gl) as (bl & El & Bl). destruct (trivial_ok n fuel r F Gr) as (br & Er & Br). rewrite El, Er in T. cbn [bind] in T.
    assert (X : bl = true -> br = true -> f' (f h) = h /\ papply (a' * a + b' * c) (a' * b + b' * d) (c' * a + d' * c) (c' * b + d' * d) (vv (domain r) h) = vv (domain r) h).
    { intros -> ->. destruct (Tr Er h H) as [E1 E2]. destruct (Tl El h H) as [E3 E4]. rewrite E1, E3. split; auto. rewrite <- papply_comp, E2.
      destruct (Br eq_refl h H) as (_ & _ & V1). destruct (Sm h H) as (_ & _ & V2). rewrite <- V1, <- V2. exact E4. }
    destruct bl; [destruct br; [auto|discriminate]|]. destruct br; [discriminate|].
    destruct (generic_ok n fuel (RComposite l r) F G) as (t & E & B). rewrite T in E. injection E as <-. destruct (B eq_refl) as [Sf Q]. cbn [domain] in *.
    assert (Y : forall e, e < n -> Nat.even e = true -> f' (f e) = e /\ papply (a' * a + b' * c) (a' * b + b' * d) (c' * a + d' * c) (c' * b + d' * d) (vv (domain r) e) = vv (domain r) e).
    { intros e He Ev. destruct (Q e He Ev) as (x & y & Ex & Ey & Sy & Vy). destruct (thin_half_edge n (domain r) e Sd He) as (x' & Ex' & Tx & Sx & _ & Ux & Vx & Dx). rewrite Ex in Ex'. injection Ex' as <-.
      assert (On : seg_on n (domain (RComposite l r)) (segment_of x)). { split; auto. cbn [domain segment_of sg_surface sg_over]. rewrite Ux. split; apply same_refl. }
      destruct (ac_segment _ _ _ _ _ _ _ _ Ac _ On) as (y' & Ey' & _ & Vy' & (C1 & C2 & _) & _). rewrite Ey in Ey'. injection Ey' as <-.
      cbn [segment_of sg_source] in C1, C2. rewrite Sx, Vx in *. cbn [domain] in *. split.
      - rewrite <- Sy. pose proof (ac_det _ _ _ _ _ _ _ _ Ac) as Dd. symmetry. destruct (Rtotal_order ((a' * a + b' * c) * (c' * b + d' * d) - (a' * b + b' * d) * (c' * a + d' * c)) 0) as [Z|[Z|Z]]; [|contradiction|].
        + rewrite Sy. rewrite Sy in C2. apply C2; auto. unfold pdet. ring.
        + rewrite Sy. rewrite Sy in C1. now apply C1.
      - rewrite <- Vy', Vy. cbn [codomain]. destruct (Sf e He) as (_ & _ & Z). cbn [codomain] in Z. exact Z. }
    revert h H X. refine (all_even n (domain r) _ (proj1 Sd) _ _).
    + intros h H Z X. clear X. assert (Z' : f' (f h) = h /\ papply (a' * a + b' * c) (a' * b + b' * d) (c' * a + d' * c) (c' * b + d' * d) (vv (domain r) h) = vv (domain r) h).
      { apply Z. intros; discriminate. }
      destruct Z' as [Z1 Z2]. rewrite (ac_neg _ _ _ _ _ _ _ _ Ac h H), Z1. split; auto. rewrite (fs_odd n _ (proj1 Sd) h H), papply_pneg. now rewrite Z2.
    + intros h H Ev X. now apply Y.
Qed.
End facts.
