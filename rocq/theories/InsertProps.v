(** * Properties of the insertion of marked points *)
From Coq Require Import ZArith Reals List Arith Bool Lia Lra Psatz.
From Verif Require Import Base HalfEdge HalfEdgeFacts Perm PermSpec PermFacts PermCycles IndexedSet IndexedSetSpec IndexedSetFacts Combinatorial
  CombinatorialSpec CombinatorialFacts CombinatorialHistory ExactReal Vector PlaneSpec Plane VectorFacts VectorProps FlatTri FlatSpec FlatFacts FlatSum FlatOps FlatAngle FlatDelaunay FlatSector
  FlatProps FlatAngleProps Point PointSpec PointFacts PointOps PointEq PointHash PointPlane PointFlip PointProps
  Insert InsertSpec InsertFacts InsertKept InsertLoop.
Import ListNotations.
Local Open Scope nat_scope.

(** ** C60: [insertAt] *)
Lemma finsert_at_face (K : ExactReal) n (s s' : flat K) h h' (v : vec K) fuel l : flat_surface n s -> h < n ->
  hits (vden v) (vv s h) (vv s (fV s h)) = true -> insert_loop fuel s h v = Ok (s', h', l) -> aims n s' h' (vden v) ->
  ccw (vat' s' h') v <> COLLINEAR -> inside s' h' (vden v) ->
  exists u w, finsert_at fuel s h v = Ok (mkInserted l s' u h' (InFace w)) /\ face_inserted n s' u h' (vden v) /\ vertex_source (fT u) n = Ok w.
Proof.
  intros S0 Hh Hi E A Nc In. pose proof A as (S' & Cl' & Hh' & _). unfold finsert_at. rewrite (in_sector_at_Ok n) by auto. rewrite Hi. cbn [bind negb].
  rewrite E. cbn [bind]. rewrite from_he_Ok by now rewrite (fs_length n s' S'). cbn [bind].
  destruct (ccw_eqb (ccw (vat' s' h') v) COLLINEAR) eqn:X; [apply ccw_eqb_spec in X; congruence|]. cbn [negb].
  destruct (insert_in_face_Ok n s' h' v S' Hh' (Cl' h' Hh') In) as (u & w & -> & FI & V & _). cbn [bind]. eauto.
Qed.
Lemma finsert_at_edge (K : ExactReal) n (s s' : flat K) h h' (v : vec K) fuel l : flat_surface n s -> h < n ->
  hits (vden v) (vv s h) (vv s (fV s h)) = true -> insert_loop fuel s h v = Ok (s', h', l) -> aims n s' h' (vden v) ->
  ccw (vat' s' h') v = COLLINEAR -> inside_edge s' h' (vden v) ->
  exists u w, finsert_at fuel s h v = Ok (mkInserted l s' u (fF s' (neg h')) (OnEdge w h' (n + 1) (n + 2))) /\ edge_inserted n s' u h' (vden v) /\ vertex_source (fT u) n = Ok w.
Proof.
  intros S0 Hh Hi E A Nc In. pose proof A as (S' & Cl' & Hh' & _). unfold finsert_at. rewrite (in_sector_at_Ok n) by auto. rewrite Hi. cbn [bind negb].
  rewrite E. cbn [bind]. rewrite from_he_Ok by now rewrite (fs_length n s' S'). cbn [bind]. rewrite Nc. cbn [ccw_eqb negb].
  assert (Hn := neg_ltn n _ (fs_wf n s' S') h' Hh').
  destruct (insert_on_edge_Ok n s' h' v S' Hh' (Cl' h' Hh') (Cl' _ Hn) In) as (u & w & -> & EI & V & _). cbn [bind]. eauto.
Qed.

Lemma hits_nonzero d a b : hits d a b = true -> d <> (0, 0)%R.
Proof. unfold hits. intros H ->. unfold pdet in H. cbn [fst snd] in H. destruct (Rle_dec _ _); [|discriminate]. destruct (Rlt_dec _ _); [lra|discriminate]. Qed.

(** What [insertAt] returns: the marked point is next to the given half edge, at the given vector. *)
Theorem C60_insert_at : forall (K : ExactReal) n (s : flat K) h (v : vec K) fuel r, flat_surface n s -> closed_surface n s -> h < n ->
  finsert_at fuel s h v = Ok r ->
  let s' := in_domain r in let u := in_codomain r in
  sector_contains s h (vden v) /\
  exists h', h' < n /\ carried (vden v) (in_flips r) s h s' h' /\ flat_surface n s' /\ closed_surface n s' /\
    fV u (in_next r) = neg n /\ vv u (neg n) = vden v /\
    ((inside s' h' (vden v) /\ face_inserted n s' u h' (vden v) /\ exists w, vertex_source (fT u) n = Ok w /\ in_relation r = InFace w) \/
     (inside_edge s' h' (vden v) /\ edge_inserted n s' u h' (vden v) /\
        exists w, vertex_source (fT u) n = Ok w /\ in_relation r = OnEdge w h' (neg n) (n + 2))).
Proof.
  intros K n s h v fuel r S0 Cl Hh E. cbv zeta. assert (W := fs_wf n s S0). destruct (new_negs n (wf_even _ _ W)) as (N0 & _).
  pose proof E as E0. unfold finsert_at in E0. rewrite (in_sector_at_Ok n) in E0 by auto. cbn [bind] in E0.
  destruct (hits (vden v) (vv s h) (vv s (fV s h))) eqn:Hi; [|discriminate]. cbn [negb] in E0. assert (Nv := hits_nonzero _ _ _ Hi).
  assert (D := corner_det n s h S0 Hh (Cl h Hh)). assert (Sc : sector_contains s h (vden v)) by now apply hits_spec.
  assert (A : aims n s h (vden v)) by (unfold aims; auto). split; auto.
  assert (L := insert_loop_ok n v fuel s h A). destruct (insert_loop fuel s h v) as [[[s' h'] l]| | |] eqn:El; try discriminate. clear E0.
  destruct L as (A' & C & [[Co Ie]|[Nc Ii]]); pose proof A' as (S' & Cl' & Hh' & _).
  - destruct (finsert_at_edge K n s s' h h' v fuel l S0 Hh Hi El A' Co Ie) as (u & w & E' & EI & V). rewrite E in E'. injection E' as ->. cbn [in_domain in_codomain in_flips in_next in_relation].
    exists h'. split; auto. split; auto. split; auto. split; auto. split; [|split; [apply (ei_first _ _ _ _ _ EI)|]].
    + assert (Hn := neg_ltn n _ (fs_wf n s' S') h' Hh'). assert (Hx := fF_lt n s' _ S' Hn).
      assert (Fl := nonboundary_flippable n s' h' S' Hh' (Cl' h' Hh') (Cl' _ Hn)). destruct (flip_six n (fT s') h' (fs_wf n s' S') Fl) as (D6 & _ & _ & _ & _ & _ & _ & Fy).
      apply nodup6 in D6. change (nF (fT s')) with (fF s') in *. destruct D6 as ((D1 & D2 & D3 & D4 & D5) & (D6 & D7 & D8 & D9) & (D10 & D11 & D12) & (D13 & D14) & D15).
      destruct (edge_vertices n s' u h' _ S' Cl' Hh' EI) as [_ St]. specialize (St _ Hx). unfold edge_new, edge_rho in St.
      destruct (Nat.eqb_spec (fF s' (neg h')) (fF s' (fF s' h'))); [congruence|]. destruct (Nat.eqb_spec (fF s' (neg h')) (fF s' (fF s' (neg h')))); [congruence|].
      destruct (Nat.eqb_spec (fF s' (neg h')) h'); [congruence|]. destruct (Nat.eqb_spec (fF s' (neg h')) (neg h')); [congruence|].
      rewrite (fV_eq n s' (fF s' (neg h')) S' Hx (Cl' _ Hx)) in St. rewrite Fy, neg_neg, Nat.eqb_refl in St. congruence.
    + right. rewrite N0. eauto 6.
  - destruct (finsert_at_face K n s s' h h' v fuel l S0 Hh Hi El A' Nc Ii) as (u & w & E' & FI & V). rewrite E in E'. injection E' as ->. cbn [in_domain in_codomain in_flips in_next in_relation].
    exists h'. split; auto. split; auto. split; auto. split; auto. split; [|split; [apply (fi_new _ _ _ _ _ FI)|eauto 6]].
    rewrite N0. apply (face_vertices n s' u h' _ S' Hh' (Cl' h' Hh') FI).
Qed.
Print Assumptions C60_insert_at.

(** It only fails when the vector is not in the sector of the half edge, or when it runs into a vertex. *)
Theorem C60_rejected : forall (K : ExactReal) n (s : flat K) h (v : vec K) fuel, flat_surface n s -> closed_surface n s -> h < n ->
  (~ sector_contains s h (vden v) -> finsert_at fuel s h v = Throw) /\
  (finsert_at fuel s h v = Throw -> ~ sector_contains s h (vden v) \/
     exists l s' h' c, flat_surface n s' /\ h' < n /\ carried (vden v) l s h s' h' /\ (1 <= c)%R /\ vden v = pscale c (vv s' h')) /\
  finsert_at fuel s h v <> UB.
Proof.
  intros K n s h v fuel S0 Cl Hh. assert (D := corner_det n s h S0 Hh (Cl h Hh)). pose proof (in_sector_at_Ok n s h v S0 Hh) as Q.
  destruct (hits (vden v) (vv s h) (vv s (fV s h))) eqn:Hi.
  - assert (Nv := hits_nonzero _ _ _ Hi). assert (Sc : sector_contains s h (vden v)) by now apply hits_spec.
    assert (A : aims n s h (vden v)) by (unfold aims; auto). assert (L := insert_loop_ok n v fuel s h A). split; [tauto|].
    destruct (insert_loop fuel s h v) as [[[s' h'] l]| | |] eqn:El.
    + destruct L as (A' & C & [[Co Ie]|[Nc Ii]]).
      * destruct (finsert_at_edge K n s s' h h' v fuel l S0 Hh Hi El A' Co Ie) as (u & w & -> & _). split; discriminate.
      * destruct (finsert_at_face K n s s' h h' v fuel l S0 Hh Hi El A' Nc Ii) as (u & w & -> & _). split; discriminate.
    + unfold finsert_at. rewrite Q, El. cbn [bind negb]. split; [|discriminate]. intros _. right. destruct L as (l & s' & h' & c & (S' & _ & H' & _) & C & R1 & R2).
      exists l, s', h', c. auto 6.
    + destruct L.
    + unfold finsert_at. rewrite Q, El. cbn [bind negb]. split; discriminate.
  - assert (X : finsert_at fuel s h v = Throw) by (unfold finsert_at; rewrite Q; reflexivity). rewrite X. split; [auto|]. split; [|discriminate]. intros _. left.
    intros Sc. destruct (Req_dec (fst (vden v)) 0) as [Z1|Z1]; [destruct (Req_dec (snd (vden v)) 0) as [Z2|Z2]|].
    + assert (Z : vden v = (0, 0)%R) by (apply pt_eq; auto). destruct Sc as (x & y & T & _). rewrite Z in T. destruct T as (_ & r & Hr & T).
      destruct (det_nonzero _ _ D) as [Na _]. apply Na. clear - T Hr. destruct (vv s h) as [a b]. unfold pscale, protate in T. cbn [fst snd] in T. injection T as T1 T2.
      assert (E1 : (a * cos x - b * sin x = 0)%R) by (apply (Rmult_eq_reg_l r); lra). assert (E2 : (a * sin x + b * cos x = 0)%R) by (apply (Rmult_eq_reg_l r); lra).
      assert (S := sin2_cos2 x). unfold Rsqr in S. apply pt_eq; cbn [fst snd].
      * replace a with (a * (sin x * sin x + cos x * cos x))%R by (rewrite S; ring). replace (a * (sin x * sin x + cos x * cos x))%R with (cos x * (a * cos x - b * sin x) + sin x * (a * sin x + b * cos x))%R by ring. rewrite E1, E2. ring.
      * replace b with (b * (sin x * sin x + cos x * cos x))%R by (rewrite S; ring). replace (b * (sin x * sin x + cos x * cos x))%R with (cos x * (a * sin x + b * cos x) - sin x * (a * cos x - b * sin x))%R by ring. rewrite E1, E2. ring.
    + apply hits_spec in Sc; auto; [congruence|]. intros Z. rewrite Z in Z2. cbn in Z2. lra.
    + apply hits_spec in Sc; auto; [congruence|]. intros Z. rewrite Z in Z1. cbn in Z1. lra.
Qed.
Print Assumptions C60_rejected.

(** The flips on the way change neither the area nor the angles. *)
Lemma fflip_lt (K : ExactReal) n (s s' : flat K) e : flat_surface n s -> fflip s e = (s', Ok tt) -> e < n.
Proof.
  intros S0 E. unfold fflip in E. destruct (convex s e true) as [[]| | |]; try discriminate. destruct (flip (fT s) e) as [t o] eqn:F. unfold flip in F.
  assert (W := is_perm_wfp _ _ (wf_F _ _ (fs_wf n s S0))). destruct (nextInFace (fT s) e) as [a| | |] eqn:N.
  - unfold nextInFace, papp in N. apply vget_Ok in N as [L _]. now rewrite (fwd_len n _ W) in L.
  - cbn [bind] in F. inv F. discriminate.
  - cbn [bind] in F. inv F. discriminate.
  - cbn [bind] in F. inv F. discriminate.
Qed.
Lemma clone_angle (K : ExactReal) n (s u : flat K) h w w' : flat_surface n s -> flat_surface n u -> closed_surface n s -> closed_surface n u ->
  (forall e, e < n -> fF u e = fF s e /\ nV (fT u) e = nV (fT s) e) -> (forall e, e < n -> vv u e = vv s e) -> h < n ->
  vertex_source (fT s) h = Ok w -> vertex_source (fT u) h = Ok w' -> angle u w' = angle s w.
Proof.
  intros S0 Su Cl Clu F V Hh E E'. apply (angle_kept n n s u (fun h => h) (fun _ => None)) with (h := h); auto; try discriminate.
  - intros x Hx. now apply F.
  - intros x Hx. exists 1%R. split; [lra|]. rewrite V by auto. destruct (vv s x). apply pt_eq; cbn; ring.
Qed.
Lemma flip_source (K : ExactReal) n (s s' : flat K) e h w w' : flat_surface n s -> closed_surface n s -> e < n -> fflip s e = (s', Ok tt) -> h < n -> h <> e -> h <> neg e ->
  vertex_source (fT s) h = Ok w -> vertex_source (fT s') h = Ok w' -> angle s' w' = angle s w.
Proof.
  intros S0 Cl He E Hh N1 N2 V V'. destruct (fflip_spec n s e s' S0 He E) as (_ & S' & _).
  destruct (vertex_source_Ok n (fT s) h (fs_wf n s S0) Hh) as (v1 & E1 & I1 & C1). rewrite V in E1. inv E1.
  destruct (vertex_source_Ok n (fT s') h (fs_wf n s' S') Hh) as (v2 & E2 & I2 & C2). rewrite V' in E2. inv E2.
  assert (X : fflips s [e] = (s', Ok tt)) by (cbn [fflips]; now rewrite E).
  destruct (flips_angle n [e] s s' S0 Cl) as (L & A); auto. { intros x [<-|[]]; auto. }
  apply is_vertex_In in I1 as (i & Hi & ->). destruct (A i Hi) as (A1 & A2). rewrite <- A1. f_equal. specialize (A2 h). rewrite (proj2 (C1 h)) in A2.
  2: { split; auto. exists 0. reflexivity. }
  apply is_vertex_In in I2 as (j & Hj & ->). f_equal. destruct (wf_vertices _ _ (fs_wf n s' S')) as (_ & _ & X3 & _).
  assert (Ci : scontains (nth i (tverts (fT s')) []) h = true). { apply A2. intros x [<-|[]]; auto. }
  assert (Cj : scontains (nth j (tverts (fT s')) []) h = true). { apply C2. split; auto. exists 0. reflexivity. }
  apply (X3 j i h); auto; lia.
Qed.
Lemma carried_kept (K : ExactReal) n v l (s s' : flat K) h h' : carried v l s h s' h' -> flat_surface n s -> closed_surface n s ->
  flat_surface n s' /\ closed_surface n s' /\ area_sum n s' = area_sum n s /\ (forall e, In e l -> e < n) /\
  forall x w w', x < n -> (forall e, In e l -> x <> e /\ x <> neg e) -> vertex_source (fT s) x = Ok w -> vertex_source (fT s') x = Ok w' -> angle s' w' = angle s w.
Proof.
  induction 1 as [s h|s s0 e s1 h l s' h' Ne Ne' Ec Ef C IH|s h h1 l s' h' D F C IH]; intros S0 Cl.
  - split; auto. split; auto. split; auto. split; [intros e []|]. intros; congruence.
  - destruct (fclone_Ok n s S0) as (u & Eu & Su & Fu & Vu). rewrite Ec in Eu. inv Eu. assert (He := fflip_lt K n u s1 e Su Ef).
    assert (Clu : closed_surface n u). { intros x Hx. rewrite (proj1 (Fu x Hx)). now apply Cl. }
    assert (Cl1 := closed_flip n u e s1 Su Clu He Ef). destruct (fflip_spec n u e s1 Su He Ef) as (_ & S1 & _).
    destruct (IH S1 Cl1) as (S' & Cl' & A & L & G). split; auto. split; auto. split; [|split].
    + rewrite A, (area_sum_flip n u e s1 Su He Ef). unfold area_sum. f_equal. apply map_ext_in. intros x Hx. apply in_seq in Hx as [_ Hx]. cbn [plus] in Hx.
      assert (X := fF_lt n s x S0 Hx). assert (X' := fF_lt n s _ S0 X).
      unfold corner_area, triangle_area2. rewrite (proj1 (Fu x Hx)), ?Vu by auto. reflexivity.
    + intros x [<-|I]; auto.
    + intros x w w' Hx N E E'. destruct (N e (or_introl eq_refl)) as [N1 N2].
      destruct (vertex_source_Ok n (fT u) x (fs_wf n u Su) Hx) as (w0 & E0 & _). destruct (vertex_source_Ok n (fT s1) x (fs_wf n s1 S1) Hx) as (w1 & E1 & _).
      rewrite (G x w1 w' Hx) by (auto; intros; apply N; now right). rewrite (flip_source K n u s1 e x w0 w1) by auto. now apply (clone_angle K n s u x).
  - auto.
Qed.

(** The area is not changed, and neither are the angles at the vertices: the new vertex is a marked point. *)
Theorem C60_kept : forall (K : ExactReal) n (s : flat K) h (v : vec K) fuel r, flat_surface n s -> closed_surface n s -> h < n ->
  finsert_at fuel s h v = Ok r ->
  let u := in_codomain r in
  flat_surface (n + 6) u /\ closed_surface (n + 6) u /\
  (exists a a', area2 s = Ok a /\ area2 u = Ok a' /\ den a' = den a) /\
  (forall w, vertex_source (fT u) n = Ok w -> angle u w = Ok 1) /\
  forall x w w', x < n -> (forall e, In e (in_flips r) -> x <> e /\ x <> neg e) ->
    (forall i split a b, in_relation r = OnEdge i split a b -> x <> split /\ x <> neg split) ->
    vertex_source (fT s) x = Ok w -> vertex_source (fT u) x = Ok w' -> angle u w' = angle s w.
Proof.
  intros K n s h v fuel r S0 Cl Hh E. cbv zeta. destruct (C60_insert_at K n s h v fuel r S0 Cl Hh E) as (_ & h' & Hh' & C & S' & Cl' & _ & _ & O).
  destruct (carried_kept K n _ _ _ _ _ _ C S0 Cl) as (_ & _ & A & L & G). destruct (area2_Ok n s S0) as (a & Ea & A1).
  assert (Hn := neg_ltn n _ (fs_wf n _ S') h' Hh').
  destruct O as [(Ii & FI & w0 & V0 & Er)|(Ie & EI & w0 & V0 & Er)].
  - assert (Su := fi_surface _ _ _ _ _ FI). assert (Clu := face_closed n _ _ h' _ S' Cl' Hh' FI). destruct (face_angles n _ _ h' _ S' Cl' Hh' FI) as [G1 G2].
    split; auto. split; auto. split; [|split].
    + destruct (area2_Ok _ _ Su) as (a' & Ea' & A2). exists a, a'. split; auto. split; auto. rewrite (face_area n _ _ h' _ S' Hh' (Cl' h' Hh') FI) in A2. lra.
    + intros w X. now apply G2.
    + intros x w w' Hx N _ X X'. destruct (vertex_source_Ok n _ x (fs_wf n _ S') Hx) as (w1 & E1 & _).
      rewrite (proj1 (G1 x w1 w' Hx E1 X')). now apply (G x).
  - assert (Su := ei_surface _ _ _ _ _ EI). assert (Clu := edge_closed n _ _ h' _ S' Cl' Hh' EI). destruct (edge_angles n _ _ h' _ S' Cl' Hh' Ie EI) as [G1 G2].
    split; auto. split; auto. split; [|split].
    + destruct (area2_Ok _ _ Su) as (a' & Ea' & A2). exists a, a'. split; auto. split; auto. rewrite (edge_area n _ _ h' _ S' Hh' (Cl' h' Hh') (Cl' _ Hn) Ie EI) in A2. lra.
    + intros w X. now apply G2.
    + intros x w w' Hx N N' X X'. destruct (N' _ _ _ _ Er) as [N1 N2]. destruct (vertex_source_Ok n _ x (fs_wf n _ S') Hx) as (w1 & E1 & _).
      rewrite (proj1 (G1 x w1 w' Hx N1 N2 E1 X')). now apply (G x).
Qed.
Print Assumptions C60_kept.

(** For the examples: the flips, the next half edges in the faces, the vectors and the half edge. *)
Definition shown (r : outcome (inserted ExactZ)) : outcome (list nat * list nat * list (Z * Z) * nat) :=
  do r <- r; Ok (in_flips r, fwd (tF (fT (in_codomain r))), map (fun v : vec ExactZ => (vx v : Z, vy v : Z)) (fvec (in_codomain r)), in_next r).
Example C60_ex : flat_surface 6 big_s /\ closed_surface 6 big_s /\
  shown (finsert_at 20 big_s 0 (zv 2 1)) = Ok ([], [9; 3; 11; 5; 7; 1; 0; 10; 2; 6; 4; 8],
    [(3, 0); (-3, 0); (0, 3); (0, -3); (-3, -3); (3, 3); (-2, -1); (2, 1); (1, -1); (-1, 1); (1, 2); (-1, -2)]%Z, 0) /\
  shown (finsert_at 20 big_s 0 (zv 2 0)) = Ok ([], [6; 5; 11; 0; 7; 9; 3; 10; 2; 1; 4; 8],
    [(2, 3); (-2, -3); (0, 3); (0, -3); (-3, -3); (3, 3); (-2, 0); (2, 0); (1, 0); (-1, 0); (1, 3); (-1, -3)]%Z, 3) /\
  shown (finsert_at 20 big_s 0 (zv 5 1)) = Ok ([2; 5; 3], [9; 5; 1; 7; 11; 2; 0; 10; 4; 6; 3; 8],
    [(3, 0); (-3, 0); (12, 3); (-12, -3); (9, 3); (-9, -3); (-5, -1); (5, 1); (-2, -1); (2, 1); (7, 2); (-7, -2)]%Z, 0) /\
  shown (finsert_at 20 big_s 0 (zv 6 3)) = Throw /\ shown (finsert_at 20 big_s 0 (zv 3 0)) = Throw /\ shown (finsert_at 20 big_s 0 (zv 0 1)) = Throw.
Proof. split; [apply big_flat|]. split; [apply big_flat|]. repeat split; vm_compute; reflexivity. Qed.

(** ** C59: [insert] *)
Section insert_point.
Context {K : ExactReal}.
Implicit Types s : flat K.
Variables (n : nat) (s : flat K).
Hypothesis S0 : flat_surface n s.
Hypothesis Cl : closed_surface n s.

Lemma hits_inside h v : h < n -> inside s h v -> hits v (vv s h) (vv s (fV s h)) = true.
Proof.
  intros Hh (A & _ & B). rewrite (vv_fV n s h S0 Hh (Cl h Hh)). unfold hits. destruct (Rle_dec 0 (pdet (vv s h) v)); [|lra].
  destruct (Rlt_dec _ 0) as [|N]; auto. exfalso. apply N. unfold pdet, pneg in *. cbn [fst snd]. lra.
Qed.
Lemma hits_edge h v : h < n -> inside_edge s h v -> hits v (vv s h) (vv s (fV s h)) = true.
Proof.
  intros Hh (r & Hr & ->). assert (D := corner_det n s h S0 Hh (Cl h Hh)). unfold hits.
  replace (pdet (vv s h) (pscale r (vv s h))) with 0%R by (unfold pdet, pscale; cbn [fst snd]; ring).
  replace (pdet (vv s (fV s h)) (pscale r (vv s h))) with (- (r * pdet (vv s h) (vv s (fV s h))))%R by (unfold pdet, pscale; cbn [fst snd]; ring).
  assert (P := Rmult_lt_0_compat _ _ (proj1 Hr) D). destruct (Rle_dec 0 0); [|lra]. destruct (Rlt_dec _ 0); auto. lra.
Qed.
Lemma loop_inside h (v : vec K) k : h < n -> inside s h (vden v) -> insert_loop (Datatypes.S k) s h v = Ok (s, h, []) /\ ccw (vat' s h) v <> COLLINEAR.
Proof.
  intros Hh (A & B & _). cbn [insert_loop]. assert (W := fs_wf n s S0). assert (L := fs_length n s S0).
  rewrite from_he_Ok by now rewrite L. cbn [bind]. rewrite (proj2 (proj1 (ccw_spec (vat' s h) v))) by exact A. cbn [ccw_eqb]. split; [|discriminate].
  rewrite (next_Ok n) by auto. cbn [bind]. assert (Hf := nF_lt n _ W h Hh). rewrite from_he_Ok by now rewrite L. cbn [bind].
  rewrite (proj2 (proj1 (ccw_spec (vat' s (nF (fT s) h)) (vsub v (vat' s h))))); auto. rewrite vden_sub. exact B.
Qed.
Lemma loop_edge h (v : vec K) k : h < n -> inside_edge s h (vden v) -> insert_loop (Datatypes.S k) s h v = Ok (s, h, []) /\ ccw (vat' s h) v = COLLINEAR.
Proof.
  intros Hh (r & Hr & E). cbn [insert_loop]. assert (W := fs_wf n s S0). assert (L := fs_length n s S0).
  rewrite from_he_Ok by now rewrite L. cbn [bind].
  assert (X : ccw (vat' s h) v = COLLINEAR). { apply ccw_spec. rewrite E. change (vden (vat' s h)) with (vv s h). unfold pdet, pscale; cbn [fst snd]; ring. }
  rewrite X. cbn [ccw_eqb]. split; auto. unfold check_orientation. assert (O := orientation_cases (vsub (vat' s h) v) v). rewrite vden_sub in O. change (vden (vat' s h)) with (vv s h) in O.
  assert (Pb : (0 < pdot (vv s h) (vv s h))%R). { apply pdot_pos. apply (det_nonzero _ _ (corner_det n s h S0 Hh (Cl h Hh))). }
  assert (Ed : (0 < pdot (padd (vv s h) (pneg (vden v))) (vden v))%R).
  { replace (pdot (padd (vv s h) (pneg (vden v))) (vden v)) with ((1 - r) * r * pdot (vv s h) (vv s h))%R by (rewrite E; unfold pdot, padd, pneg, pscale; cbn [fst snd]; ring).
    apply Rmult_lt_0_compat; auto. apply Rmult_lt_0_compat; lra. }
  destruct (orientation (vsub (vat' s h) v) v); auto; lra.
Qed.
Lemma place_inside h a b c : h < n -> (0 < a)%R -> (0 < b)%R -> (0 < c)%R -> inside s h (place s h (a, b, c)).
Proof.
  intros Hh A B C. assert (H1 := fF_lt n s h S0 Hh). assert (H2 := fF_lt n s _ S0 H1). assert (E3 := wf_triangle _ _ (fs_wf n s S0) h Hh). change (fF s (fF s (fF s h)) = h) in E3.
  assert (D := area_pos n s S0 Cl h Hh). assert (D1 := area_pos n s S0 Cl _ H1). assert (D2 := area_pos n s S0 Cl _ H2).
  assert (Q : forall x, (0 < x)%R -> (0 < x / (a + b + c))%R) by (intros; apply Rdiv_lt_0_compat; lra). unfold inside. split; [|split].
  - rewrite place_side by lra. apply Rmult_lt_0_compat; auto.
  - assert (E := place_rot n s S0 Cl h a b c Hh ltac:(lra)).
    replace (padd (place s h (a, b, c)) (pneg (vv s h))) with (place s (fF s h) (b, c, a)).
    2: { rewrite <- E. apply pt_eq; unfold padd, pneg; cbn [fst snd]; ring. }
    rewrite place_side by lra. apply Rmult_lt_0_compat; auto. replace (b + c + a)%R with (a + b + c)%R by ring. auto.
  - assert (E := place_rot n s S0 Cl (fF s (fF s h)) c a b H2 ltac:(lra)). rewrite E3 in E.
    replace (pdet (vv s (fF s (fF s h))) (place s h (a, b, c))) with (pdet (vv s (fF s (fF s h))) (place s (fF s (fF s h)) (c, a, b))).
    2: { rewrite <- E. unfold pdet, padd; cbn [fst snd]; ring. }
    rewrite place_side by lra. apply Rmult_lt_0_compat; auto. replace (c + a + b)%R with (a + b + c)%R by ring. auto.
Qed.
Lemma place_edge h a b : (0 < a)%R -> (0 < b)%R -> inside_edge s h (place s h (a, b, 0%R)).
Proof.
  intros A B. exists (b / (a + b))%R. split.
  - assert (0 < b / (a + b))%R by (apply Rdiv_lt_0_compat; lra). assert (0 < a / (a + b))%R by (apply Rdiv_lt_0_compat; lra).
    assert (b / (a + b) + a / (a + b) = 1)%R by (field; lra). lra.
  - unfold place, padd, pscale; cbn [fst snd]. apply pt_eq; cbn [fst snd]; field; lra.
Qed.

(** The weights at a half edge are determined by the point. *)
Lemma same_place_at h a b c w p : h < n -> weights (a, b, c) -> (0 < a)%R -> (0 < b)%R -> weights w ->
  same_point n s (h, (a, b, c)) p -> same_point n s (h, w) p -> place s h w = place s h (a, b, c).
Proof.
  intros Hh Q A B Q' E E'. destruct w as [[a' b'] c'].
  assert (E2 := sp_trans n s _ _ _ E (sp_sym n s _ _ E')). apply (alike_same n s S0 Cl) in E2.
  destruct (same_face n s S0 Cl h a b c a' b' c' Hh Q Q' A B) as (X & Y & Z); auto. { unfold weights in Q. lra. }
  unfold weights in *. destruct (proportional a b c a' b' c') as (r & Hr & -> & -> & ->); try lra. apply place_scale; lra.
Qed.
End insert_point.

(** A marked point can be inserted anywhere but at a vertex. *)
Theorem C59_vertex : forall (K : ExactReal) n (s : flat K) truediv p fuel, flat_surface n s -> closed_surface n s -> normal n p ->
  (exists h, h < n /\ same_point n s (h, (1, 0, 0)%R) (location p)) -> finsert truediv fuel s p = Throw.
Proof.
  intros K n s truediv p fuel S0 Cl N (h & Hh & E). unfold finsert. destruct (vertex_iff n s S0 Cl p N) as (o & Eo & V). rewrite Eo. cbn [bind].
  destruct (proj1 (V h Hh) E) as (v & Ev & _). now rewrite Ev.
Qed.
Print Assumptions C59_vertex.

(** The marked point is inserted exactly where the point is, without any flips; it only fails if the vector to the point is not
    over the ring of the coordinates. *)
Theorem C59_insert : forall (K : ExactReal) n (s : flat K) truediv p k, flat_surface n s -> closed_surface n s -> exact_division truediv -> normal n p ->
  ~ (exists h, h < n /\ same_point n s (h, (1, 0, 0)%R) (location p)) ->
  exists e a b c, e < n /\ (0 < a)%R /\ (0 < b)%R /\ (0 <= c)%R /\ same_point n s (e, (a, b, c)) (location p) /\
   ((finsert truediv (Datatypes.S k) s p = Throw /\ forall w : vec K, vden w <> place s e (a, b, c)) \/
    exists r, finsert truediv (Datatypes.S k) s p = Ok r /\ in_flips r = [] /\ in_domain r = s /\
     (((0 < c)%R /\ face_inserted n s (in_codomain r) e (place s e (a, b, c)) /\
         exists w, vertex_source (fT (in_codomain r)) n = Ok w /\ in_relation r = InFace w) \/
      (c = 0%R /\ edge_inserted n s (in_codomain r) e (place s e (a, b, c)) /\
         exists w, vertex_source (fT (in_codomain r)) n = Ok w /\ in_relation r = OnEdge w e (neg n) (n + 2)))).
Proof.
  intros K n s truediv p k S0 Cl X N NV. assert (W := fs_wf n s S0). destruct (new_negs n (wf_even _ _ W)) as (N0 & _).
  pose proof N as (Hp & A & B & C & D). unfold finsert.
  destruct (vertex_cases n s S0 p N) as [(Zb & Zc & v & E & V)|(Pb & E)].
  { exfalso. apply NV. exists (pface p). split; auto. unfold location. rewrite Zb, Zc. apply sp_prop; auto; unfold weights; lra. }
  rewrite E. cbn [bind]. unfold point_edge. destruct (nz (pc p)) eqn:Z.
  - apply nz_spec in Z. assert (Pc : (0 < den (pc p))%R) by lra. set (h := pface p) in *.
    exists h, (den (pa p)), (den (pb p)), (den (pc p)). split; auto. split; auto. split; auto. split; auto. split; [apply sp_refl|].
    destruct (vector_ok n s S0 Cl truediv X p h N Hp) as (w & Qw & Ew & R). { left. now left. }
    assert (Q : weights (den (pa p), den (pb p), den (pc p))) by now apply (normal_weights n p).
    rewrite (same_place_at n s S0 Cl h (den (pa p)) (den (pb p)) (den (pc p)) w (location p)) in R; auto; [|apply sp_refl].
    destruct R as [(v & Ev & Dv)|(Ev & Dv)]; rewrite Ev; cbn [bind]; auto. right.
    assert (I := place_inside n s S0 Cl h _ _ _ Hp A Pb Pc). rewrite <- Dv in I |- *. destruct (loop_inside n s S0 h v k Hp I) as [L Nc].
    assert (Hi := hits_inside n s S0 Cl h _ Hp I). assert (Aim : aims n s h (vden v)).
    { unfold aims. split; auto. split; auto. split; auto. split; [eapply hits_nonzero; eauto|]. apply hits_spec; auto. - eapply hits_nonzero; eauto. - now apply (corner_det n s h S0 Hp (Cl h Hp)). }
    destruct (finsert_at_face K n s s h h v (Datatypes.S k) [] S0 Hp Hi L Aim Nc I) as (u & x & Ef & FI & V). exists (mkInserted [] s u h (InFace x)).
    split; auto. split; auto. split; auto. left. cbn [in_codomain in_relation]. eauto 6.
  - assert (Zc : den (pc p) = 0%R). { destruct (Req_dec (den (pc p)) 0) as [|F]; auto. apply nz_spec in F. congruence. } clear Z.
    set (h := positive (edge_of (pface p))). assert (Ch : h = pface p \/ h = neg (pface p)). { unfold h, positive, edge_of. destruct (_ <? _); auto. }
    assert (Hn := neg_ltn n _ W _ Hp). assert (Hh : h < n) by (destruct Ch as [-> | ->]; auto). clearbody h.
    assert (Y : exists a b, (0 < a)%R /\ (0 < b)%R /\ same_point n s (h, (a, b, 0%R)) (location p)).
    { unfold location. rewrite Zc. destruct Ch as [-> | ->].
      - exists (den (pa p)), (den (pb p)). split; auto. split; auto. apply sp_refl.
      - exists (den (pb p)), (den (pa p)). split; auto. split; auto. apply sp_sym, sp_glue; auto. unfold weights. lra. }
    destruct Y as (a & b & Pa & Pb' & Y). exists h, a, b, 0%R. split; auto. split; auto. split; auto. split; [lra|]. split; auto.
    destruct (vector_ok n s S0 Cl truediv X p h N Hh) as (w & Qw & Ew & R).
    { destruct Ch as [-> | ->]; [left; now left|right; right]. split; auto. split; auto. left. now rewrite neg_neg. }
    assert (Q : weights (a, b, 0%R)) by (unfold weights; lra).
    rewrite (same_place_at n s S0 Cl h a b 0%R w (location p)) in R; auto.
    destruct R as [(v & Ev & Dv)|(Ev & Dv)]; rewrite Ev; cbn [bind]; auto. right.
    assert (I := place_edge s h a b Pa Pb'). rewrite <- Dv in I |- *. destruct (loop_edge n s S0 Cl h v k Hh I) as [L Nc].
    assert (Hi := hits_edge n s S0 Cl h _ Hh I). assert (Aim : aims n s h (vden v)).
    { unfold aims. split; auto. split; auto. split; auto. split; [eapply hits_nonzero; eauto|]. apply hits_spec; auto. - eapply hits_nonzero; eauto. - now apply (corner_det n s h S0 Hh (Cl h Hh)). }
    destruct (finsert_at_edge K n s s h h v (Datatypes.S k) [] S0 Hh Hi L Aim Nc I) as (u & x & Ef & EI & V). rewrite <- N0 in Ef. exists (mkInserted [] s u (fF s (neg h)) (OnEdge x h (neg n) (n + 2))).
    split; auto. split; auto. split; auto. right. cbn [in_codomain in_relation]. eauto 6.
Qed.
Print Assumptions C59_insert.

Theorem C59_kept : forall (K : ExactReal) n (s : flat K) truediv p fuel r, flat_surface n s -> closed_surface n s -> normal n p ->
  finsert truediv fuel s p = Ok r ->
  let u := in_codomain r in
  flat_surface (n + 6) u /\ closed_surface (n + 6) u /\
  (exists a a', area2 s = Ok a /\ area2 u = Ok a' /\ den a' = den a) /\
  (forall w, vertex_source (fT u) n = Ok w -> angle u w = Ok 1) /\
  forall x w w', x < n -> (forall e, In e (in_flips r) -> x <> e /\ x <> neg e) ->
    (forall i split a b, in_relation r = OnEdge i split a b -> x <> split /\ x <> neg split) ->
    vertex_source (fT s) x = Ok w -> vertex_source (fT u) x = Ok w' -> angle u w' = angle s w.
Proof.
  intros K n s truediv p fuel r S0 Cl N E. unfold finsert in E. destruct (point_vertex s p) as [[]| | |]; try discriminate. cbn [bind] in E.
  set (h := match point_edge p with Some e => positive e | None => pface p end) in *.
  assert (Hp := proj1 N). assert (Hn := neg_ltn n _ (fs_wf n s S0) _ Hp).
  assert (Hh : h < n). { unfold h, point_edge, positive, edge_of. destruct (nz (pc p)); auto. destruct (_ <? _); auto. }
  destruct (point_vector truediv s p h) as [v| | |]; try discriminate. cbn [bind] in E. now apply (C60_kept K n s h v fuel r).
Qed.
Print Assumptions C59_kept.

Example C59_ex : flat_surface 6 big_s /\ closed_surface 6 big_s /\ exact_division zdiv /\ normal 6 (zp 0 3 3 3) /\ normal 6 (zp 3 1 2 0) /\ normal 6 (zp 0 1 0 0) /\
  shown (finsert zdiv 1 big_s (zp 0 3 3 3)) = shown (finsert_at 1 big_s 0 (zv 2 1)) /\
  shown (finsert zdiv 1 big_s (zp 3 1 2 0)) = Ok ([], [7; 9; 6; 1; 11; 2; 5; 10; 4; 3; 0; 8],
    [(3, 0); (-3, 0); (-3, -2); (3, 2); (-3, -3); (3, 3); (0, -1); (0, 1); (0, 2); (0, -2); (-3, -1); (3, 1)]%Z, 5) /\
  shown (finsert zdiv 1 big_s (zp 0 1 1 3)) = Throw /\ shown (finsert zdiv 1 big_s (zp 0 1 0 0)) = Throw.
Proof.
  split; [apply big_flat|]. split; [apply big_flat|]. split; [apply zdiv_exact|]. split; [normal_ex|]. split; [normal_ex|]. split; [normal_ex|].
  split; [vm_compute; reflexivity|]. split; [vm_compute; reflexivity|]. split; vm_compute; reflexivity.
Qed.
