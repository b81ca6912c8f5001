(** * Theorems about saddle connections (C42) and the turns between them (C55) *)
From Coq Require Import ZArith Reals List Arith Bool Lia Lra Psatz.
From Verif Require Import Base HalfEdge HalfEdgeFacts Perm PermSpec PermFacts PermCycles PermLemmas IndexedSet Combinatorial CombinatorialSpec
  CombinatorialFacts CombinatorialHistory CombinatorialOps CombinatorialProps ExactReal Vector PlaneSpec Plane VectorFacts VectorProps
  FlatTri FlatSpec FlatFacts FlatSum FlatLinear FlatOps FlatDelaunay FlatAngle FlatSector FlatProps FlatAngleProps Chain ChainSpec ChainFacts
  Saddle SaddleSpec SaddleFacts SaddleTurn.
Import ListNotations.
Local Open Scope nat_scope.

(** ** C42: equality, negatives and hash values *)
(** Equality is an equivalence relation. *)
Theorem C42_equivalence : forall (K : ExactReal) n m k (x y z : sconn K), sc_valid n x -> sc_valid m y -> sc_valid k z ->
  sc_eqb x x = Ok true /\
  (exists b, sc_eqb x y = Ok b /\ sc_eqb y x = Ok b) /\
  (sc_eqb x y = Ok true -> sc_eqb y z = Ok true -> sc_eqb x z = Ok true).
Proof.
  intros K n m k x y z X Y Z.
  destruct (flat_eqb_spec n n _ _ (proj1 X) (proj1 X)) as (b1 & E1 & F1). destruct (flat_eqb_spec n m _ _ (proj1 X) (proj1 Y)) as (b2 & E2 & F2).
  destruct (flat_eqb_spec m n _ _ (proj1 Y) (proj1 X)) as (b3 & E3 & F3). destruct (flat_eqb_spec m k _ _ (proj1 Y) (proj1 Z)) as (b4 & E4 & F4).
  destruct (flat_eqb_spec n k _ _ (proj1 X) (proj1 Z)) as (b5 & E5 & F5).
  destruct (sc_eqb_spec n n x x X X) as (c1 & C1 & D1). destruct (sc_eqb_spec n m x y X Y) as (c2 & C2 & D2).
  destruct (sc_eqb_spec m n y x Y X) as (c3 & C3 & D3). destruct (sc_eqb_spec m k y z Y Z) as (c4 & C4 & D4).
  destruct (sc_eqb_spec n k x z X Z) as (c5 & C5 & D5).
  rewrite E1 in D1. rewrite E2 in D2. rewrite E3 in D3. rewrite E4 in D4. rewrite E5 in D5. split; [|split].
  - rewrite C1. f_equal. apply D1. split; [f_equal; apply F1; auto|auto].
  - exists c2. split; auto. rewrite C3. f_equal. apply eq_true_iff_eq. rewrite D2, D3.
    assert (Q : b2 = true <-> b3 = true). { rewrite F2, F3. split; intros (<- & G1 & G2); (split; [reflexivity|]); split; intros e He; symmetry; auto. }
    split; intros (G1 & G2 & G3); (split; [|auto]); injection G1 as G1; f_equal; now apply Q.
  - rewrite C2, C4, C5. intros G H. injection G as G. injection H as H. f_equal. apply D5. apply D2 in G as (G1 & G2 & G3). apply D4 in H as (H1 & H2 & H3).
    injection G1 as G1. injection H1 as H1. split; [|split; congruence]. f_equal. apply F5. apply F2 in G1 as (<- & G4 & G5). apply F4 in H1 as (<- & H4 & H5).
    split; auto. split; intros e He; [rewrite G4 by auto|rewrite G5 by auto]; auto.
Qed.
Print Assumptions C42_equivalence.

(** Negation is an involution and negates the vector; the negatives of equal connections with the same target are equal. *)
Theorem C42_negative : forall (K : ExactReal) n m (x y : sconn K), sc_valid n x -> sc_valid m y ->
  sc_neg (sc_neg x) = x /\
  (exists v w, sc_vector x = Ok v /\ sc_vector (sc_neg x) = Ok w /\ vden w = pneg (vden v)) /\
  (sc_source (sc_neg x) = sc_target x /\ sc_target (sc_neg x) = sc_source x) /\
  (sc_eqb x y = Ok true -> sc_target x = sc_target y -> sc_eqb (sc_neg x) (sc_neg y) = Ok true).
Proof.
  intros K n m x y X Y. split; [apply sc_neg_neg|]. split; [|split].
  - destruct (sc_vector_Ok n x X) as (v & Ev & Dv). destruct (sc_vector_Ok n _ (sc_neg_valid n x X)) as (w & Ew & Dw). exists v, w. split; auto. split; auto.
    rewrite Dw, Dv. now apply sv_neg.
  - auto.
  - intros E T. destruct (sc_eqb_spec n m x y X Y) as (b & Eb & B). rewrite E in Eb. injection Eb as <-. destruct B as [B _]. destruct (B eq_refl) as (B1 & B2 & B3).
    destruct (sc_eqb_spec n m _ _ (sc_neg_valid n x X) (sc_neg_valid m y Y)) as (c & -> & C). f_equal. apply C. split; auto.
    split; [rewrite (sv_neg n x X), (sv_neg m y Y); congruence|exact T].
Qed.
Print Assumptions C42_negative.

(** The saddle connection of a half edge has its vector; its negative is the one of the opposite half edge. *)
Theorem C42_half_edge : forall (K : ExactReal) n (s : flat K) h, flat_surface n s -> h < n ->
  exists x y, sc_half_edge s h = Ok x /\ sc_half_edge s (neg h) = Ok y /\ sc_valid n x /\ sc_valid n y /\
    sv n x = vv s h /\ sc_eqb (sc_neg x) y = Ok true.
Proof.
  intros K n s h S Hh. assert (Hn : neg h < n) by (apply (neg_ltn n (fT s)); auto; apply S).
  destruct (zc_half_edge_Ok n s S h Hh) as (c & Ec & Lc & Vc). destruct (zc_half_edge_Ok n s S (neg h) Hn) as (d & Ed & Ld & Vd).
  unfold sc_half_edge. rewrite Ec, Ed. cbn [bind]. do 2 eexists. split; [reflexivity|]. split; [reflexivity|].
  assert (X : sc_valid n (mkSconn s h (neg h) c)) by (split; auto).
  assert (Y : sc_valid n (mkSconn s (neg h) (neg (neg h)) d)) by (split; [|split; [|split]]; auto; cbn; now rewrite neg_neg).
  split; auto. split; auto. split; auto.
  destruct (sc_eqb_spec n n _ _ (sc_neg_valid n _ X) Y) as (b & -> & B). f_equal. apply B.
  destruct (flat_eqb_spec n n s s S S) as (e & Ee & E). split; [cbn; rewrite Ee; f_equal; apply E; auto|]. split; [|reflexivity].
  rewrite (sv_neg n _ X). unfold sv; cbn [sc_surface sc_chain]. rewrite Vc, Vd. symmetry. now apply (fs_odd n s S).
Qed.
Print Assumptions C42_half_edge.

(** Equality ignores how the vector is written as a sum of half edges: when there is a triangle, then there is for each
    connection an equal one with another chain. *)
Theorem C42_chains : forall (K : ExactReal) n (x : sconn K) h, sc_valid n x -> h < n -> fF (sc_surface x) h <> h ->
  exists y, sc_valid n y /\ sc_eqb x y = Ok true /\ sc_source y = sc_source x /\ sc_target y = sc_target x /\ sc_chain y <> sc_chain x.
Proof.
  intros K n x h X Hh N. destruct (X) as (S & Hs & Ht & L). set (s := sc_surface x) in *.
  assert (H1 := fF_lt n s h S Hh). assert (H2 := fF_lt n s _ S H1).
  destruct (zc_add_he_Ok n s S (sc_chain x) h L Hh) as (c1 & _ & L1 & V1 & N1).
  destruct (zc_add_he_Ok n s S c1 (fF s h) L1 H1) as (c2 & _ & L2 & V2 & N2).
  destruct (zc_add_he_Ok n s S c2 (fF s (fF s h)) L2 H2) as (c3 & _ & L3 & V3 & N3).
  exists (mkSconn s (sc_source x) (sc_target x) c3).
  assert (Y : sc_valid n (mkSconn s (sc_source x) (sc_target x) c3)) by (split; auto).
  split; auto. split; [|split; [|split]]; auto.
  - destruct (sc_eqb_spec n n x _ X Y) as (b & -> & B). f_equal. apply B. destruct (flat_eqb_spec n n s s S S) as (e & Ee & E).
    split; [cbn; fold s; rewrite Ee; f_equal; apply E; auto|]. split; auto. unfold sv; cbn [sc_surface sc_chain]. fold s. rewrite V3, V2, V1.
    destruct (fs_flat n s S h Hh N) as [Z _]. destruct (vv s h), (vv s (fF s h)), (vv s (fF s (fF s h))), (cvector n s (sc_chain x)).
    unfold padd in *; cbn [fst snd] in *. injection Z as Z1 Z2. f_equal; lra.
  - cbn. intros E. assert (Q : forall i, (single h i + single (fF s h) i + single (fF s (fF s h)) i = 0)%Z).
    { intros i. pose proof (N3 i) as Q. rewrite N2, N1, E in Q. lia. }
    pose proof (Q (h / 2)) as Q1. pose proof (Q (fF s h / 2)) as Q2. pose proof (Q (fF s (fF s h) / 2)) as Q3. unfold single in Q1, Q2, Q3.
    rewrite Nat.eqb_refl in Q1, Q2, Q3. rewrite (Nat.eqb_sym (fF s h / 2) (h / 2)) in Q2. rewrite (Nat.eqb_sym (fF s (fF s h) / 2) (h / 2)), (Nat.eqb_sym (fF s (fF s h) / 2) (fF s h / 2)) in Q3.
    destruct (h / 2 =? fF s h / 2), (h / 2 =? fF s (fF s h) / 2), (fF s h / 2 =? fF s (fF s h) / 2), (Nat.even h), (Nat.even (fF s h)), (Nat.even (fF s (fF s h))); lia.
Qed.
Print Assumptions C42_chains.

(** So the hash values of equal saddle connections differ: the diagonal of a torus, written as a half edge and as a sum of two. *)
Definition diagonal (c : zchain) : sconn ExactZ := mkSconn torus_s 4 5 c.
Theorem C42_hash_refuted : exists (K : ExactReal) n (x y : sconn K), sc_valid n x /\ sc_valid n y /\ sc_half_edge (sc_surface x) (sc_source x) = Ok x /\
  sc_source x = sc_source y /\ sc_target x = sc_target y /\ sc_eqb x y = Ok true /\ sc_hash x <> sc_hash y.
Proof.
  exists ExactZ, 6, (diagonal [0; 0; 1]%Z), (diagonal [-1; -1; 0]%Z).
  assert (V : forall c, length c = 3 -> sc_valid 6 (diagonal c)) by (intros c L; split; [apply torus_flat|]; cbn; repeat split; auto; lia).
  split; [now apply V|]. split; [now apply V|]. split; [reflexivity|]. split; [reflexivity|]. split; [reflexivity|]. split; [reflexivity|].
  intros H. vm_compute in H. discriminate.
Qed.
Print Assumptions C42_hash_refuted.

Example C42_ex : exists x y, sc_half_edge torus_s 4 = Ok x /\ sc_valid 6 x /\ fF (sc_surface x) 0 <> 0 /\ sc_half_edge torus_s 5 = Ok y /\
  sc_vector x = Ok (zv (-1) (-1)) /\ sc_eqb (sc_neg x) y = Ok true /\ sc_eqb x y = Ok false.
Proof.
  exists (diagonal [0; 0; 1]%Z), (mkSconn torus_s 5 4 [0; 0; -1]%Z). split; [reflexivity|]. split; [split; [apply torus_flat|]; cbn; repeat split; auto; lia|].
  split; [cbn; discriminate|]. repeat split; reflexivity.
Qed.

(** ** C55: turning around a vertex *)
(** The angle by which we turn is defined for directions that are given relative to two half edges at the same vertex. *)
Theorem C55_defined : forall (K : ExactReal) n (s : flat K) h g (u v : pt), flat_surface n s -> h < n -> inner_at s h -> same_vertex (fT s) h g ->
  u <> (0, 0)%R -> v <> (0, 0)%R -> sector_contains s h u -> sector_contains s g v -> exists! a, total_turn n s h u g v a.
Proof.
  intros K n s h g u v S Hh In Sv Nu Nv Cu Cv. destruct (total_turn_exists n s S h g u v) as (a & A); auto. exists a. split; auto.
  intros b B. now apply (total_turn_unique n s S h g u v).
Qed.
Print Assumptions C55_defined.

(** [angle] counts how many times pi fits into this angle. *)
Theorem C55_turn : forall (K : ExactReal) n (s : flat K) h g (u v : vec K) a, flat_surface n s -> h < n -> g < n -> inner_at s h ->
  sector_contains s h (vden u) -> sector_contains s g (vden v) -> total_turn n s h (vden u) g (vden v) a ->
  exists k, turn_angle s h u g v = Ok k /\ (INR k * PI <= a < (INR k + 1) * PI)%R.
Proof. intros K n s h g u v a S Hh Hg In Cu Cv T. exact (turn_angle_Ok n s S h g u v a Hh Hg In Cu Cv T). Qed.
Print Assumptions C55_turn.

(** It throws when the half edges do not start at the same vertex. *)
Theorem C55_vertices : forall (K : ExactReal) n (s : flat K) h g (u v : vec K), flat_surface n s -> h < n -> g < n -> ~ same_vertex (fT s) h g ->
  turn_angle s h u g v = Throw.
Proof.
  intros K n s h g u v S Hh Hg N. assert (W := fs_wf n s S). unfold turn_angle.
  destruct (vertex_source_Ok n (fT s) h W Hh) as (x & Ex & _). destruct (vertex_source_Ok n (fT s) g W Hg) as (y & Ey & _). rewrite Ex, Ey. cbn [bind].
  destruct (vertex_eqb x y) eqn:E; auto. exfalso. apply N. eapply vertex_eqb_spec; eauto.
Qed.
Print Assumptions C55_vertices.

(** [SaddleConnection::angle] is this angle in full turns, rounded down. *)
Theorem C55_angle : forall (K : ExactReal) n (x : sconn K) g (v : vec K) a, sc_valid n x -> g < n -> inner_at (sc_surface x) (sc_source x) ->
  sector_contains (sc_surface x) (sc_source x) (sv n x) -> sector_contains (sc_surface x) g (vden v) ->
  total_turn n (sc_surface x) (sc_source x) (sv n x) g (vden v) a ->
  exists k, sc_angle_to x g v = Ok k /\ (INR k * (2 * PI) <= a < (INR k + 1) * (2 * PI))%R.
Proof.
  intros K n x g v a X Hg In Cu Cv T. destruct (sc_vector_Ok n x X) as (w & Ew & Dw). rewrite <- Dw in Cu, T. unfold sc_angle_to. rewrite Ew. cbn [bind].
  destruct (turn_angle_Ok n (sc_surface x) (proj1 X) (sc_source x) g w v a) as (k & -> & B1 & B2); auto; [apply X|]. cbn [bind].
  eexists. split; [reflexivity|]. pose proof PI_RGT_0. pose proof (Nat.div_mod k 2 ltac:(lia)) as D. pose proof (Nat.mod_upper_bound k 2 ltac:(lia)) as M.
  assert (E : INR k = (2 * INR (k / 2) + INR (k mod 2))%R) by (rewrite D at 1; rewrite plus_INR, mult_INR; f_equal; cbn; lra).
  assert (0 <= INR (k mod 2) <= 1)%R by (split; [apply pos_INR|change 1%R with (INR 1); apply le_INR; lia]).
  rewrite E in B1, B2. split; nra.
Qed.
Print Assumptions C55_angle.

(** [SaddleConnection::ccw] compares with half of the total angle at the vertex. *)
Theorem C55_ccw : forall (K : ExactReal) n (x : sconn K) g (v : vec K) a vertex total, sc_valid n x -> g < n -> inner_at (sc_surface x) (sc_source x) ->
  sector_contains (sc_surface x) (sc_source x) (sv n x) -> sector_contains (sc_surface x) g (vden v) ->
  total_turn n (sc_surface x) (sc_source x) (sv n x) g (vden v) a ->
  vertex_source (fT (sc_surface x)) (sc_source x) = Ok vertex -> angle (sc_surface x) vertex = Ok total ->
  (a < 2 * PI * INR total)%R /\
  exists c, sc_ccw_to x g v = Ok c /\
    (c = COLLINEAR <-> a = 0%R \/ a = (PI * INR total)%R) /\
    (c = COUNTERCLOCKWISE <-> (0 < a < PI * INR total)%R) /\
    (c = CLOCKWISE <-> (PI * INR total < a)%R).
Proof.
  intros K n x g v a vertex total X Hg In Cu Cv T Ev Et. destruct (sc_vector_Ok n x X) as (w & Ew & Dw). rewrite <- Dw in Cu, T.
  destruct (X) as (S & Hs & _). set (s := sc_surface x) in *. set (h := sc_source x) in *.
  destruct (turn_angle_Ok n s S h g w v a) as (k & Ek & B1 & B2); auto.
  destruct (T) as (al & ou & ov & j & p & Co & Tu & Tv & Jg & Per & Ea & B). assert (W := fs_wf n s S).
  destruct (vertex_source_Ok n (fT s) h W Hs) as (x1 & Ex1 & Iv & Cx). assert (x1 = vertex) by congruence. subst x1.
  destruct (turned_total n s S h vertex al p total Hs In Iv) as (Tt & Tl); auto; [apply Cx; split; auto; exists 0; auto|].
  rewrite Tt in B. split; [lra|].
  assert (Sv : same_vertex (fT s) h g) by (exists j; auto).
  destruct (vertex_source_Ok n (fT s) g W Hg) as (y & Ey & Iy & Cy).
  assert (y = vertex).
  { assert (C1 : scontains vertex g = true) by (apply Cx; auto). assert (C2 : scontains y g = true) by (apply Cy; split; auto; exists 0; auto).
    apply is_vertex_In in Iv as (i1 & L1 & ->). apply is_vertex_In in Iy as (i2 & L2 & ->).
    destruct (wf_vertices _ _ W) as (_ & _ & X3 & _). now rewrite (X3 i1 i2 g L1 L2 C1 C2). }
  subst y.
  assert (Nw : vden w <> (0, 0)%R). { eapply turn_nonzero; [|apply Tu]. apply (it_nz n s S h Hs In 0). }
  assert (Vu : at_angle (vden w) (vden v) a). { rewrite Ea. eapply (v_at_u s h al Co g j w v ou ov); eauto. }
  destruct (at_angle_det _ _ _ Vu) as (r & Hr & Det & _). apply pdot_pos in Nw as Pw.
  assert (Q : (0 < r * pdot (vden w) (vden w))%R) by nra. set (q := (r * pdot (vden w) (vden w))%R) in *. clearbody q.
  assert (Cl : ccw v w = COLLINEAR <-> sin a = 0%R).
  { destruct (ccw_spec v w) as (_ & C2 & _). rewrite C2. replace (pdet (vden v) (vden w)) with (- pdet (vden w) (vden v))%R by (unfold pdet; ring). rewrite Det. split; intros; nra. }
  pose proof PI_RGT_0 as HP. assert (T1 : (1 <= INR total)%R) by (change 1%R with (INR 1); now apply le_INR).
  unfold sc_ccw_to. fold s h. rewrite Ew. cbn [bind]. rewrite Ek. cbn [bind]. destruct (Nat.eqb_spec k 0) as [->|Nk].
  - cbn [INR] in B1, B2.
    assert (Z : (g =? h) && ccw_eqb (ccw v w) COLLINEAR = true <-> a = 0%R).
    { rewrite andb_true_iff, Nat.eqb_eq, ccw_eqb_spec, Cl. split.
      - intros [_ Sz]. destruct (Req_dec a 0); auto. exfalso. assert (0 < sin a)%R by (apply sin_gt_0; lra). lra.
      - intros Az. split; [|rewrite Az; apply sin_0].
        assert (Gin : fF s g <> g) by (apply In; auto).
        assert (Ou : (ou < al h)%R) by (apply (sector_offset n s S h (vden w) ou (al h)); auto; [apply (In h); exists 0; auto|apply (Co 0)]).
        assert (Ov : (ov < al g)%R).
        { apply (sector_offset n s S g (vden v) ov (al g)); subst g; [now apply it_lt|apply In; now exists j|apply (Co j)|exact Tv|exact Cv]. }
        assert (BB : (0 <= turned s al h j + ov - ou < turned s al h p)%R) by (rewrite Tt; lra).
        destruct (j_bounds n s S h Hs In al Co g j p v ou ov Tv Ou Jg Per BB) as [J|[[J _]|(J & J2 & _)]]; auto.
        + exfalso. assert (turned s al h 1 <= turned s al h j)%R by (destruct j as [|[|j]]; [lia|lra|left; apply (turned_lt n s S h Hs In al Co); lia]).
          assert (turned s al h 1 = al h) by (rewrite turned_S; cbn; lra). destruct Tv. lra.
        + rewrite J in Jg. auto. }
    destruct ((g =? h) && ccw_eqb (ccw v w) COLLINEAR); eexists; (split; [reflexivity|]).
    + assert (a = 0%R) by (now apply Z). split; [|split]; split; intros; try discriminate; auto; exfalso; nra.
    + assert (a <> 0%R) by (intros Q0; apply Z in Q0; discriminate). split; [|split]; split; intros; try discriminate; auto; try (exfalso; nra).
      split; nra.
  - rewrite Ey. cbn [bind]. rewrite Et. cbn [bind].
    assert (K1 : (1 <= INR k)%R) by (change 1%R with (INR 1); apply le_INR; lia).
    destruct (Nat.lt_trichotomy k total) as [L|[L|L]].
    + assert (Kt : (INR k + 1 <= INR total)%R) by (change 1%R with (INR 1); rewrite <- plus_INR; apply le_INR; lia).
      destruct (Nat.eqb_spec k total); [lia|]. cbn [andb]. apply Nat.ltb_lt in L. rewrite L. eexists. split; [reflexivity|].
      split; [|split]; split; intros; try discriminate; auto; try (exfalso; nra). split; nra.
    + subst k. rewrite Nat.eqb_refl. cbn [andb].
      assert (Z : ccw_eqb (ccw v w) COLLINEAR = true <-> a = (PI * INR total)%R).
      { rewrite ccw_eqb_spec, Cl. replace a with (INR total * PI + (a - INR total * PI))%R at 1 by lra. rewrite sin_shift. split.
        - intros Sz. destruct (Req_dec (a - INR total * PI) 0); [lra|]. exfalso.
          assert (0 < sin (a - INR total * PI))%R by (apply sin_gt_0; lra). destruct (Nat.even total); lra.
        - intros ->. replace (PI * INR total - INR total * PI)%R with 0%R by lra. rewrite sin_0. lra. }
      destruct (ccw_eqb (ccw v w) COLLINEAR); [|rewrite Nat.ltb_irrefl]; (eexists; split; [reflexivity|]).
      * assert (a = (PI * INR total)%R) by (now apply Z). split; [|split]; split; intros; try discriminate; auto; exfalso; nra.
      * assert (a <> (PI * INR total)%R) by (intros Q0; apply Z in Q0; discriminate).
        split; [|split]; split; intros; try discriminate; auto; try (exfalso; nra). nra.
    + assert (Kt : (INR total + 1 <= INR k)%R) by (change 1%R with (INR 1); rewrite <- plus_INR; apply le_INR; lia).
      destruct (Nat.eqb_spec k total); [lia|]. cbn [andb]. destruct (Nat.ltb_spec k total); [lia|]. eexists. split; [reflexivity|].
      split; [|split]; split; intros; try discriminate; auto; try (exfalso; nra). nra.
Qed.
Print Assumptions C55_ccw.

(** On a surface with a vertex of angle 6 pi. *)
Lemma L_contains h d : (h < 18) -> vden d <> (0, 0)%R -> in_sector_at L_s h d = Ok true -> sector_contains L_s h (vden d).
Proof.
  intros Hh Nd E. destruct L_flat as (_ & S & C). destruct (C25_in_sector _ 18 L_s h d S Hh (C h Hh) Nd) as (b & Eb & B). apply B. congruence.
Qed.
Example C55_ex : exists x, sc_half_edge L_s 0 = Ok x /\ sc_valid 18 x /\ inner_at (sc_surface x) (sc_source x) /\
  sector_contains (sc_surface x) (sc_source x) (sv 18 x) /\ sector_contains (sc_surface x) 15 (vden (zv (-2) (-3))) /\
  (exists a, total_turn 18 (sc_surface x) (sc_source x) (sv 18 x) 15 (vden (zv (-2) (-3))) a) /\
  turn_angle L_s 0 (zv 1 0) 15 (zv (-2) (-3)) = Ok 1 /\ turn_angle L_s 0 (zv 2 1) 0 (zv 3 1) = Ok 5 /\ sc_angle_to x 5 (zv (-1) 0) = Ok 1 /\
  vertex_source (fT L_s) 0 = Ok (repeat true 18) /\ angle L_s (repeat true 18) = Ok 3 /\
  sc_ccw_to x 15 (zv (-2) (-3)) = Ok COUNTERCLOCKWISE /\ sc_ccw_to x 5 (zv (-1) 0) = Ok COLLINEAR /\ sc_ccw_to x 13 (zv (-1) (-1)) = Ok CLOCKWISE /\
  turn_angle torus_s 0 (zv 1 0) 1 (zv (-1) 0) = Ok 1 /\ turn_angle torus_s 0 (zv 2 1) 5 (zv 3 3) = Ok 0.
Proof.
  destruct L_flat as (_ & S & C). assert (I0 : inner_at L_s 0) by (apply L_inner; lia).
  eexists. split; [reflexivity|]. match goal with |- sc_valid 18 ?y /\ _ => set (x := y) end.
  assert (X : sc_valid 18 x) by (split; [exact S|]; cbn; repeat split; auto; lia). split; [exact X|]. split; [exact I0|].
  assert (V : sv 18 x = vden (zv 1 0)).
  { destruct (sc_vector_Ok 18 x X) as (v & E & D). change (sc_vector x) with (Ok (zv 1 0)) in E. rewrite <- D. congruence. }
  assert (N1 : vden (zv 1 0) <> (0, 0)%R) by (intros E; apply (f_equal fst) in E; cbn in E; lra).
  assert (N2 : vden (zv (-2) (-3)) <> (0, 0)%R) by (intros E; apply (f_equal fst) in E; cbn in E; lra).
  assert (C1 : sector_contains L_s 0 (vden (zv 1 0))) by (apply L_contains; auto; lia).
  assert (C2 : sector_contains L_s 15 (vden (zv (-2) (-3)))) by (apply L_contains; auto; lia).
  split; [rewrite V; exact C1|]. split; [exact C2|]. split.
  { rewrite V. apply (total_turn_exists 18 L_s S 0 15); auto; [lia|]. exists 4. reflexivity. }
  repeat split; reflexivity.
Qed.
