(** * Moving a vertex along a vector *)
From Coq Require Import ZArith Reals List Arith Bool Lia Lra Psatz Relations.
From Verif Require Import Base HalfEdge HalfEdgeFacts Perm PermSpec PermFacts PermCycles IndexedSet Combinatorial CombinatorialSpec
  CombinatorialFacts CombinatorialHistory CombinatorialOps ExactReal Vector PlaneSpec Plane VectorFacts
  FlatTri FlatSpec FlatFacts FlatSum FlatAngle FlatSector Chain ChainSpec ChainFacts Saddle SaddleSpec SaddleFacts
  Search SearchSpec SearchMoves SearchPlane SearchDepth SearchRun SearchAll Point PointSpec PointFacts PointOps PointPlane
  Translate TranslateSpec TranslateRun TranslateFacts.
Import ListNotations.
Local Open Scope R_scope.

Lemma filter_seq {A} (f : nat -> A) (p : A -> bool) h n : (h < n)%nat -> (forall x, p (f x) = (x =? h)%nat) -> filter p (map f (seq 0 n)) = [f h].
Proof.
  intros Hh E. assert (G : forall a m, filter p (map f (seq a m)) = if (a <=? h)%nat && (h <? a + m)%nat then [f h] else []).
  { intros a m. revert a. induction m as [|m IH]; intros a; cbn [seq map filter].
    - destruct (Nat.leb_spec a h), (Nat.ltb_spec h (a + 0)); auto; lia.
    - rewrite E, IH. destruct (Nat.eqb_spec a h), (Nat.leb_spec a h), (Nat.leb_spec (Datatypes.S a) h), (Nat.ltb_spec h (Datatypes.S a + m)), (Nat.ltb_spec h (a + Datatypes.S m)); cbn [andb]; try (exfalso; lia); subst; auto. }
  rewrite G. destruct (Nat.leb_spec 0 h), (Nat.ltb_spec h (0 + n)); auto; lia.
Qed.

Section move.
Context {K : ExactReal} (truediv : K -> K -> option K) (n : nat) (s : flat K).
Hypothesis S0 : flat_surface n s.
Hypothesis Cl : closed_surface n s.
Hypothesis Dv : exact_division truediv.
Let W := fs_wf n s S0.

Lemma across_corner h : (h < n)%nat -> padd (vv s h) (vv s (fF s h)) = vv s (fV s h).
Proof.
  intros Hh. rewrite (vv_fV n) by (auto; now apply Cl). destruct (fs_flat n s S0 h Hh (Cl h Hh)) as [Z _]. destruct (vv s h), (vv s (fF s h)), (vv s (fF s (fF s h))). unfold padd, pneg in *; cbn [fst snd] in *. injection Z as Z1 Z2. apply pt_eq; cbn [fst snd]; lra.
Qed.

(** The search in the sector at [h]. *)
Lemma search_begins h : (h < n)%nat -> let cs := cn_sector_at (make_conns s) h in
  exists m c0 c1, (forall k, search_begin cs (Datatypes.S k) = Ok m) /\ length c0 = (n / 2)%nat /\ length c1 = (n / 2)%nat /\ cvector n s c0 = vv s h /\ cvector n s c1 = vv s (fV s h) /\
    opening n cs (mkSsector h None) [] m (BChain c0) (BChain c1) (vv s h, fF s h) /\ node_ok s false (vv s h) (fF s h) (cvector n s c0) (cvector n s c1) /\
    sdereference cs m = sc_half_edge s h /\ skip_sector CLOCKWISE m = Ok m.
Proof.
  intros Hh cs. set (u := vv s h). set (q := vv s (fV s h)). set (z := vv s (fF s h)).
  assert (Hf : (fF s h < n)%nat) by now apply (fF_lt n). assert (Nb := Cl h Hh).
  assert (Es : cn_sectors cs = [mkSsector h None]).
  { unfold cs, cn_sector_at, make_conns, set_sectors. cbn [cn_sectors]. unfold half_edges. rewrite (wf_size n _ W). apply (filter_seq (fun h => mkSsector h None)); auto. }
  destruct (zc_half_edge_Ok n s S0 h Hh) as (c0 & Ec0 & Lc0 & Dc0).
  destruct (zc_add_he_Ok n s S0 c0 (fF s h) Lc0 Hf) as (c1 & Ec1 & Lc1 & Dc1 & _). rewrite Dc0 in Dc1. fold u z in Dc0, Dc1.
  assert (Eq := across_corner h Hh). fold u z q in Eq. rewrite Eq in Dc1.
  assert (Duq : 0 < pdet u q) by now apply (corner_det n).
  assert (Hu : 0 < pdet u z) by (replace (pdet u z) with (pdet u (padd u z)) by (unfold pdet, padd; cbn; ring); rewrite Eq; auto).
  assert (Nu : u <> (0, 0)) by (apply (pdet_nonzero_l _ z); lra). 
  assert (Ev : from_he s h = Ok (vat' s h)) by (apply from_he_Ok; rewrite (fs_length n s S0); auto).
  set (x := mkSsector h (@None (vec K * vec K))).
  set (m1 := mkIter [x] (BChain c0) (BChain c1) (fF s h) c1 [START None None; END] [] []).
  exists m1, c0, c1. split; [|split; auto; split; auto; split; auto; split; auto; split; [|split]].
  - intros k. unfold search_begin. rewrite Es. cbn [prepare it_sectors sec_source]. rewrite (bdry_Ok n) by auto. cbn [bind]. fold (fF s h).
    change (cn_surface cs) with s. fold (fF s h). rewrite (proj2 (Nat.eqb_neq (fF s h) h) Nb). unfold prepared. cbn [sec_source]. change (cn_surface cs) with s. rewrite Ec0. cbn [bind]. rewrite (next_Ok n) by auto. cbn [bind]. fold (fF s h). rewrite Ec1. cbn [bind]. rewrite Ev. cbn [bind].
    unfold sec_contains. cbn [sec_source sec_sector]. rewrite Nat.eqb_refl. cbn [negb bind]. change (cn_radius cs) with (@None bound). change (cn_lower cs) with 0%Z.
    assert (V : vgtb (vat' s h) 0%Z = true). { apply vgtb_spec; [lia|]. change (vden (vat' s h)) with u. now apply pdot_pos. }
    rewrite V. reflexivity.
  - apply (conf_opening n cs S0 Cl eq_refl x [] m1 (u, fF s h) c0 c1 None None [END] []); auto; try apply calm_None. apply settled_conf. exists c1. cbn [snd fst]. split; auto.
    split; auto. split; auto. change (cvector n s c1 = padd u z). congruence.
  - unfold node_ok. rewrite Dc0, Dc1. fold z. rewrite Eq. assert (Zu : pdet u u = 0) by (unfold pdet; ring). assert (Zq : pdet q q = 0) by (unfold pdet; ring).
    assert (Nq : q <> (0, 0)) by (apply (pdet_nonzero_r u); lra). repeat apply conj; auto; try lra; discriminate.
  - split; reflexivity.
Qed.
Lemma search_starts h : (h < n)%nat -> let cs := cn_sector_at (make_conns s) h in
  exists m c0 c1, (forall k, search_begin cs (Datatypes.S k) = Ok m) /\ length c0 = (n / 2)%nat /\ length c1 = (n / 2)%nat /\ cvector n s c0 = vv s h /\ cvector n s c1 = vv s (fV s h) /\
    opening n cs (mkSsector h None) [] m (BChain c0) (BChain c1) (vv s h, fF s h) /\ node_ok s false (vv s h) (fF s h) (cvector n s c0) (cvector n s c1).
Proof. intros Hh. cbv zeta. destruct (search_begins h Hh) as (m & c0 & c1 & A & B & C & D & E & F & G & _). exists m, c0, c1. repeat (split; [assumption|]). assumption. Qed.

(** ** Vertices *)
Definition at_vertex (p : point K) : Prop := (pface p < n)%nat /\ 0 < den (pa p) /\ den (pb p) = 0 /\ den (pc p) = 0.
Lemma at_vertex_nz p : at_vertex p -> nz (pc p) = false /\ nz (pb p) = false.
Proof. intros (_ & _ & B & C). split; now apply nz_false. Qed.
Lemma contains_signs h v : (h < n)%nat -> v <> (0, 0) -> sector_contains s h v <-> 0 <= pdet (vv s h) v /\ 0 < pdet v (vv s (fV s h)).
Proof.
  intros Hh Nv. rewrite (contains_hits n) by auto. unfold FlatAngle.hits. assert (pdet (vv s (fV s h)) v = - pdet v (vv s (fV s h))) by (unfold pdet; ring).
  destruct (Rle_dec 0 (pdet (vv s h) v)), (Rlt_dec (pdet (vv s (fV s h)) v) 0); split; intros Q; try discriminate; auto; try (exfalso; lra); lra.
Qed.
Lemma face_for_vertex p d : at_vertex p -> 0 <= pdet (vv s (pface p)) (vden d) -> 0 < pdet (vden d) (vv s (fV s (pface p))) -> face_for s p d = Ok p.
Proof.
  intros A P1 P2. destruct (at_vertex_nz p A) as [Ec Eb]. destruct A as (Hh & _). unfold face_for. rewrite Ec, Eb.
  rewrite from_he_Ok by (rewrite (fs_length n s S0); auto). cbn [bind]. rewrite (nextV_Ok n) by auto. cbn [bind]. rewrite from_he_Ok by (rewrite (fs_length n s S0); now apply (fV_lt n)). cbn [bind].
  pose proof (ccw_cases (vat' s (pface p)) d) as C1. pose proof (ccw_cases (vat' s (nV (fT s) (pface p))) d) as C2. change (vden (vat' s (pface p))) with (vv s (pface p)) in C1. change (vden (vat' s (nV (fT s) (pface p)))) with (vv s (fV s (pface p))) in C2.
  rewrite pdet_swap in P2. destruct (ccw (vat' s (pface p)) d), (ccw (vat' s (nV (fT s) (pface p))) d); auto; exfalso; lra.
Qed.
Lemma translate_vertex p d : at_vertex p -> 0 <= pdet (vv s (pface p)) (vden d) -> 0 < pdet (vden d) (vv s (fV s (pface p))) ->
  (forall w, weights w -> place s (pface p) w = vden d -> exists q, translate truediv s p d = Ok (Some q) /\ normal n q /\ same_point n s (location q) (pface p, w)) /\
  ((forall w, weights w -> place s (pface p) w <> vden d) -> translate truediv s p d = Ok None).
Proof.
  intros A P1 P2. unfold translate. rewrite face_for_vertex by auto. cbn [bind]. destruct A as (Hh & A & B & C).
  assert (Pl : place s (pface p) (den (pa p), den (pb p), den (pc p)) = (0, 0)) by (rewrite B, C; unfold place, padd, pscale; apply pt_eq; cbn [fst snd]; field; lra).
  destruct (cartesian_ok n s S0 Cl truediv Dv p Hh) as [(v0 & Ev & Dv0)|(_ & X)]; [lra| |exfalso; apply (X vzero); rewrite Pl; unfold vden, vzero; cbn [vx vy]; now rewrite den_ofZ].
  rewrite Ev. cbn [bind]. rewrite Pl in Dv0. set (z := vadd v0 d). assert (Dz : vden z = vden d) by (unfold z; rewrite vadd_den, Dv0; destruct (vden d); unfold padd; apply pt_eq; cbn [fst snd]; ring).
  destruct (barycentric_ok n s S0 Cl (pface p) z Hh) as ([[a b] c'] & Eb & Sb & Pb). cbn [tden] in Sb, Pb. rewrite Eb. cbn [bind].
  assert (Ar := area_pos n s S0 Cl _ Hh). unfold sum3 in Sb. rewrite <- Sb in Ar. rewrite Dz in Pb. split.
  - intros w Ww Ew. destruct (place_point n s S0 Cl (pface p) z Hh) as (a' & b' & c'' & Eb' & Ww' & _); [exists w; split; auto; now rewrite Dz|].
    rewrite Eb in Eb'. injection Eb' as <- <- <-. pose proof Ww' as (Q1 & Q2 & Q3 & _). apply nonneg_spec in Q1, Q2, Q3. rewrite Q1, Q2, Q3. cbn [andb].
    destruct (normalize_ok n s S0 Cl (mkPoint (pface p) a b c') Hh Ww') as (q & Eq & Nq & Tq). rewrite Eq. cbn [bind]. exists q. split; auto. split; auto.
    apply (sp_trans n s _ (pface p, (den a, den b, den c'))); [apply sp_sym, (turned_sp n s S0 (mkPoint (pface p) a b c') q); auto|].
    destruct w as [[a1 b1] c1]. pose proof Ww as (_ & _ & _ & Q). 
    destruct (place_unique n s S0 Cl (pface p) (den a) (den b) (den c') a1 b1 c1 Hh ltac:(lra) ltac:(lra)) as (X1 & X2 & X3); [congruence|].
    apply (sp_prop n s (pface p)); auto; lra.
  - intros Nf. destruct (nonneg a && nonneg b && nonneg c') eqn:Nn; auto. exfalso. apply andb_true_iff in Nn as [Nn N3]. apply andb_true_iff in Nn as [N1 N2]. apply nonneg_spec in N1, N2, N3.
    apply (Nf (den a, den b, den c')); auto. unfold weights; lra.
Qed.

(** ** Marked points *)
Lemma angle_marked h : (h < n)%nat -> exists v k, vertex_source (fT s) h = Ok v /\ angle s v = Ok k /\ (k = 1%nat <-> marked n s h).
Proof.
  intros Hh. destruct (vertex_source_Ok n _ h W Hh) as (v & Ev & I & M). assert (Iv : inner_vertex s v) by (intros x Cx; apply M in Cx; now apply Cl).
  assert (Mb : forall x, In x (members n v) <-> (x < n)%nat /\ same_vertex (fT s) h x) by (intros x; rewrite members_In, M; tauto).
  destruct (cover n s v (1, 0) S0 I Iv) as (k & l0 & Ek & Nd0 & L0 & M0); [intros X; injection X; lra|]. exists v, k. split; auto. split; auto. split.
  - intros -> d Hd. destruct (cover n s v d S0 I Iv Hd) as (k & l & Ek' & _ & Ll & Ml). rewrite Ek in Ek'. injection Ek' as <-. destruct l as [|x [|y l]]; cbn in Ll; try lia.
    exists x. split; [assert (J := proj1 (Ml x) (or_introl eq_refl)); rewrite Mb in J; tauto|]. intros y (Y1 & Y2 & Y3). assert (J : In y [x]) by (apply Ml; rewrite Mb; tauto). destruct J as [J|[]]; auto.
  - intros Mk. destruct (Mk (1, 0)) as (x & (X1 & X2 & X3) & U); [intros X; injection X; lra|]. subst k. 
    assert (Al : forall y, In y l0 -> y = x) by (intros y J; apply M0 in J as [J1 J2]; apply Mb in J1; symmetry; apply U; tauto).
    assert (Jx : In x l0) by (apply M0; rewrite Mb; tauto). destruct l0 as [|a [|b l0]]; [destruct Jx|reflexivity|]. exfalso. inversion Nd0 as [|? ? Na _]. apply Na. left. rewrite (Al a), (Al b) by (cbn; auto). reflexivity.
Qed.
Lemma face_toward_ok (d : vec K) g g' : (g < n)%nat -> (g' < n)%nat -> same_vertex (fT s) g g' -> vden d <> (0, 0) -> sector_contains s g' (vden d) ->
  (forall x, (x < n)%nat -> same_vertex (fT s) g x -> sector_contains s x (vden d) -> x = g') -> exists N, forall fuel, (N <= fuel)%nat -> face_toward fuel s d g = Ok g'.
Proof.
  intros Hg Hg' [k Ek] Nd Sc. revert g Hg Ek. induction k as [|k IH]; intros g Hg Ek U.
  - cbn in Ek. subst g. exists 1%nat. intros [|fuel] Lf; [lia|]. cbn [face_toward]. rewrite (in_sector_at_Ok n) by auto. cbn [bind]. apply (contains_hits n) in Sc; auto. now rewrite Sc.
  - destruct (FlatAngle.hits (vden d) (vv s g) (vv s (fV s g))) eqn:E.
    + exists 1%nat. intros [|fuel] Lf; [lia|]. cbn [face_toward]. rewrite (in_sector_at_Ok n), E by auto. cbn [bind]. rewrite (U g); auto; [exists 0%nat; reflexivity|]. apply (contains_hits n); auto.
    + destruct (IH (fV s g)) as [N HN]; [now apply (fV_lt n)|now rewrite iter_S' in Ek| |].
      * intros x Hx [j Ej] Sx. apply U; auto. exists (Datatypes.S j). now rewrite iter_S'.
      * exists (Datatypes.S N). intros [|fuel] Lf; [lia|]. cbn [face_toward]. rewrite (in_sector_at_Ok n), E by auto. cbn [bind]. rewrite (nextV_Ok n) by auto. cbn [bind]. apply HN. lia.
Qed.

Lemma marked_same g g' : (g < n)%nat -> (g' < n)%nat -> same_vertex (fT s) g g' -> marked n s g -> marked n s g'.
Proof.
  intros Hg Hg' Sv M d Hd. destruct (M d Hd) as (x & (X1 & X2 & X3) & U). exists x. split.
  - split; auto. split; auto. apply (same_vertex_trans _ _ g); auto. now apply (same_vertex_sym n).
  - intros y (Y1 & Y2 & Y3). apply U. split; auto. split; auto. now apply (same_vertex_trans _ _ g').
Qed.
Lemma hits_target p h u g : hits s p h u g -> (h < n)%nat -> (g < n)%nat.
Proof.
  induction 1 as [p h Nb Cr|p h u g Nb Cr H IH|p h u g Nb Cr H IH]; intros Hh; assert (Hn : (neg h < n)%nat) by (now apply (neg_ltn n (fT s) W)); try apply IH; repeat apply (fF_lt n); auto.
Qed.
(** The vertex that was hit. *)
Lemma vertex_point g : (g < n)%nat -> exists v q k, vertex_source (fT s) g = Ok v /\ make_point_vertex s v = Ok q /\ at_vertex q /\ same_vertex (fT s) g (pface q) /\
  point_angle s q = Ok k /\ (k = 1%nat <-> marked n s g).
Proof.
  intros Hg. destruct (vertex_source_Ok n _ g W Hg) as (v & Ev & I & M). assert (Cg : scontains v g = true) by (apply M; split; auto; exists 0%nat; reflexivity).
  destruct (sbegin_first v g Cg) as [Cb _]. apply M in Cb as [Hb Sb]. set (q := mkPoint (sbegin v) (rofZ 1 : K) (rofZ 0) (rofZ 0)).
  assert (A : at_vertex q) by (unfold at_vertex, q; cbn [pface pa pb pc]; rewrite !den_ofZ; split; auto; split; auto; lra).
  destruct (angle_marked (sbegin v) Hb) as (v' & k & Ev' & Ek & Mk). exists v, q, k. split; auto. split; [|split; auto; split; auto; split].
  - unfold make_point_vertex, make_point. apply (normalize_normal n s S0 Cl). destruct A as (A1 & A2 & A3 & A4). unfold normal. fold q. split; auto. lra.
  - unfold point_angle, point_vertex. destruct (at_vertex_nz q A) as [-> ->]. cbn [orb bind pface q]. rewrite Ev'. cbn [bind]. exact Ek.
  - rewrite Mk. split; apply marked_same; auto. now apply (same_vertex_sym n).
Qed.
Lemma hits_outside h u g k w : (h < n)%nat -> hits s (vv s h) (fF s h) u g -> 0 < k -> weights w -> place s h w <> pscale (1 + k) u.
Proof.
  intros Hh H Hk Ww E. assert (Eq := across_corner h Hh). assert (D : 0 < pdet (vv s h) (padd (vv s h) (vv s (fF s h)))) by (rewrite Eq; apply (corner_det n); auto).
  pose proof (hits_beyond n s S0 _ _ _ _ H (fF_lt n s _ S0 Hh) D) as B. set (x := vv s h) in *. set (z := vv s (fF s h)) in *.
  destruct w as [[a b] c]. destruct Ww as (Q1 & Q2 & Q3 & Q4). unfold place in E. fold x z in E.
  assert (Dz : pdet (pscale (a + b + c) (pscale (1 + k) u)) z = (b + c) * pdet x (padd x z)).
  { rewrite <- E. unfold pdet, pscale, padd; cbn [fst snd]. field. lra. }
  replace (pdet (pscale (a + b + c) (pscale (1 + k) u)) z) with ((a + b + c) * ((1 + k) * pdet u z)) in Dz by (unfold pdet, pscale; cbn; ring).
  set (t := a + b + c) in *. assert (Bt : 0 <= b + c <= t) by (unfold t; lra). set (X := pdet x (padd x z)) in *. set (U := pdet u z) in *. clearbody t X U. clear - Q4 Hk B D Dz Bt.
  assert ((b + c) * X <= t * X) by (apply Rmult_le_compat_r; lra). assert (t * X < t * U) by (apply Rmult_lt_compat_l; lra). assert (0 < t * U * k) by (repeat apply Rmult_lt_0_compat; lra). lra.
Qed.

Lemma move_trace h p d (P : point K + halfedge * vec K -> Prop) : at_vertex p -> pface p = h -> vden d <> (0, 0) -> sector_contains s h (vden d) -> (forall w, weights w -> place s h w <> vden d) ->
  (forall m c0 c1, length c0 = (n / 2)%nat -> length c1 = (n / 2)%nat -> cvector n s c0 = vv s h -> cvector n s c1 = vv s (fV s h) ->
    opening n (cn_sector_at (make_conns s) h) (mkSsector h None) [] m (BChain c0) (BChain c1) (vv s h, fF s h) -> node_ok s false (vv s h) (fF s h) (cvector n s c0) (cvector n s c1) ->
    result (cn_sector_at (make_conns s) h) d m P) ->
  exists R N, P R /\ forall k, (N <= k)%nat -> move_point truediv (Datatypes.S k) s p d = match R with
    | inl q => Ok (Some q)
    | inr (target, e) =>
        do v <- vertex_source (fT s) target;
        do q <- make_point_vertex s v;
        do alpha <- point_angle s q;
        if negb (alpha =? 1)%nat then Throw else
        do h <- face_toward k s e (pface q);
        move_point truediv k s (mkPoint h (pa q) (pb q) (pc q)) e
    end.
Proof.
  intros A Eh Nv Sc Nf H. assert (Hh : (h < n)%nat) by (subst h; apply A). apply contains_signs in Sc as [P1 P2]; auto.
  destruct (search_starts h Hh) as (m & c0 & c1 & Em & L0 & L1 & D0 & D1 & Op & Nd). destruct (H m c0 c1 L0 L1 D0 D1 Op Nd) as (R & PR & N & HN).
  exists R, (N + 1)%nat. split; auto. intros k Lk. cbn [move_point]. subst h. rewrite (proj2 (translate_vertex p d A P1 P2) Nf). cbn [bind]. rewrite face_for_vertex by auto. cbn [bind].
  destruct (at_vertex_nz p A) as [Ec Eb]. rewrite Ec, Eb. cbn [orb]. destruct k as [|k]; [lia|]. rewrite Em. cbn [bind]. rewrite HN by lia. reflexivity.
Qed.

Lemma move_ends h v r : ends_at n s h v r -> forall p d, at_vertex p -> pface p = h -> vden d = v -> v <> (0, 0) -> sector_contains s h v ->
  exists q, normal n q /\ same_point n s (location q) r /\ exists N, forall fuel, (N <= fuel)%nat -> move_point truediv fuel s p d = Ok (Some q).
Proof.
  induction 1 as [h v w Ww Ew|h v r left Nf Hl G|h u g k g' r Hk H Mg Hg' Sg Sc E IH]; intros p d A Eh Ev Nv Scv; assert (Hh : (h < n)%nat) by (subst h; apply A).
  - pose proof Scv as Sc. apply contains_signs in Sc as [P1 P2]; auto. rewrite <- Ev in P1, P2, Ew. rewrite <- Eh in P1, P2, Ew |- *. destruct (proj1 (translate_vertex p d A P1 P2) w Ww Ew) as (q & Eq & Nq & Sq).
    exists q. split; auto. split; auto. exists 1%nat. intros [|fuel] Lf; [lia|]. cbn [move_point]. rewrite Eq. reflexivity.
  - subst v. destruct (move_trace h p d (fun R => match R with inl q => normal n q /\ same_point n s (location q) r | inr _ => False end) A Eh Nv Scv Nf) as (R & N & PR & HN).
    + intros m c0 c1 L0 L1 D0 D1 Op Nd. apply contains_signs in Scv as [P1 P2]; auto.
      apply (trace_goes n (cn_sector_at (make_conns s) h) S0 Cl eq_refl (mkSsector h None) [] d left (vv s h) (fF s h) r G m c0 c1); auto; [now apply (fF_lt n)| |]; change (cn_surface (cn_sector_at (make_conns s) h)) with s; [rewrite D0|rewrite D1]; auto.
    + destruct R as [q|]; [|destruct PR]. destruct PR as [Nq Sq]. exists q. split; auto. split; auto. exists (Datatypes.S N). intros [|fuel] Lf; [lia|]. apply HN. lia.
  - pose proof (hits_crosses s _ _ _ _ H) as [X1 X2]. rewrite across_corner in X2 by auto.
    assert (Hg := hits_target _ _ _ _ H (fF_lt n s _ S0 Hh)). rewrite <- Ev in Nv, Scv.
    destruct (move_trace h p d (fun R => match R with inl _ => False | inr (t, y) => t = g /\ vden y = pscale k u end) A Eh Nv Scv) as (R & N & PR & HN).
    + intros w Ww. rewrite Ev. eapply hits_outside; eauto.
    + intros m c0 c1 L0 L1 D0 D1 Op Nd.
      apply (trace_hits n (cn_sector_at (make_conns s) h) S0 Cl eq_refl (mkSsector h None) [] d k (vv s h) (fF s h) u g H Ev Hk m c0 c1); auto; [now apply (fF_lt n)| |]; change (cn_surface (cn_sector_at (make_conns s) h)) with s; [rewrite D0|rewrite D1]; auto.
    + destruct R as [|[t y]]; [destruct PR|]. destruct PR as [-> Ey]. assert (Nu : u <> (0, 0)) by (apply (pdet_nonzero_r (vv s h)); lra). assert (Nk : pscale k u <> (0, 0)). { intros Z. apply Nu. destruct u as [x1 y1]. unfold pscale in Z; cbn in Z. injection Z as Z1 Z2. apply pt_eq; cbn; nra. }
      destruct (vertex_point g Hg) as (vt & q0 & al & E1 & E2 & A0 & S1 & E3 & Ma). pose proof (proj2 Ma Mg) as Eal. subst al. assert (Hq := proj1 A0).
      destruct (face_toward_ok y (pface q0) g' Hq Hg') as [N1 HN1]; [|now rewrite Ey|now rewrite Ey| |].
      * apply (same_vertex_trans _ _ g); auto. now apply (same_vertex_sym n).
      * rewrite Ey. intros x Hx Sx Cx. destruct (Mg (pscale k u) Nk) as (z & _ & U). rewrite <- (U g'), <- (U x); auto. split; auto. split; auto. now apply (same_vertex_trans _ _ (pface q0)).
      * destruct (IH (mkPoint g' (pa q0) (pb q0) (pc q0)) y) as (q & Nq & Sq & N2 & HN2); auto; [split; auto; apply A0|].
        exists q. split; auto. split; auto. exists (Datatypes.S (N + N1 + N2)). intros [|fuel] Lf; [lia|]. rewrite HN by lia. rewrite E1. cbn [bind]. rewrite E2. cbn [bind]. rewrite E3. cbn [bind Nat.eqb negb]. rewrite HN1 by lia. cbn [bind]. apply HN2. lia.
Qed.

Lemma move_blocked h v : blocked n s h v -> forall p d, at_vertex p -> pface p = h -> vden d = v -> v <> (0, 0) -> sector_contains s h v ->
  exists N, forall fuel, (N <= fuel)%nat -> move_point truediv fuel s p d = Throw.
Proof.
  assert (St : forall h u g k p d, 0 < k -> hits s (vv s h) (fF s h) u g -> at_vertex p -> pface p = h -> vden d = pscale (1 + k) u -> vden d <> (0, 0) -> sector_contains s h (vden d) ->
    (g < n)%nat /\ pscale k u <> (0, 0) /\ exists N y, vden y = pscale k u /\ forall j, (N <= j)%nat -> move_point truediv (Datatypes.S j) s p d = 
        do v <- vertex_source (fT s) g;
        do q <- make_point_vertex s v;
        do alpha <- point_angle s q;
        if negb (alpha =? 1)%nat then Throw else
        do h <- face_toward j s y (pface q);
        move_point truediv j s (mkPoint h (pa q) (pb q) (pc q)) y).
  { clear h v. intros h u g k p d Hk H A Eh Ev Nv Scv. assert (Hh : (h < n)%nat) by (subst h; apply A). pose proof (hits_crosses s _ _ _ _ H) as [X1 X2]. rewrite across_corner in X2 by auto.
    split; [apply (hits_target _ _ _ _ H (fF_lt n s _ S0 Hh))|]. split.
    { assert (Nu : u <> (0, 0)) by (apply (pdet_nonzero_r (vv s h)); lra). intros Z. apply Nu. destruct u as [x1 y1]. unfold pscale in Z; cbn in Z. injection Z as Z1 Z2. apply pt_eq; cbn; nra. }
    destruct (move_trace h p d (fun R => match R with inl _ => False | inr (t, y) => t = g /\ vden y = pscale k u end) A Eh Nv Scv) as (R & N & PR & HN).
    + intros w Ww. rewrite Ev. eapply hits_outside; eauto.
    + intros m c0 c1 L0 L1 D0 D1 Op Nd.
      apply (trace_hits n (cn_sector_at (make_conns s) h) S0 Cl eq_refl (mkSsector h None) [] d k (vv s h) (fF s h) u g H Ev Hk m c0 c1); auto; [now apply (fF_lt n)| |]; change (cn_surface (cn_sector_at (make_conns s) h)) with s; [rewrite D0|rewrite D1]; auto.
    + destruct R as [|[t y]]; [destruct PR|]. destruct PR as [-> Ey]. exists N, y. auto. }
  induction 1 as [h u g k Hk H Mg|h u g k g' Hk H Mg Hg' Sg Sc B IH]; intros p d A Eh Ev Nv Scv; rewrite <- Ev in Nv, Scv; destruct (St h u g k p d Hk H A Eh Ev Nv Scv) as (Hg & Nk & N & y & Ey & HN);
    destruct (vertex_point g Hg) as (vt & q0 & al & E1 & E2 & A0 & S1 & E3 & Ma).
  - exists (Datatypes.S N). intros [|fuel] Lf; [lia|]. rewrite HN by lia. rewrite E1. cbn [bind]. rewrite E2. cbn [bind]. rewrite E3. cbn [bind]. destruct (Nat.eqb_spec al 1) as [Z|_]; auto. exfalso. tauto.
  - pose proof (proj2 Ma Mg) as Eal. subst al. assert (Hq := proj1 A0). destruct (face_toward_ok y (pface q0) g' Hq Hg') as [N1 HN1]; [|now rewrite Ey|now rewrite Ey| |].
    + apply (same_vertex_trans _ _ g); auto. now apply (same_vertex_sym n).
    + rewrite Ey. intros x Hx Sx Cx. destruct (Mg (pscale k u) Nk) as (z & _ & U). rewrite <- (U g'), <- (U x); auto. split; auto. split; auto. now apply (same_vertex_trans _ _ (pface q0)).
    + destruct (IH (mkPoint g' (pa q0) (pb q0) (pc q0)) y) as (N2 & HN2); auto; [split; auto; apply A0|].
      exists (Datatypes.S (N + N1 + N2)). intros [|fuel] Lf; [lia|]. rewrite HN by lia. rewrite E1. cbn [bind]. rewrite E2. cbn [bind]. rewrite E3. cbn [bind Nat.eqb negb]. rewrite HN1 by lia. cbn [bind]. apply HN2. lia.
Qed.
End move.
