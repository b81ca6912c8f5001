(** * Property C69: points that stay in a face *)
From Coq Require Import ZArith Reals List Arith Bool Lia Lra Psatz Relations.
From Verif Require Import Base HalfEdge HalfEdgeFacts Perm PermSpec PermFacts PermCycles IndexedSet Combinatorial CombinatorialSpec
  CombinatorialFacts CombinatorialHistory CombinatorialOps CombinatorialInsert ExactReal Vector PlaneSpec Plane VectorFacts VectorProps
  FlatTri FlatSpec FlatFacts FlatProps FlatSum FlatAngle FlatAngleProps FlatSector
  Search SearchSpec SearchMoves SearchPlane SearchDepth SearchRun Point PointSpec PointFacts PointOps PointPlane PointProps
  ChainFacts Translate TranslateSpec TranslateMove TranslateTotal TranslateProps.
Import ListNotations.
Local Open Scope R_scope.

(** A point that is not a vertex has the weights [w] in the face at [f]: it is in one face, or on the edge between two faces. *)
Definition seen_from {K : ExactReal} (p : point K) (f : nat) (w : R * R * R) : Prop :=
  (f = pface p /\ w = (den (pa p), den (pb p), den (pc p))) \/ (den (pc p) = 0 /\ f = neg (pface p) /\ w = (den (pb p), den (pa p), 0)).

Section stay.
Context {K : ExactReal} (truediv : K -> K -> option K) (n : nat) (s : flat K).
Hypothesis S0 : flat_surface n s.
Hypothesis Cl : closed_surface n s.
Hypothesis Dv : exact_division truediv.
Let W := fs_wf n s S0.

Lemma translate_stays p p' d (v0 : vec K) w : face_for s p d = Ok p' -> (pface p' < n)%nat -> weights (den (pa p'), den (pb p'), den (pc p')) ->
  vden v0 = place s (pface p') (den (pa p'), den (pb p'), den (pc p')) -> weights w ->
  place s (pface p') w = padd (place s (pface p') (den (pa p'), den (pb p'), den (pc p'))) (vden d) ->
  exists q, translate truediv s p d = Ok (Some q) /\ normal n q /\ same_point n s (location q) (pface p', w).
Proof.
  intros Ef Hh Wp Ev0 Ww Ew. unfold translate. rewrite Ef. cbn [bind]. pose proof Wp as (_ & _ & _ & Pos).
  destruct (cartesian_ok n s S0 Cl truediv Dv p' Hh) as [(v1 & Ev & Dv1)|(_ & X)]; [lra| |exfalso; now apply (X v0)].
  rewrite Ev. cbn [bind]. set (z := vadd v1 d). assert (Dz : vden z = place s (pface p') w) by (unfold z; rewrite vadd_den, Dv1; auto).
  destruct (place_point n s S0 Cl (pface p') z Hh) as (a & b & c & Eb & Ww' & Pb); [exists w; split; auto|].
  rewrite Eb. cbn [bind]. pose proof Ww' as (Q1 & Q2 & Q3 & Q4). assert (M1 := Q1). assert (M2 := Q2). assert (M3 := Q3). apply nonneg_spec in M1, M2, M3. rewrite M1, M2, M3. cbn [andb].
  destruct (normalize_ok n s S0 Cl (mkPoint (pface p') a b c) Hh Ww') as (q & Eq & Nq & Tq). rewrite Eq. cbn [bind]. exists q. split; auto. split; auto.
  apply (sp_trans n s _ (pface p', (den a, den b, den c))); [apply sp_sym, (turned_sp n s S0 (mkPoint (pface p') a b c) q); auto|].
  destruct w as [[a1 b1] c1]. pose proof Ww as (_ & _ & _ & Q).
  destruct (place_unique n s S0 Cl (pface p') (den a) (den b) (den c) a1 b1 c1 Hh ltac:(lra) ltac:(lra)) as (X1 & X2 & X3); [congruence|].
  apply (sp_prop n s (pface p')); auto; lra.
Qed.

(** Both faces at an edge. *)
Lemma place_edge h a b : (h < n)%nat -> 0 < a + b -> place s h (a, b, 0) = pscale (b / (a + b)) (vv s h) /\ place s (neg h) (b, a, 0) = padd (place s h (a, b, 0)) (pneg (vv s h)).
Proof.
  intros Hh P. unfold place. rewrite (fs_odd n s S0 h Hh). unfold padd, pscale, pneg. split; apply pt_eq; cbn [fst snd]; field; lra.
Qed.
Lemma place_det h a b c : (h < n)%nat -> 0 < a + b + c -> pdet (vv s h) (place s h (a, b, c)) = c / (a + b + c) * pdet (vv s h) (vv s (fF s h)).
Proof. intros Hh P. unfold place, pdet, padd, pscale. cbn [fst snd]. field. lra. Qed.

Lemma edge_stays (p : point K) d (v0 : vec K) f w w' : normal n p -> den (pb p) <> 0 -> den (pc p) = 0 -> seen_from p f w -> vden v0 = place s f w -> weights w' -> place s f w' = padd (place s f w) (vden d) ->
  forall p', p' = p \/ p' = mkPoint (neg (pface p)) (pb p) (pa p) (pc p) ->
  exists q, translate truediv s p' d = Ok (Some q) /\ normal n q /\ same_point n s (location q) (f, w').
Proof.
  intros N B C Sf Ev Ww Ew p' Hp'. pose proof N as (Hh & A & B0 & _). assert (Bp : 0 < den (pb p)) by lra. set (h := pface p) in *.
  assert (Hn : (neg h < n)%nat) by now apply (neg_ltn n (fT s) W).
  set (flip := mkPoint (neg h) (pb p) (pa p) (pc p)).
  assert (Ea : exists p'', face_for s p' d = Ok p'' /\ (p'' = p \/ p'' = flip) /\ 0 <= pdet (vv s (pface p'')) (vden d)).
  { assert (Zc : nz (pc p) = false) by (destruct (nz (pc p)) eqn:Y; auto; exfalso; assert (nz (pc p) <> false) by congruence; apply H; now apply nz_false).
    assert (NZ : forall x : K, den x <> 0 -> nz x = true) by (intros x X; destruct (nz x) eqn:Y; auto; apply nz_false in Y; contradiction).
    assert (Zb := NZ _ B). assert (Za : nz (pa p) = true) by (apply NZ; lra).
    destruct Hp' as [->| ->]; unfold face_for; cbn [pa pb pc pface]; rewrite Zc, ?Za, ?Zb; rewrite (from_ok n s S0) by auto; cbn [bind]; fold h.
    - pose proof (ccw_cases (vat' s h) d) as Cc. change (vden (vat' s h)) with (vv s h) in Cc. destruct (ccw (vat' s h) d); eexists; (split; [reflexivity|]); (split; [auto|]); cbn [pface]; fold h; try lra.
      rewrite (fs_odd n s S0 h Hh). unfold pdet, pneg in *. cbn [fst snd]. lra.
    - pose proof (ccw_cases (vat' s (neg h)) d) as Cc. change (vden (vat' s (neg h))) with (vv s (neg h)) in Cc. destruct (ccw (vat' s (neg h)) d); eexists; (split; [reflexivity|]).
      3: { split; [left; rewrite neg_neg; unfold h; now destruct p|]. cbn [pface]. rewrite neg_neg. rewrite (fs_odd n s S0 h Hh) in Cc. unfold pdet, pneg in *. cbn [fst snd] in Cc. lra. }
      all: split; [auto|]; cbn [pface]; lra. }
  destruct Ea as (p'' & Ef & Hp'' & Dd).
  destruct (place_edge h (den (pa p)) (den (pb p)) Hh ltac:(lra)) as [Pl1 Pl2].
  set (w1 := (den (pa p), den (pb p), 0)) in *. set (w2 := (den (pb p), den (pa p), 0)) in *.
  assert (Odd : vv s (neg h) = pneg (vv s h)) by now apply (fs_odd n s S0).
  assert (Dn : exists vh : vec K, vden vh = vv s h) by (exists (vat' s h); reflexivity). destruct Dn as (vh & Dvh).
  (* a movement that is seen from one side and points to the other side is along the edge *)
  assert (Along : forall g x y a' b' c', (g < n)%nat -> 0 < x + y -> weights (a', b', c') -> place s g (a', b', c') = padd (place s g (x, y, 0)) (vden d) -> 0 <= pdet (vv s (neg g)) (vden d) -> c' = 0).
  { intros g x y a' b' c' Hg P (Q1 & Q2 & Q3 & Q4) E Dg. rewrite (fs_odd n s S0 g Hg) in Dg. pose proof (place_det g a' b' c' Hg Q4) as E1. rewrite E in E1.
    destruct (place_edge g x y Hg P) as [E2 _]. rewrite E2 in E1. assert (Ar := area_pos n s S0 Cl g Hg).
    assert (E3 : pdet (vv s g) (vden d) = c' / (a' + b' + c') * pdet (vv s g) (vv s (fF s g))) by (rewrite <- E1; unfold pdet, padd, pscale; cbn [fst snd]; ring).
    assert (E4 : pdet (vv s g) (vden d) <= 0) by (unfold pdet, pneg in Dg |- *; cbn [fst snd] in *; lra).
    destruct (Req_dec c' 0) as [|Nc]; auto. exfalso. assert (0 < c' / (a' + b' + c')) by (apply Rdiv_lt_0_compat; lra). assert (0 < c' / (a' + b' + c') * pdet (vv s g) (vv s (fF s g))) by (apply Rmult_lt_0_compat; auto). lra. }
  destruct w' as [[a' b'] c'].
  assert (Cases : exists (v1 : vec K) w1', vden v1 = place s (pface p'') (den (pa p''), den (pb p''), den (pc p'')) /\ weights w1' /\ same_point n s (pface p'', w1') (f, (a', b', c')) /\
     place s (pface p'') w1' = padd (place s (pface p'') (den (pa p''), den (pb p''), den (pc p''))) (vden d)).
  { destruct Sf as [[-> ->]|(_ & -> & ->)]; destruct Hp'' as [->| ->]; unfold flip in *; cbn [pface pa pb pc] in *; fold h in Ev, Ew, Dd |- *; rewrite ?C in *; fold w1 w2 in Ev, Ew |- *.
    - exists v0, (a', b', c'). split; auto. split; auto. split; [apply sp_refl|auto].
    - assert (c' = 0) by (apply (Along h (den (pa p)) (den (pb p)) a' b' c'); auto; lra). subst c'. exists (vsub v0 vh), (b', a', 0). pose proof Ww as (Q1 & Q2 & _ & Q4).
      split; [rewrite vden_vsub, Ev, Dvh, Pl2; reflexivity|]. split; [unfold weights; lra|]. split; [apply sp_sym, sp_glue; auto|].
      destruct (place_edge h a' b' Hh ltac:(lra)) as [_ ->]. rewrite Ew, Pl2. destruct (place s h w1), (vden d), (vv s h). unfold padd, pneg. apply pt_eq; cbn [fst snd]; ring.
    - assert (c' = 0) by (apply (Along (neg h) (den (pb p)) (den (pa p)) a' b' c'); auto; [lra|now rewrite neg_neg]). subst c'. exists (vadd v0 vh), (b', a', 0). pose proof Ww as (Q1 & Q2 & _ & Q4).
      split; [rewrite vadd_den, Ev, Dvh, Pl2; destruct (place s h w1), (vv s h); unfold padd, pneg; apply pt_eq; cbn [fst snd]; ring|]. split; [unfold weights; lra|].
      split; [apply sp_sym; rewrite <- (neg_neg h) at 2; apply sp_glue; auto|].
      destruct (place_edge h b' a' Hh ltac:(lra)) as [_ E2]. rewrite E2, Pl2 in Ew. destruct (place s h w1) as [q1 q2], (place s h (b', a', 0)) as [r1 r2], (vden d) as [d1 d2], (vv s h) as [u1 u2]. unfold padd, pneg in *. apply pair_equal_spec in Ew. cbn [fst snd] in *. apply pt_eq; cbn [fst snd]; lra.
    - exists v0, (a', b', c'). split; auto. split; auto. split; [apply sp_refl|auto]. }
  destruct Cases as (v1 & w1' & Ev1 & Ww1 & Sp & Ew1).
  destruct (translate_stays p' p'' d v1 w1' Ef) as (q & Eq & Nq & Sq); auto.
  - destruct Hp'' as [->| ->]; auto.
  - destruct Hp'' as [->| ->]; unfold flip; cbn [pa pb pc]; unfold weights; lra.
  - exists q. split; auto. split; auto. now apply (sp_trans n s _ (pface p'', w1')).
Qed.
End stay.

(** A point that is not a vertex, when it stays in a face: the result is found, unless the point has no coordinates in the plane. *)
Theorem C69_stays : forall (K : ExactReal) truediv n (s : flat K) p d (v0 : vec K) f w w' fuel, flat_surface n s -> closed_surface n s -> exact_division truediv ->
  normal n p -> den (pb p) <> 0 -> vden d <> (0, 0) -> seen_from p f w -> vden v0 = place s f w -> weights w' -> place s f w' = padd (place s f w) (vden d) ->
  exists q, point_add truediv (S fuel) s p d = Ok (Some q) /\ normal n q /\ same_point n s (location q) (f, w').
Proof.
  intros K truediv n s p d v0 f w w' fuel S0 Cl Dv N B Nd Sf Ev Ww Ew.
  assert (NZ : forall x : K, den x <> 0 -> nz x = true) by (intros x X; destruct (nz x) eqn:Y; auto; apply nz_false in Y; contradiction).
  assert (Zb := NZ _ B). pose proof N as (Hh & A & B0 & C0 & _).
  assert (Mv : forall p', (exists q, translate truediv s p' d = Ok (Some q) /\ normal n q /\ same_point n s (location q) (f, w')) ->
     exists q, move_point truediv (S fuel) s p' d = Ok (Some q) /\ normal n q /\ same_point n s (location q) (f, w')).
  { intros p' (q & Eq & R). exists q. split; auto. cbn [move_point]. rewrite Eq. reflexivity. }
  unfold point_add, point_angle, point_vertex. rewrite Zb; cbn [orb bind Nat.eqb negb]. unfold point_edge.
  destruct (nz (pc p)) eqn:Ec; cbn [bind].
  - apply Mv. assert (Ef : face_for s p d = Ok p) by (unfold face_for; now rewrite Ec).
    assert (Nc : den (pc p) <> 0) by (intros Z; apply nz_false in Z; congruence).
    destruct Sf as [[-> ->]|(Z & _)]; [|contradiction]. apply (translate_stays truediv n s S0 Cl Dv p p d v0 w'); auto. unfold weights. lra.
  - apply nz_false in Ec. destruct (C25_in_sector K n s (pface p) d S0 Hh (Cl _ Hh) Nd) as (b & Eb & _). rewrite Eb. cbn [bind]. apply Mv.
    apply (edge_stays truediv n s S0 Cl Dv p d v0 f w w'); auto. destruct b; auto.
Qed.
Print Assumptions C69_stays.

(** The point at a third of an edge of the torus moves into the triangle above, and into the triangle below. *)
Example C69_stays_ex : flat_surface 6 big_s /\ closed_surface 6 big_s /\ exact_division zdiv /\ normal 6 (zp 0 2 1 0) /\ den (pb (zp 0 2 1 0)) <> 0 /\
  seen_from (zp 0 2 1 0) 0 (2, 1, 0) /\ vden (zv 1 0) = place big_s 0 (2, 1, 0) /\ place big_s 0 (1, 1, 1) = padd (place big_s 0 (2, 1, 0)) (vden (zv 1 1)) /\
  seen_from (zp 0 2 1 0) 1 (1, 2, 0) /\ vden (zv (-2) 0) = place big_s 1 (1, 2, 0) /\ place big_s 1 (1, 1, 1) = padd (place big_s 1 (1, 2, 0)) (vden (zv 0 (-1))) /\
  shown (point_add zdiv 1 big_s (zp 0 2 1 0) (zv 1 1)) = Ok (Some (0%nat, 3%Z, 3%Z, 3%Z)) /\
  shown (point_add zdiv 1 big_s (zp 0 2 1 0) (zv 0 (-1))) = Ok (Some (1%nat, 3%Z, 3%Z, 3%Z)).
Proof.
  split; [apply big_flat|]. split; [apply big_flat|]. split; [apply zdiv_exact|]. split; [unfold normal; cbn; repeat (split; auto); try lra; lia|]. split; [cbn; lra|].
  split; [left; split; reflexivity|]. split; [unfold place, padd, pscale; cbn; apply pt_eq; cbn; lra|]. split; [unfold place, padd, pscale; cbn; apply pt_eq; cbn; lra|].
  split; [right; split; [reflexivity|split; reflexivity]|]. split; [unfold place, padd, pscale; cbn; apply pt_eq; cbn; lra|]. split; [unfold place, padd, pscale; cbn; apply pt_eq; cbn; lra|].
  split; vm_compute; reflexivity.
Qed.
