(** * The images of points under a flip *)
From Coq Require Import ZArith Reals List Arith Bool Lia Lra Psatz Relations.
From Verif Require Import Base HalfEdge HalfEdgeFacts Perm PermSpec PermFacts PermCycles PermLemmas
  IndexedSet IndexedSetSpec IndexedSetFacts Combinatorial CombinatorialSpec CombinatorialFacts CombinatorialFlip
  CombinatorialHistory CombinatorialOps ExactReal Vector PlaneSpec Plane VectorFacts FlatTri FlatSpec FlatFacts FlatSum FlatDelaunay
  Point PointSpec PointFacts PointOps PointEq PointHash PointPlane PointFlip.
Import ListNotations.
Local Open Scope R_scope.


(** FDR:70-97, the part of [flip_point] for points in the triangle at AB. *)
Definition flip_inner {K : ExactReal} (s s' : flat K) (AB : nat) (p : point K) : outcome (point K) :=
  do (ma, mb, mc) <- coordinates s p AB;
  do BC <- nextInFace (fT s) AB;
  do CD <- nextInFace (fT s') BC;
  do (nd, nc, na) <- crossed s' (mkPoint CD 0%X 0%X 1%X);
  let nu := (nd + nc + na)%X in
  let Q := mkPoint (neg CD) (mb * nd)%X (nu * mc + mb * nc)%X (nu * ma + mb * na)%X in
  if (pa Q <? 0)%X || (pb Q <? 0)%X || (pc Q <? 0)%X then
    do w <- crossed s' Q; make_point_array s' CD w
  else
    do w <- rotated s' Q (neg CD); make_point_array s' (neg CD) w.

Lemma bary_change A C D B ma mb mc nd nc na : 0 < nd + nc + na -> 0 < ma + mb + mc -> B = bary D C A (nd, nc, na) ->
  bary A B C (ma, mb, mc) = bary D C A (mb * nd, (nd + nc + na) * mc + mb * nc, (nd + nc + na) * ma + mb * na).
Proof.
  intros Z1 Z2 ->. unfold bary, padd, pscale; cbn [fst snd].
  assert (mb * nd + ((nd + nc + na) * mc + mb * nc) + ((nd + nc + na) * ma + mb * na) = (nd + nc + na) * (ma + mb + mc)) as -> by ring.
  apply pt_eq; cbn [fst snd]; field; lra.
Qed.

Section code.
Context {K : ExactReal}.
Variables (n : nat) (s s' : flat K) (e g a b c d : nat).
Hypothesis Q : quad n s s' e g a b c d.
Variable x0 : pt.
Notation xb := (padd x0 (vv s e)).
Notation xc := (padd (padd x0 (vv s e)) (vv s a)).
Notation xd := (padd x0 (vv s c)).
Local Notation img := (im n s s' e g a b c d x0).
Let S0 := q_s _ _ _ _ _ _ _ _ _ Q.
Let S1 := q_s' _ _ _ _ _ _ _ _ _ Q.
Let Cl := q_cl _ _ _ _ _ _ _ _ _ Q.
Let Cl' := q_cl' _ _ _ _ _ _ _ _ _ Q.

Lemma array_ok f w : (f < n)%nat -> weights (tden w) -> exists q, make_point_array s' f w = Ok q /\ normal n q /\ same_point n s' (f, tden w) (location q).
Proof.
  destruct w as [[u v] w]. intros Hf W. cbn [tden] in *. unfold make_point_array, make_point.
  destruct (normalize_ok n s' S1 Cl' (mkPoint f u v w) Hf W) as (q & E & N & T). exists q. repeat (split; auto).
  exact (turned_sp n s' S1 (mkPoint f u v w) q Hf W T).
Qed.

Lemma inner_ok p : normal n p -> touches s p e ->
  exists q, flip_inner s s' e p = Ok q /\ normal n q /\ exists r r', same_point n s r (location p) /\ img r r' /\ same_point n s' r' (location q).
Proof.
  intros Np Tp. destruct (lts n s s' e g a b c d Q) as (He & Hn & Ha & Hb & Hc & Hd & Hg & Hg').
  destruct (coordinates_ok n s S0 Cl p e Np He Tp) as ([[ma mb] mc] & Ec & Wm & Sm). cbn [tden] in *.
  unfold flip_inner. rewrite Ec. cbn [bind]. rewrite (next_ok n s S0 e He), (q_ea _ _ _ _ _ _ _ _ _ Q). cbn [bind].
  rewrite (next_ok n s' S1 a Ha), (q_ag _ _ _ _ _ _ _ _ _ Q). cbn [bind].
  destruct (crossed_ok n s' S1 Cl' (mkPoint g 0%X 0%X 1%X) Hg) as ([[nd nc] na] & E1 & Z1 & P1). rewrite E1. cbn [bind tden sum3 pface pa pb pc] in *.
  rewrite !den_ofZ in *. change (IZR 0) with 0 in *. change (IZR 1) with 1 in *. replace (0 + 0 + 1) with 1 in * by ring. rewrite Rmult_1_r in Z1.
  assert (A := area_pos n s' S1 Cl' _ Hg'). rewrite <- Z1 in A. clear Z1. specialize (P1 R1_neq_R0).
  assert (Zm := weights_sum _ Wm). unfold sum3 in Zm.
  assert (EB : xb = bary xd xc x0 (den nd, den nc, den na)).
  { rewrite <- (tri_ng n s s' e g a b c d Q) by (unfold sum3; auto). rewrite <- (end_g n s s' e g a b c d Q x0), padd_assoc, P1.
    rewrite (tri_g n s s' e g a b c d Q) by (unfold sum3; lra). rewrite <- (end_g n s s' e g a b c d Q x0). unfold bary, padd, pscale; cbn [fst snd]. apply pt_eq; cbn [fst snd]; field. }
  set (qa := (mb * nd)%X). set (qb := ((nd + nc + na) * mc + mb * nc)%X). set (qc := ((nd + nc + na) * ma + mb * na)%X).
  assert (EQ : bary x0 xb xc (den ma, den mb, den mc) = bary xd xc x0 (den qa, den qb, den qc)).
  { rewrite (bary_change x0 xc xd xb _ _ _ (den nd) (den nc) (den na)); auto. unfold qa, qb, qc. rewrite !den_add, !den_mul, !den_add. reflexivity. }
  assert (ZQ : den qa + den qb + den qc = (den nd + den nc + den na) * (den ma + den mb + den mc)).
  { unfold qa, qb, qc. rewrite !den_add, !den_mul, !den_add. ring. }
  assert (PQ : 0 < den qa + den qb + den qc) by (rewrite ZQ; now apply Rmult_lt_0_compat).
  destruct (crossed_ok n s' S1 Cl' (mkPoint (neg g) qa qb qc) Hg') as ([[uc ud] ub] & E2 & Z2 & P2). cbn [tden sum3 pface pa pb pc] in *. rewrite neg_neg in *.
  specialize (P2 ltac:(lra)). assert (A' := area_pos n s' S1 Cl' _ Hg). assert (PU : 0 < den uc + den ud + den ub) by (rewrite Z2; now apply Rmult_lt_0_compat).
  assert (EU : padd xd (place s' (neg g) (den qa, den qb, den qc)) = padd xc (place s' g (den uc, den ud, den ub))).
  { rewrite <- P2. rewrite <- padd_assoc, (end_ng n s s' e g a b c d Q x0). reflexivity. }
  assert (EM : padd x0 (place s e (den ma, den mb, den mc)) = padd xd (place s' (neg g) (den qa, den qb, den qc))).
  { rewrite (tri_e n s s' e g a b c d Q), (tri_ng n s s' e g a b c d Q) by (unfold sum3; auto). exact EQ. }
  destruct (split_signs x0 xb xc xd (den ma, den mb, den mc) (den qa) (den qb) (den qc) (den uc) (den ud) (den ub)) as (G1 & G2 & G3 & G4 & G5); auto;
    try (now apply (pos_abc n s s' e g a b c d Q) || now apply (pos_bad n s s' e g a b c d Q) || now apply (pos_cdb n s s' e g a b c d Q) || now apply (pos_dca n s s' e g a b c d Q)).
  { rewrite <- (tri_g n s s' e g a b c d Q), <- (tri_e n s s' e g a b c d Q) by (unfold sum3; auto). congruence. }
  destruct ((qa <? 0)%X || (qb <? 0)%X || (qc <? 0)%X) eqn:B.
  - rewrite E2. cbn [bind]. assert (L : den qc < 0).
    { rewrite !orb_true_iff, !ltb0_spec in B. destruct B as [[B|B]|B]; lra. }
    specialize (G5 L). assert (WU : weights (den uc, den ud, den ub)) by (unfold weights; lra).
    destruct (array_ok g (uc, ud, ub) Hg WU) as (q & Eq & Nq & Sq). exists q. repeat (split; auto).
    exists (e, (den ma, den mb, den mc)), (g, (den uc, den ud, den ub)). repeat (split; auto). right. exists x0, xc. cbn [fst snd].
    split; [unfold before; auto|]. split; [unfold after; auto|]. repeat (split; auto). congruence.
  - assert (L : 0 <= den qc). { apply orb_false_iff in B as [_ B]. apply Rnot_lt_le. rewrite <- ltb0_spec. now rewrite B. }
    pose proof (rotated_0 s' (mkPoint (neg g) qa qb qc)) as R0. cbn [pface pa pb pc] in R0. rewrite R0. cbn [bind]. assert (WQ : weights (den qa, den qb, den qc)) by (unfold weights; lra).
    destruct (array_ok (neg g) (qa, qb, qc) Hg' WQ) as (q & Eq & Nq & Sq). exists q. repeat (split; auto).
    exists (e, (den ma, den mb, den mc)), (neg g, (den qa, den qb, den qc)). repeat (split; auto). right. exists x0, xd. cbn [fst snd].
    split; [unfold before; auto|]. split; [unfold after; auto 8|]. repeat (split; auto).
Qed.
End code.

Lemma flip_point_ok {K : ExactReal} n (s s' : flat K) e g a b c d x0 p : quad n s s' e g a b c d -> normal n p ->
  exists q, flip_point s s' e p = Ok q /\ normal n q /\
    exists r r', same_point n s r (location p) /\ im n s s' e g a b c d x0 r r' /\ same_point n s' r' (location q).
Proof.
  intros Q Np. pose proof (q_s _ _ _ _ _ _ _ _ _ Q) as S0. pose proof (q_s' _ _ _ _ _ _ _ _ _ Q) as S1.
  pose proof (q_cl _ _ _ _ _ _ _ _ _ Q) as Cl. pose proof (q_cl' _ _ _ _ _ _ _ _ _ Q) as Cl'.
  destruct (lts n s s' e g a b c d Q) as (He & Hn & _).
  destruct (in_ok n s S0 Cl p e Np He) as (i & Ei & I). destruct (in_ok n s S0 Cl p (neg e) Np Hn) as (j & Ej & J).
  unfold flip_point. rewrite Ei, Ej. cbn [bind].
  destruct i; [|destruct j]; cbn [negb andb bind].
  - destruct (inner_ok n s s' e g a b c d Q x0 p Np (proj1 I eq_refl)) as (q & E & R). exists q. split; auto.
  - apply quad_sym in Q as Q'.
    destruct (inner_ok n s s' _ _ _ _ _ _ Q' (padd x0 (vv s e)) p Np (proj1 J eq_refl)) as (q & E & Nq & r & r' & A & B & C). exists q. split; auto. split; auto.
    exists r, r'. split; auto. split; auto. eapply im_sym; eauto.
  - rewrite (coordinates_self n s S0 Cl p Np). cbn [bind]. assert (Hf : (pface p < n)%nat) by apply Np.
    assert (W := normal_weights n p Np).
    destruct (array_ok n s s' e g a b c d Q (pface p) (pa p, pb p, pc p) Hf W) as (q & E & Nq & Sq). exists q. split; auto. split; auto.
    exists (location p), (location p). split; [apply sp_refl|]. split; auto. left. unfold location; cbn [fst snd]. repeat (split; auto).
    assert (TE : ~ touches s p e) by (intros X; apply I in X; discriminate). assert (TN : ~ touches s p (neg e)) by (intros X; apply J in X; discriminate).
    unfold touches in TE, TN. rewrite (q_ea _ _ _ _ _ _ _ _ _ Q), (q_ab _ _ _ _ _ _ _ _ _ Q) in TE. rewrite (q_ec _ _ _ _ _ _ _ _ _ Q), (q_cd _ _ _ _ _ _ _ _ _ Q) in TN.
    cbn [In]. intros [X|[X|[X|[X|[X|[X|[]]]]]]]; symmetry in X; tauto.
Qed.

(** A flip of a closed surface. *)
Lemma flip_quad {K : ExactReal} n (s s' : flat K) e : flat_surface n s -> closed_surface n s -> (e < n)%nat -> fflip s e = (s', Ok tt) ->
  quad n s s' e (neg e) (fF s e) (fF s (fF s e)) (fF s (neg e)) (fF s (fF s (neg e))).
Proof.
  intros S0 Cl He E. pose proof (closed_flip n s e s' S0 Cl He E) as Cl'. destruct (fflip_spec n s e s' S0 He E) as (_ & S1 & _ & Vo & _).
  destruct (flip_facts n s e s' S0 He E) as (a & b & c & d & Fe & Fa & Fb & Fn & Fc & Fd & G1 & G2 & G3 & G4 & G5 & G6 & D6 & Ha & Hb & Hc & Hd & Hn & O & _).
  rewrite Fe, Fa, Fn, Fc. split; rewrite ?neg_neg; auto.
  - intros i Hi I. now apply O.
  - intros i Hi N1 N2. unfold vv. now rewrite Vo.
Qed.
Lemma flip_quad_back {K : ExactReal} n (s s' : flat K) e : flat_surface n s -> closed_surface n s -> (e < n)%nat -> fflip s e = (s', Ok tt) ->
  quad n s' s e e (fF s (fF s e)) (fF s (neg e)) (fF s (fF s (neg e))) (fF s e).
Proof.
  intros S0 Cl He E. pose proof (quad_sym _ _ _ _ _ _ _ _ _ (quad_rev _ _ _ _ _ _ _ _ _ (flip_quad n s s' e S0 Cl He E))) as Q.
  now rewrite !neg_neg in Q.
Qed.
Lemma padd_0 p : padd (0, 0) p = p.
Proof. unfold padd; cbn [fst snd]. apply pt_eq; cbn [fst snd]; ring. Qed.
Lemma flip_image_im {K : ExactReal} n (s s' : flat K) e r r' : flat_surface n s -> closed_surface n s -> (e < n)%nat -> fflip s e = (s', Ok tt) ->
  (flip_image n s s' e r r' <->
   im n s s' e (neg e) (fF s e) (fF s (fF s e)) (fF s (neg e)) (fF s (fF s (neg e))) (0, 0) r r').
Proof.
  intros S0 Cl He E. pose proof (flip_quad n s s' e S0 Cl He E) as Q. unfold im, before, after. rewrite !padd_0, !neg_neg.
  split.
  - intros [k w Hk I W|k x w k' x' w' B A W W' X]; [left; cbn [fst snd]; auto|right]. exists x, x'. cbn [fst snd].
    split; [destruct B; auto 8|]. split; [destruct A; auto 8|]. auto.
  - destruct r as [k w], r' as [k' w']. cbn [fst snd].
    intros [(X & A & B & C)|(x & x' & A & B & C & D & X)].
    + injection X as <- <-. now constructor.
    + econstructor; eauto.
      * destruct A as [[-> ->]|[[-> ->]|[[-> ->]|[[-> ->]|[[-> ->]|[-> ->]]]]]]; constructor.
      * destruct B as [[-> ->]|[[-> ->]|[[-> ->]|[[-> ->]|[[-> ->]|[-> ->]]]]]]; constructor.
Qed.

(** The image of a point does not depend on how it is written. *)
Lemma flip_image_sp {K : ExactReal} n (s s' : flat K) e r1 r2 r1' r2' : flat_surface n s -> closed_surface n s -> (e < n)%nat -> fflip s e = (s', Ok tt) ->
  flip_image n s s' e r1 r1' -> flip_image n s s' e r2 r2' -> (same_point n s r1 r2 <-> same_point n s' r1' r2').
Proof.
  intros S0 Cl He E A B. pose proof (flip_quad n s s' e S0 Cl He E) as Q. rewrite flip_image_im in A, B by auto. split; intros H.
  - eapply img_sp; eauto.
  - eapply img_sp_inv; eauto.
Qed.
Lemma flip_image_total {K : ExactReal} n (s s' : flat K) e r : flat_surface n s -> closed_surface n s -> (e < n)%nat -> fflip s e = (s', Ok tt) ->
  (fst r < n)%nat -> weights (snd r) -> exists r', flip_image n s s' e r r'.
Proof.
  intros S0 Cl He E H W. pose proof (flip_quad n s s' e S0 Cl He E) as Q. destruct (img_total n s s' _ _ _ _ _ _ Q (0, 0) r H W) as [r' R].
  exists r'. now apply flip_image_im.
Qed.
Lemma flip_image_onto {K : ExactReal} n (s s' : flat K) e r' : flat_surface n s -> closed_surface n s -> (e < n)%nat -> fflip s e = (s', Ok tt) ->
  (fst r' < n)%nat -> weights (snd r') -> exists r, flip_image n s s' e r r'.
Proof.
  intros S0 Cl He E H W. pose proof (flip_quad n s s' e S0 Cl He E) as Q. pose proof (quad_rev _ _ _ _ _ _ _ _ _ Q) as Q'.
  pose proof (quad_rev _ _ _ _ _ _ _ _ _ Q') as Q2. pose proof (quad_sym _ _ _ _ _ _ _ _ _ Q2) as Q3. rewrite !neg_neg in Q3.
  set (x := padd (padd (padd (0, 0) (vv s e)) (vv s (fF s e))) (0, 0)).
  destruct (img_total n s' s _ _ _ _ _ _ Q' x r' H W) as [r R].
  exists r. apply flip_image_im; auto. apply (im_rev _ _ _ _ _ _ _ _ _ _ _ _ Q') in R.
  eapply im_sym; [exact Q|]. rewrite !neg_neg in *. replace (padd (0, 0) (vv s e)) with (padd (padd x (vv s' (neg e))) (vv s' (fF s (fF s (neg e))))); [exact R|].
  pose proof (end_g _ _ _ _ _ _ _ _ _ Q (0, 0)) as G. pose proof (end_d _ _ _ _ _ _ _ _ _ Q (0, 0)) as D.
  assert (X : x = padd (padd (0, 0) (vv s e)) (vv s (fF s e))) by (unfold x, padd; cbn [fst snd]; apply pt_eq; cbn [fst snd]; ring).
  rewrite X, G. rewrite (vec_side _ _ _ _ _ _ _ _ _ Q (fF s (fF s (neg e)))) by auto. exact D.
Qed.
Lemma normal_valid {K : ExactReal} n (p : point K) : normal n p -> (fst (location p) < n)%nat /\ weights (snd (location p)).
Proof. intros N. split; [apply N|]. now apply (normal_weights n). Qed.

Lemma flip_point_spec {K : ExactReal} n (s s' : flat K) e p : flat_surface n s -> closed_surface n s -> (e < n)%nat -> fflip s e = (s', Ok tt) ->
  normal n p -> exists q, flip_point s s' e p = Ok q /\ normal n q /\
    forall r', flip_image n s s' e (location p) r' -> same_point n s' r' (location q).
Proof.
  intros S0 Cl He E Np. pose proof (flip_quad n s s' e S0 Cl He E) as Q.
  destruct (flip_point_ok _ _ _ _ _ _ _ _ _ (0, 0) p Q Np) as (q & Eq & Nq & r & r' & A & B & C). exists q. split; auto. split; auto.
  intros r'' H. rewrite flip_image_im in H by auto. eapply sp_trans; [|exact C].
  eapply img_sp; [exact Q| |exact H|exact B]. now apply sp_sym.
Qed.
Lemma flip_point_back {K : ExactReal} n (s s' : flat K) e p : flat_surface n s -> closed_surface n s -> (e < n)%nat -> fflip s e = (s', Ok tt) ->
  normal n p -> exists q, flip_point s' s e p = Ok q /\ normal n q /\
    forall r, flip_image n s s' e r (location p) -> same_point n s r (location q).
Proof.
  intros S0 Cl He E Np. pose proof (flip_quad n s s' e S0 Cl He E) as Q. pose proof (flip_quad_back n s s' e S0 Cl He E) as Q'.
  set (x := padd (padd (padd (0, 0) (vv s e)) (vv s (fF s e))) (vv s' (neg e))).
  destruct (flip_point_ok _ _ _ _ _ _ _ _ _ x p Q' Np) as (q & Eq & Nq & r' & r & A & B & C). exists q. split; auto. split; auto.
  intros r'' H. rewrite flip_image_im in H by auto. eapply sp_trans; [|exact C].
  eapply img_sp; [exact Q'| | |exact B].
  - apply sp_sym. exact A.
  - pose proof (im_rev _ _ _ _ _ _ _ _ _ _ _ _ Q H) as H'.
    
    pose proof (im_sym n s' s e e _ _ _ _ x (location p) r'' Q') as M. apply M.
    replace (padd x (vv s' e)) with (padd (padd (0, 0) (vv s e)) (vv s (fF s e))); [exact H'|].
    unfold x. destruct (q_s' _ _ _ _ _ _ _ _ _ Q) as [W1 L1 O1 F1]. rewrite O1 by auto. unfold padd, pneg; cbn [fst snd]. apply pt_eq; cbn [fst snd]; ring.
Qed.
