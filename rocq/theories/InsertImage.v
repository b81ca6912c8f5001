(** * The images of points under the insertion of a marked point *)
From Coq Require Import ZArith Reals List Arith Bool Lia Lra Psatz.
From Verif Require Import Base HalfEdge HalfEdgeFacts Perm PermSpec PermFacts PermCycles IndexedSet IndexedSetSpec IndexedSetFacts Combinatorial
  CombinatorialSpec CombinatorialFacts CombinatorialHistory ExactReal Vector PlaneSpec Plane VectorFacts VectorProps FlatTri FlatSpec FlatFacts FlatSum FlatOps FlatAngle FlatDelaunay FlatSector
  FlatProps FlatAngleProps Point PointSpec PointFacts PointOps PointEq PointHash PointPlane PointFlip PointFlipFacts PointProps
  Insert InsertSpec InsertFacts InsertKept InsertLoop InsertProps.
Import ListNotations.
Local Open Scope R_scope.

Section image.
Context {K : ExactReal}.
Variable truediv : K -> K -> option K.
Hypothesis X : exact_division truediv.

(** The inserted point. *)
Lemma point_at n (s : flat K) e (v : vec K) : flat_surface n s -> closed_surface n s -> (e < n)%nat -> (exists w, weights w /\ place s e w = vden v) ->
  exists V w, make_point_vector truediv s e v = Ok (Some V) /\ normal n V /\ weights w /\ place s e w = vden v /\ same_point n s (e, w) (location V).
Proof.
  intros S0 Cl He W. destruct (make_point_vector_ok n s S0 Cl truediv X e v He W) as (V & E & N & (w & A & B & C) & _). exists V, w. auto.
Qed.

(** The weights of a point inside of an edge. *)
Lemma edge_weights n (s : flat K) e v w : flat_surface n s -> closed_surface n s -> (e < n)%nat -> inside_edge s e v -> weights w -> place s e w = v ->
  exists a b, w = (a, b, 0) /\ 0 < a /\ 0 < b.
Proof.
  intros S0 Cl He (r & Hr & ->) W E. destruct w as [[a b] c]. assert (Z := weights_sum _ W). unfold sum3 in Z.
  assert (P : pscale r (vv s e) = place s e (1 - r, r, 0)).
  { unfold place, padd, pscale; cbn [fst snd]. apply pt_eq; cbn [fst snd]; field; lra. }
  rewrite P in E. destruct (place_unique n s S0 Cl e a b c (1 - r) r 0 He) as (E1 & E2 & E3); auto; try lra. exists a, b.
  replace (1 - r + r + 0) with 1 in * by ring. split; [|split]; try nra. f_equal. lra.
Qed.
(** The weights of a point inside of a triangle. *)
Lemma face_weights n (s : flat K) e v w : flat_surface n s -> closed_surface n s -> (e < n)%nat -> inside s e v -> weights w -> place s e w = v ->
  exists a b c, w = (a, b, c) /\ 0 < a /\ 0 < b /\ 0 < c.
Proof.
  intros S0 Cl He (A & B & C) W E. destruct w as [[a b] c]. assert (Z := weights_sum _ W). unfold sum3 in Z. subst v.
  assert (H1 := fF_lt n s e S0 He). assert (H2 := fF_lt n s _ S0 H1). assert (E3 := wf_triangle _ _ (fs_wf n s S0) e He). change (fF s (fF s (fF s e)) = e) in E3.
  assert (D := area_pos n s S0 Cl e He). assert (D1 := area_pos n s S0 Cl _ H1). assert (D2 := area_pos n s S0 Cl _ H2).
  assert (G : forall x t o, 0 < t -> 0 < o -> 0 < x / t * o -> 0 < x).
  { intros x t o T P Y. assert (0 < / t) by now apply Rinv_0_lt_compat. unfold Rdiv in Y. assert (0 < / t * o) by now apply Rmult_lt_0_compat. nra. }
  exists a, b, c. split; auto.
  assert (Ea := place_rot n s S0 Cl e a b c He ltac:(lra)). assert (Eb := place_rot n s S0 Cl (fF s (fF s e)) c a b H2 ltac:(lra)). rewrite E3 in Eb.
  replace (padd (place s e (a, b, c)) (pneg (vv s e))) with (place s (fF s e) (b, c, a)) in B.
  2: { rewrite <- Ea. apply pt_eq; unfold padd, pneg; cbn [fst snd]; ring. }
  replace (pdet (vv s (fF s (fF s e))) (place s e (a, b, c))) with (pdet (vv s (fF s (fF s e))) (place s (fF s (fF s e)) (c, a, b))) in C.
  2: { rewrite <- Eb. unfold pdet, padd; cbn [fst snd]; ring. }
  rewrite place_side in A, B, C by lra. split; [|split].
  - apply (G a (b + c + a) (pdet (vv s (fF s e)) (vv s (fF s (fF s e))))); auto; lra.
  - apply (G b (c + a + b) (pdet (vv s (fF s (fF s e))) (vv s (fF s (fF s (fF s e)))))); auto; lra.
  - apply (G c (a + b + c) (pdet (vv s e) (vv s (fF s e)))); auto; lra.
Qed.

(** Where the point is represented. *)
Lemma edge_normal n (s : flat K) e a b (V : point K) : flat_surface n s -> closed_surface n s -> (e < n)%nat -> 0 < a -> 0 < b -> normal n V ->
  same_point n s (e, (a, b, 0)) (location V) -> 0 < den (pb V) /\ den (pc V) = 0 /\ (pface V = e \/ pface V = neg e).
Proof.
  intros S0 Cl He A B N E. apply (alike_same n s S0 Cl) in E. destruct E as [Kd Sp]. pose proof N as (H & Pa & Pb & Pc & D). specialize (Sp (pface V) H).
  unfold kind, location, PointFacts.spread in *. assert (Z0 : zero 0 = true) by now apply zero_true.
  assert (Za : zero a = false) by (apply zero_false; lra). assert (Zb : zero b = false) by (apply zero_false; lra). assert (Zp : zero (den (pa V)) = false) by (apply zero_false; lra).
  rewrite Za, Zb, Z0, Zp in *. destruct (zero (den (pb V))) eqn:Z1, (zero (den (pc V))) eqn:Z2; cbn in Kd; try discriminate.
  - apply zero_true in Z1. apply zero_false in Z2. lra.
  - apply zero_false in Z1. apply zero_true in Z2. rewrite Z2 in *. split; [lra|]. split; auto. rewrite Nat.eqb_refl in Sp.
    destruct (Nat.eqb_spec (pface V) e); auto. destruct (Nat.eqb_spec (pface V) (neg e)); auto. exfalso.
    assert (0 < den (pa V) / (den (pa V) + den (pb V) + 0)) by (apply Rdiv_lt_0_compat; lra). lra.
Qed.
Lemma face_normal n (s : flat K) e a b c (V : point K) : flat_surface n s -> closed_surface n s -> (e < n)%nat -> 0 < a -> 0 < b -> 0 < c -> normal n V ->
  same_point n s (e, (a, b, c)) (location V) -> 0 < den (pb V) /\ 0 < den (pc V) /\ (pface V = e \/ pface V = fF s e \/ pface V = fF s (fF s e)).
Proof.
  intros S0 Cl He A B C N E. apply (alike_same n s S0 Cl) in E. destruct E as [Kd Sp]. pose proof N as (H & Pa & Pb & Pc & D). specialize (Sp (pface V) H).
  unfold kind, location, PointFacts.spread in *.
  assert (Za : zero a = false) by (apply zero_false; lra). assert (Zb : zero b = false) by (apply zero_false; lra). assert (Zc : zero c = false) by (apply zero_false; lra).
  assert (Zp : zero (den (pa V)) = false) by (apply zero_false; lra).
  rewrite Za, Zb, Zc, Zp in *. destruct (zero (den (pb V))) eqn:Z1, (zero (den (pc V))) eqn:Z2; cbn in Kd; try discriminate.
  apply zero_false in Z1. apply zero_false in Z2. split; [lra|]. split; [lra|]. rewrite Nat.eqb_refl in Sp.
  destruct (Nat.eqb_spec (pface V) e); auto. destruct (Nat.eqb_spec (pface V) (fF s e)); auto. destruct (Nat.eqb_spec (pface V) (fF s (fF s e))); auto. exfalso.
  assert (0 < den (pa V) / (den (pa V) + den (pb V) + den (pc V))) by (apply Rdiv_lt_0_compat; lra). lra.
Qed.

(** ** On an edge *)
Lemma bary_change' A B C V ap bp cp ca va ba : 0 < ca + va + ba -> 0 < ap + bp + cp -> A = bary C V B (ca, va, ba) ->
  bary A B C (ap, bp, cp) = bary C V B (ap * ca + cp * (ca + va + ba), ap * va, ap * ba + bp * (ca + va + ba)).
Proof.
  intros Z1 Z2 ->. unfold bary, padd, pscale; cbn [fst snd].
  assert (ap * ca + cp * (ca + va + ba) + ap * va + (ap * ba + bp * (ca + va + ba)) = (ca + va + ba) * (ap + bp + cp)) as -> by ring.
  apply pt_eq; cbn [fst snd]; field; lra.
Qed.

(** One of the two triangles: A, B, C are the corners of the triangle at AB, V is on AB. *)
Record half (n : nat) (s u : flat K) (AB VC AV VB : nat) (r : R) : Prop := {
  h_s : flat_surface n s; h_u : flat_surface (n + 6) u;
  h_cl : closed_surface n s; h_clu : closed_surface (n + 6) u;
  h_AB : (AB < n)%nat; h_VC : (VC < n + 6)%nat;
  h_vc : fF u VC = fF s (fF s AB); h_ca : fF u (fF s (fF s AB)) = AV; h_av : fF u AV = VC;
  h_cv : fF u (neg VC) = VB; h_vb : fF u VB = fF s AB; h_bc : fF u (fF s AB) = neg VC;
  h_CA : vv u (fF s (fF s AB)) = vv s (fF s (fF s AB)); h_BC : vv u (fF s AB) = vv s (fF s AB);
  h_AV : vv u AV = pscale r (vv s AB); h_r : 0 < r < 1
}.
Section half.
Variables (n : nat) (s u : flat K) (AB VC AV VB : nat) (r : R).
Hypothesis Hf : half n s u AB VC AV VB r.
Notation BC := (fF s AB).
Notation CA := (fF s (fF s AB)).
Notation xb := (vv s AB).
Notation xc := (padd (vv s AB) (vv s (fF s AB))).
Notation xv := (pscale r (vv s AB)).
Let S0 := h_s _ _ _ _ _ _ _ _ Hf.
Let Su := h_u _ _ _ _ _ _ _ _ Hf.
Let Cl := h_cl _ _ _ _ _ _ _ _ Hf.
Let Clu := h_clu _ _ _ _ _ _ _ _ Hf.
Let HAB := h_AB _ _ _ _ _ _ _ _ Hf.
Let HVC := h_VC _ _ _ _ _ _ _ _ Hf.
Let HBC := fF_lt n s AB S0 HAB.
Let HCA := fF_lt n s _ S0 HBC.
Let HCV : (neg VC < n + 6)%nat := neg_ltn (n + 6) _ (fs_wf _ u Su) VC HVC.

Lemma vec_vc : vv u VC = padd xc (pneg xv).
Proof.
  destruct (closes (n + 6) u Su Clu VC HVC) as [E1 E2]. rewrite (h_vc _ _ _ _ _ _ _ _ Hf), (h_ca _ _ _ _ _ _ _ _ Hf), (h_CA _ _ _ _ _ _ _ _ Hf), (h_AV _ _ _ _ _ _ _ _ Hf) in E1, E2.
  destruct (closes n s S0 Cl AB HAB) as [E3 E4]. unfold pscale in *. apply pt_eq; unfold padd, pneg; cbn [fst snd] in *; lra.
Qed.
Lemma vec_cv : vv u (neg VC) = padd xv (pneg xc).
Proof. rewrite (fs_odd _ u Su VC HVC), vec_vc. apply pt_eq; unfold padd, pneg; cbn [fst snd]; ring. Qed.
Lemma vec_vb : vv u VB = padd xb (pneg xv).
Proof.
  destruct (closes (n + 6) u Su Clu _ HCV) as [E1 E2]. rewrite (h_cv _ _ _ _ _ _ _ _ Hf), (h_vb _ _ _ _ _ _ _ _ Hf), (h_BC _ _ _ _ _ _ _ _ Hf), vec_cv in E1, E2.
  unfold pscale in *. apply pt_eq; unfold padd, pneg in *; cbn [fst snd] in *; lra.
Qed.
Lemma tri_cvb w : 0 < sum3 w -> padd xc (place u (neg VC) w) = bary xc xv xb w.
Proof.
  intros Z. rewrite place_bary by auto. rewrite (h_cv _ _ _ _ _ _ _ _ Hf), vec_vb, vec_cv.
  replace (padd xc (padd xv (pneg xc))) with xv. 2: { apply pt_eq; unfold padd, pneg; cbn [fst snd]; ring. }
  replace (padd xv (padd xb (pneg xv))) with xb; auto. apply pt_eq; unfold padd, pneg; cbn [fst snd]; ring.
Qed.
Lemma tri_vca w : 0 < sum3 w -> padd xv (place u VC w) = bary xv xc (0, 0) w.
Proof.
  intros Z. rewrite place_bary by auto. rewrite (h_vc _ _ _ _ _ _ _ _ Hf), (h_CA _ _ _ _ _ _ _ _ Hf), vec_vc. destruct (closes n s S0 Cl AB HAB) as [E3 E4].
  replace (padd xv (padd xc (pneg xv))) with xc. 2: { apply pt_eq; unfold padd, pneg; cbn [fst snd]; ring. }
  replace (padd xc (vv s CA)) with (0, 0); auto. apply pt_eq; unfold padd; cbn [fst snd]; lra.
Qed.
Lemma tri_abc w : 0 < sum3 w -> place s AB w = bary (0, 0) xb xc w.
Proof. intros Z. rewrite <- (padd_0 (place s AB w)), place_bary by auto. now rewrite !padd_0. Qed.

Lemma half_ok p : normal n p -> touches s p AB -> exists q k' x' w w', on_edge_point s u p AB = Ok q /\ normal (n + 6) q /\
  weights w /\ weights w' /\ same_point n s (AB, w) (location p) /\ same_point (n + 6) u (k', w') (location q) /\
  ((k' = neg VC /\ x' = xc) \/ (k' = VC /\ x' = xv)) /\ place s AB w = padd x' (place u k' w').
Proof.
  intros Np Tp. destruct (coordinates_ok n s S0 Cl p AB Np HAB Tp) as ([[ap bp] cp] & Ec & Wm & Sm). cbn [tden] in *.
  assert (HBu : (BC < n + 6)%nat) by lia. assert (HCu : (CA < n + 6)%nat) by lia.
  assert (Pc : previousInFace (fT u) CA = Ok VC).
  { rewrite (prev_ok (n + 6) u Su) by auto. f_equal. rewrite <- (h_vc _ _ _ _ _ _ _ _ Hf). rewrite !(h_vc _ _ _ _ _ _ _ _ Hf), (h_ca _ _ _ _ _ _ _ _ Hf). apply (h_av _ _ _ _ _ _ _ _ Hf). }
  unfold on_edge_point. rewrite Ec. cbn [bind]. rewrite (next_ok n s S0 AB HAB). cbn [bind]. rewrite (next_ok n s S0 _ HBC). cbn [bind]. rewrite Pc. cbn [bind].
  assert (Nav : VC <> AV). { intros E. apply (Clu VC HVC). rewrite E at 1. apply (h_av _ _ _ _ _ _ _ _ Hf). }
  assert (RA : rotate u (mkPoint CA 0%X 1%X 0%X) VC = Ok (mkPoint VC 0%X 0%X 1%X)).
  { unfold rotate. cbn [pface pa pb pc]. rewrite (next_ok (n + 6) u Su _ HCu), (h_ca _ _ _ _ _ _ _ _ Hf). cbn [bind]. destruct (Nat.eqb_spec VC AV); [congruence|].
    rewrite Pc. cbn [bind]. now rewrite Nat.eqb_refl. }
  assert (RB : rotate u (mkPoint BC 1%X 0%X 0%X) (neg VC) = Ok (mkPoint (neg VC) 0%X 0%X 1%X)).
  { unfold rotate. cbn [pface pa pb pc]. rewrite (next_ok (n + 6) u Su _ HBu), (h_bc _ _ _ _ _ _ _ _ Hf). cbn [bind]. now rewrite Nat.eqb_refl. }
  rewrite RA. cbn [bind].
  destruct (crossed_ok (n + 6) u Su Clu (mkPoint VC 0%X 0%X 1%X) HVC) as ([[ca va] ba] & E1 & Z1 & P1). rewrite E1. cbn [bind tden sum3 pface pa pb pc] in *.
  destruct (crossed_ok (n + 6) u Su Clu (mkPoint (neg VC) 0%X 0%X 1%X) HCV) as ([[vb cb] ab] & E2 & Z2 & P2). cbn [tden sum3 pface pa pb pc] in *. rewrite neg_neg in *.
  rewrite !den_ofZ in *. change (IZR 0) with 0 in *. change (IZR 1) with 1 in *. replace (0 + 0 + 1) with 1 in * by ring. rewrite Rmult_1_r in Z1, Z2.
  assert (A1 := area_pos (n + 6) u Su Clu _ HCV). assert (A2 := area_pos (n + 6) u Su Clu _ HVC). rewrite <- Z1 in A1. rewrite <- Z2 in A2. clear Z1 Z2.
  specialize (P1 R1_neq_R0). specialize (P2 R1_neq_R0). assert (Zm := weights_sum _ Wm). unfold sum3 in Zm.
  assert (EA : (0, 0) = bary xc xv xb (den ca, den va, den ba)).
  { rewrite <- tri_cvb by (unfold sum3; auto). assert (Y : padd xv (padd (vv u VC) (place u (neg VC) (den ca, den va, den ba))) = bary xv xc (0, 0) (0, 0, 1)).
    { rewrite P1. apply tri_vca. unfold sum3. lra. }
    rewrite vec_vc, <- padd_assoc in Y. replace (padd xv (padd xc (pneg xv))) with xc in Y. 2: { apply pt_eq; unfold padd, pneg; cbn [fst snd]; ring. }
    rewrite Y. unfold bary, padd, pscale; cbn [fst snd]. apply pt_eq; cbn [fst snd]; field. }
  assert (EB : xb = bary xv xc (0, 0) (den vb, den cb, den ab)).
  { rewrite <- tri_vca by (unfold sum3; auto). assert (Y : padd xc (padd (vv u (neg VC)) (place u VC (den vb, den cb, den ab))) = bary xc xv xb (0, 0, 1)).
    { rewrite P2. apply tri_cvb. unfold sum3. lra. }
    rewrite vec_cv, <- padd_assoc in Y. replace (padd xc (padd xv (pneg xc))) with xv in Y. 2: { apply pt_eq; unfold padd, pneg; cbn [fst snd]; ring. }
    rewrite Y. unfold bary, padd, pscale; cbn [fst snd]. apply pt_eq; cbn [fst snd]; field. }
  assert (X1 := bary_change' (0, 0) xb xc xv (den ap) (den bp) (den cp) _ _ _ A1 Zm EA).
  assert (X2 := bary_change' xb (0, 0) xc xv (den bp) (den ap) (den cp) (den cb) (den vb) (den ab) ltac:(lra) ltac:(lra)).
  assert (EB' : xb = bary xc xv (0, 0) (den cb, den vb, den ab)).
  { etransitivity; [exact EB|]. unfold bary, padd, pscale; cbn [fst snd]. apply pt_eq; cbn [fst snd]; field; lra. }
  specialize (X2 EB'). clear EB'.
  set (c1 := (ap * ca + cp * (ca + va + ba))%X). set (v1 := (ap * va)%X). set (b1 := (ap * ba + bp * (ca + va + ba))%X).
  set (v2 := (bp * vb)%X). set (c2 := (bp * cb + cp * (vb + cb + ab))%X). set (a2 := (bp * ab + ap * (vb + cb + ab))%X).
  assert (Y1 : bary (0, 0) xb xc (den ap, den bp, den cp) = bary xc xv xb (den c1, den v1, den b1)).
  { rewrite X1. unfold c1, v1, b1. rewrite !den_add, !den_mul, !den_add. reflexivity. }
  assert (Y2 : bary (0, 0) xb xc (den ap, den bp, den cp) = bary xv xc (0, 0) (den v2, den c2, den a2)).
  { transitivity (bary xb (0, 0) xc (den bp, den ap, den cp)). { unfold bary, padd, pscale; cbn [fst snd]. apply pt_eq; cbn [fst snd]; field; lra. }
    rewrite X2. unfold v2, c2, a2. rewrite !den_add, !den_mul, !den_add. replace (den vb + den cb + den ab) with (den cb + den vb + den ab) by ring.
    unfold bary. replace (den bp * den vb + (den bp * den cb + den cp * (den cb + den vb + den ab)) + (den bp * den ab + den ap * (den cb + den vb + den ab)))
      with (den bp * den cb + den cp * (den cb + den vb + den ab) + den bp * den vb + (den bp * den ab + den ap * (den cb + den vb + den ab))) by ring.
    unfold padd, pscale; cbn [fst snd]. apply pt_eq; cbn [fst snd]; ring. }
  assert (T1 : 0 < den c1 + den v1 + den b1).
  { replace (den c1 + den v1 + den b1) with ((den ca + den va + den ba) * (den ap + den bp + den cp)) by (unfold c1, v1, b1; rewrite !den_add, !den_mul, !den_add; ring). now apply Rmult_lt_0_compat. }
  assert (T2 : 0 < den v2 + den c2 + den a2).
  { replace (den v2 + den c2 + den a2) with ((den vb + den cb + den ab) * (den ap + den bp + den cp)) by (unfold v2, c2, a2; rewrite !den_add, !den_mul, !den_add; ring). now apply Rmult_lt_0_compat. }
  assert (O : 0 < orient (0, 0) xb xc).
  { assert (D := area_pos n s S0 Cl AB HAB). unfold orient, psub, pdet, padd, pneg in *; cbn [fst snd] in *. lra. }
  assert (Hr := h_r _ _ _ _ _ _ _ _ Hf).
  assert (O1 : 0 < orient xc xv xb).
  { replace (orient xc xv xb) with ((1 - r) * orient (0, 0) xb xc) by (unfold orient, psub, pdet, padd, pneg, pscale; cbn [fst snd]; ring). apply Rmult_lt_0_compat; lra. }
  assert (O2 : 0 < orient xv xc (0, 0)).
  { replace (orient xv xc (0, 0)) with (r * orient (0, 0) xb xc) by (unfold orient, psub, pdet, padd, pneg, pscale; cbn [fst snd]; ring). apply Rmult_lt_0_compat; lra. }
  destruct (weight_signs _ _ _ _ _ _ _ T1 O1 Y1) as (W1 & W2 & W3). destruct (weight_signs _ _ _ _ _ _ _ T2 O2 Y2) as (W4 & W5 & W6).
  destruct (weight_signs _ _ _ _ _ _ _ Zm O eq_refl) as (W7 & W8 & W9). destruct Wm as (Wa & Wb & Wc & _).
  apply W7 in Wa as Qa. apply W8 in Wb as Qb. apply W9 in Wc as Qc.
  assert (M0 : place s AB (den ap, den bp, den cp) = bary (0, 0) xb xc (den ap, den bp, den cp)) by (apply tri_abc; auto).
  set (x := bary (0, 0) xb xc (den ap, den bp, den cp)) in *.
  assert (V1 : orient xv xb x = (1 - r) * orient (0, 0) xb x) by (unfold orient, psub, pdet, padd, pneg, pscale; cbn [fst snd]; ring).
  assert (V2 : orient (0, 0) xv x = r * orient (0, 0) xb x) by (unfold orient, psub, pdet, padd, pneg, pscale; cbn [fst snd]; ring).
  assert (V3 : orient xv xc x = - orient xc xv x) by (unfold orient, psub, pdet, padd, pneg, pscale; cbn [fst snd]; ring).
  assert (N1 : 0 <= den c1) by (apply W1; rewrite V1; apply Rmult_le_pos; lra). assert (N2 : 0 <= den v1) by now apply W2.
  assert (N3 : 0 <= den v2) by now apply W4. assert (N4 : 0 <= den c2) by (apply W5; rewrite V2; apply Rmult_le_pos; lra).
  clearbody c1 v1 b1.
  rewrite (proj2 (nonneg_spec K c1) N1), (proj2 (nonneg_spec K v1) N2). cbn [andb].
  destruct (nonneg b1) eqn:Eb.
  - apply nonneg_spec in Eb. assert (Wq : weights (den c1, den v1, den b1)) by (unfold weights; lra).
    destruct (normalize_ok (n + 6) u Su Clu (mkPoint (neg VC) c1 v1 b1) HCV Wq) as (q & Eq & Nq & Tq).
    exists q, (neg VC), xc, (den ap, den bp, den cp), (den c1, den v1, den b1). split; [exact Eq|]. split; auto. split; [unfold weights; lra|]. split; auto. split; auto.
    split. { exact (turned_sp (n + 6) u Su (mkPoint (neg VC) c1 v1 b1) q HCV Wq Tq). }
    split; auto. rewrite tri_cvb by (unfold sum3; auto). congruence.
  - rewrite RB. cbn [bind]. rewrite E2. cbn [bind]. fold v2 c2 a2.
    assert (N5 : 0 <= den a2).
    { apply W6. rewrite V3. destruct (Rle_lt_dec 0 (orient xc xv x)) as [L|L]; [|lra]. apply W3 in L. apply nonneg_spec in L. congruence. }
    clearbody v2 c2 a2. rewrite (proj2 (nonneg_spec K v2) N3), (proj2 (nonneg_spec K c2) N4), (proj2 (nonneg_spec K a2) N5). cbn [andb].
    assert (Wq : weights (den v2, den c2, den a2)) by (unfold weights; lra).
    destruct (normalize_ok (n + 6) u Su Clu (mkPoint VC v2 c2 a2) HVC Wq) as (q & Eq & Nq & Tq).
    exists q, VC, xv, (den ap, den bp, den cp), (den v2, den c2, den a2). split; [exact Eq|]. split; auto. split; [unfold weights; lra|]. split; auto. split; auto.
    split. { exact (turned_sp (n + 6) u Su (mkPoint VC v2 c2 a2) q HVC Wq Tq). }
    split; auto. rewrite tri_vca by (unfold sum3; auto). congruence.
Qed.
End half.

Lemma edge_halves n (s u : flat K) e v : flat_surface n s -> closed_surface n s -> (e < n)%nat -> inside_edge s e v -> edge_inserted n s u e v ->
  exists r, v = pscale r (vv s e) /\ half n s u e (n + 4) (neg n) (n + 2) r /\ half n s u (neg e) (neg e) (neg (n + 2)) n (1 - r).
Proof.
  intros S0 Cl He (r & Hr & Ev) EI. assert (Clu := edge_closed n s u e v S0 Cl He EI). pose proof EI as [Su IF Old F1 F2]. assert (W := fs_wf n s S0). assert (Wu := fs_wf _ u Su).
  assert (Hne := neg_ltn n _ W e He). destruct (new_negs n (wf_even _ _ W)) as (N0 & N2 & N4 & _).
  assert (Fl := nonboundary_flippable n s e S0 He (Cl e He) (Cl _ Hne)). destruct (flip_six n (fT s) e W Fl) as (D6 & Hf & Hg & Hx & Hy & _ & Fg & Fy).
  apply nodup6 in D6. change (nF (fT s)) with (fF s) in *. destruct D6 as ((D1 & D2 & D3 & D4 & D5) & (D6 & D7 & D8 & D9) & (D10 & D11 & D12) & (D13 & D14) & D15).
  unfold edge_inserted_faces in IF. change (nF (fT s)) with (fF s) in IF. change (nF (fT u)) with (fF u) in IF. destruct IF as (G1 & G2 & G3 & G4 & G5 & G6 & G7 & G8 & G9 & G10 & G11 & G12 & _).
  exists r. split; auto. split.
  - split; auto; try lia.
    + rewrite F1. exact Ev.
  - split; rewrite ?neg_neg; auto; try lia; try lra.
    assert (Hb : (n + 2 < n + 6)%nat) by lia. rewrite (fs_odd _ u Su _ Hb), (fs_odd n s S0 e He). rewrite Ev in F2. destruct (vv u (n + 2)) as [x y], (vv s e) as [x' y'].
    unfold padd, pscale in F2. cbn [fst snd] in F2. injection F2 as F3 F4. unfold pneg, pscale. cbn [fst snd]. apply pt_eq; cbn [fst snd]; lra.
Qed.

Lemma around_touch n (s : flat K) e p : flat_surface n s -> closed_surface n s -> (e < n)%nat -> normal n p -> In (pface p) (around_edge s e) -> touches s p e \/ touches s p (neg e).
Proof. intros S0 Cl He N I. unfold around_edge in I. cbn [In] in I. unfold touches. intuition auto. Qed.
Lemma face_cycle n (s : flat K) e f : flat_surface n s -> (e < n)%nat -> f = e \/ f = fF s e \/ f = fF s (fF s e) -> e = f \/ e = fF s f \/ e = fF s (fF s f).
Proof. intros S0 He H. assert (E := wf_triangle _ _ (fs_wf n s S0) e He). change (fF s (fF s (fF s e)) = e) in E. destruct H as [->|[->| ->]]; rewrite ?E; auto. Qed.

Theorem edge_image_ok n (s u : flat K) e (v : vec K) w0 p : flat_surface n s -> closed_surface n s -> (e < n)%nat ->
  inside_edge s e (vden v) -> edge_inserted n s u e (vden v) -> normal n p ->
  let r := OnEdge w0 e (neg n) (n + 2) in
  (In (pface p) (around_edge s e) -> exists q, insertion_image truediv s u r p = Ok (u, q) /\ normal (n + 6) q /\
     exists a b, same_point n s a (location p) /\ edge_image n s u e (vden v) a b /\ same_point (n + 6) u b (location q)) /\
  (~ In (pface p) (around_edge s e) -> insertion_image truediv s u r p = Ok (s, p)).
Proof.
  intros S0 Cl He Ie EI N. cbv zeta. assert (W := fs_wf n s S0). assert (Su := ei_surface _ _ _ _ _ EI). assert (Hne := neg_ltn n _ W e He).
  destruct (edge_halves n s u e _ S0 Cl He Ie EI) as (r & Er & H1 & H2).
  assert (Ha : (neg n < n + 6)%nat) by (destruct (new_negs n (wf_even _ _ W)) as (-> & _); lia).
  assert (Va : vden (vat' u (neg n)) = vden v) by (change (vv u (neg n) = vden v); apply (ei_first _ _ _ _ _ EI)).
  destruct (point_at n s e (vat' u (neg n)) S0 Cl He) as (V & w & EV & NV & Qw & Pw & Sw).
  { rewrite Va, Er. exists (1 - r, r, 0). assert (Hr := h_r _ _ _ _ _ _ _ _ H1). split; [unfold weights; lra|]. unfold place, padd, pscale; cbn [fst snd]. apply pt_eq; cbn [fst snd]; field; lra. }
  rewrite Va in Pw. destruct (edge_weights n s e _ w S0 Cl He Ie Qw Pw) as (a & b & -> & Pa & Pb).
  destruct (edge_normal n s e a b V S0 Cl He Pa Pb NV Sw) as (Vb & Vc & Vf).
  assert (IP : insertion_point truediv s u (OnEdge w0 e (neg n) (n + 2)) = Ok V).
  { unfold insertion_point. rewrite from_he_Ok by now rewrite (fs_length _ u Su). cbn [bind]. rewrite EV. reflexivity. }
  unfold insertion_image. rewrite IP. cbn [bind]. assert (Hp := proj1 N). assert (Hp1 := fF_lt n s _ S0 Hp). assert (Hp2 := fF_lt n s _ S0 Hp1).
  destruct (in_ok n s S0 Cl V (pface p) NV Hp) as (i & Ei & Ii). rewrite Ei. cbn [bind].
  assert (On : forall f, (f < n)%nat -> point_on s V (edge_of f) = Ok true /\ (f = e \/ f = neg e) \/ point_on s V (edge_of f) = Ok false /\ f <> e /\ f <> neg e).
  { intros f Hf. destruct (on_ok n s S0 V f NV Hf) as (o & Eo & Io). rewrite Eo. destruct o.
    - left. split; auto. destruct (proj1 Io eq_refl) as [[Z _]|(_ & _ & Z)]; [lra|]. destruct Vf as [Vf|Vf]; rewrite Vf in Z; destruct Z as [Z|Z]; auto.
      + right. now rewrite Z, neg_neg. + left. apply neg_inj. auto.
    - right. split; auto. split; intros ->.
      + assert (false = true); [|discriminate]. apply Io. right. split; auto.
      + assert (false = true); [|discriminate]. apply Io. right. split; auto. split; auto. rewrite neg_neg. tauto. }
  assert (Cy : In (pface p) (around_edge s e) <-> exists g, (g = e \/ g = neg e) /\ (g = pface p \/ g = fF s (pface p) \/ g = fF s (fF s (pface p)))).
  { unfold around_edge. split.
    - intros I. assert (J : (pface p = e \/ pface p = fF s e \/ pface p = fF s (fF s e)) \/ (pface p = neg e \/ pface p = fF s (neg e) \/ pface p = fF s (fF s (neg e)))) by (cbn [In] in I; clear - I; intuition auto).
      destruct J as [J|J]; [exists e|exists (neg e)]; (split; [auto|]); apply (face_cycle n s); auto.
    - intros (g & G & J). apply (face_cycle n s) in J; auto. destruct G as [-> | ->]; cbn [In]; clear - J; intuition auto. }
  assert (Ti : i = true <-> In (pface p) (around_edge s e)).
  { rewrite Cy, Ii. unfold touches. split.
    - intros [T|[[Z _]|(_ & _ & T)]]; [exists (pface V); auto|lra|].
      exists (neg (pface V)). split. { destruct Vf as [-> | ->]; rewrite ?neg_neg; auto. } destruct T as [-> | [-> | ->]]; rewrite neg_neg; auto.
    - intros (g & G & J). assert (Q : g = pface V \/ pface V = neg g). { destruct G as [-> | ->], Vf as [-> | ->]; rewrite ?neg_neg; auto. }
      destruct Q as [-> | Q]; auto. right. right. rewrite Q. split; auto. split; auto. destruct J as [<-|[<-|<-]]; auto. }
  split.
  - intros I. rewrite (proj2 Ti I). cbn [negb].
    assert (OF : exists g, on_edge_face 3 s V (pface p) = Ok g /\ (g = e \/ g = neg e) /\ (g = pface p \/ g = fF s (pface p) \/ g = fF s (fF s (pface p)))).
    { apply Cy in I as (g & G & J). cbn [on_edge_face].
      destruct (On _ Hp) as [[-> G1]|[-> G1]]; cbn [bind]; [exists (pface p); auto|]. rewrite (next_ok n s S0) by auto. cbn [bind].
      destruct (On _ Hp1) as [[-> G2]|[-> G2]]; cbn [bind]; [exists (fF s (pface p)); auto|]. rewrite (next_ok n s S0) by auto. cbn [bind].
      destruct (On _ Hp2) as [[-> G3]|[-> G3]]; cbn [bind]; [exists (fF s (fF s (pface p))); auto|]. exfalso. destruct J as [-> | [-> | ->]]; tauto. }
    destruct OF as (g & Eg & G & J). rewrite Eg. cbn [bind]. apply (face_cycle n s) in J; auto. assert (Tg : touches s p g) by (left; exact J).
    destruct G as [-> | ->].
    + destruct (half_ok n s u e _ _ _ r H1 p N Tg) as (q & k' & x' & w & w' & -> & Nq & Qw' & Qw2 & A & B & C & D). cbn [bind]. exists q. split; auto. split; auto.
      exists (e, w), (k', w'). split; auto. split; auto. eapply fe_inside; [apply cb_e| |auto|auto|rewrite padd_0; exact D].
      destruct C as [[-> ->]|[-> ->]]; [apply ce_C; auto|]. rewrite <- Er. apply ce_V. auto.
    + destruct (half_ok n s u (neg e) _ _ _ (1 - r) H2 p N Tg) as (q & k' & x' & w & w' & -> & Nq & Qw' & Qw2 & A & B & C & D). cbn [bind]. exists q. split; auto. split; auto.
      exists (neg e, w), (k', w'). split; auto. split; auto. eapply fe_inside with (x' := padd (vv s e) x'); [apply cb_ne| |auto|auto|rewrite D, padd_assoc; reflexivity].
      rewrite neg_neg in C. rewrite (fs_odd n s S0 e He) in C. destruct C as [[-> ->]|[-> ->]].
      * replace (padd (vv s e) (padd (pneg (vv s e)) (vv s (fF s (neg e))))) with (vv s (fF s (neg e))). 2: { apply pt_eq; unfold padd, pneg; cbn [fst snd]; ring. }
        apply ce_D. auto.
      * replace (padd (vv s e) (pscale (1 - r) (pneg (vv s e)))) with (vden v). 2: { rewrite Er. apply pt_eq; unfold padd, pneg, pscale; cbn [fst snd]; ring. }
        apply ce_V. auto.
  - intros I. destruct i; auto. exfalso. apply I. now apply Ti.
Qed.

(** ** In a face *)
Lemma bary_change2 A B C V ap bp cp va ba ca : 0 < va + ba + ca -> 0 < ap + bp + cp -> A = bary V B C (va, ba, ca) ->
  bary A B C (ap, bp, cp) = bary V B C (ap * va, ap * ba + bp * (va + ba + ca), ap * ca + cp * (va + ba + ca)).
Proof.
  intros Z1 Z2 ->. unfold bary, padd, pscale; cbn [fst snd].
  assert (ap * va + (ap * ba + bp * (va + ba + ca)) + (ap * ca + cp * (va + ba + ca)) = (va + ba + ca) * (ap + bp + cp)) as -> by ring.
  apply pt_eq; cbn [fst snd]; field; lra.
Qed.
(** V is at [xv] inside of the triangle at AB. *)
Record third (n : nat) (s u : flat K) (AB BV VA CV : nat) (xv : pt) : Prop := {
  t_s : flat_surface n s; t_u : flat_surface (n + 6) u;
  t_cl : closed_surface n s; t_clu : closed_surface (n + 6) u;
  t_AB : (AB < n)%nat; t_BV : (BV < n + 6)%nat;
  t_ab : fF u AB = BV; t_bv : fF u BV = VA; t_va : fF u VA = AB;
  t_vb : fF u (neg BV) = fF s AB; t_bc : fF u (fF s AB) = CV; t_cv : fF u CV = neg BV;
  t_vAB : vv u AB = vv s AB; t_vBC : vv u (fF s AB) = vv s (fF s AB); t_vVA : vv u VA = pneg xv
}.
Section third.
Variables (n : nat) (s u : flat K) (AB BV VA CV : nat) (xv : pt).
Hypothesis Ht : third n s u AB BV VA CV xv.
Notation BC := (fF s AB).
Notation xb := (vv s AB).
Notation xc := (padd (vv s AB) (vv s (fF s AB))).
Let S0 := t_s _ _ _ _ _ _ _ _ Ht.
Let Su := t_u _ _ _ _ _ _ _ _ Ht.
Let Cl := t_cl _ _ _ _ _ _ _ _ Ht.
Let Clu := t_clu _ _ _ _ _ _ _ _ Ht.
Let HAB := t_AB _ _ _ _ _ _ _ _ Ht.
Let HBV := t_BV _ _ _ _ _ _ _ _ Ht.
Let HBC := fF_lt n s AB S0 HAB.
Let HABu : (AB < n + 6)%nat. Proof. lia. Qed.
Let HVB : (neg BV < n + 6)%nat := neg_ltn (n + 6) _ (fs_wf _ u Su) BV HBV.

Lemma vec_bv : vv u BV = padd xv (pneg xb).
Proof.
  destruct (closes (n + 6) u Su Clu AB HABu) as [E1 E2]. rewrite (t_ab _ _ _ _ _ _ _ _ Ht), (t_bv _ _ _ _ _ _ _ _ Ht), (t_vAB _ _ _ _ _ _ _ _ Ht), (t_vVA _ _ _ _ _ _ _ _ Ht) in E1, E2.
  apply pt_eq; unfold padd, pneg in *; cbn [fst snd] in *; lra.
Qed.
Lemma tri_vbc w : 0 < sum3 w -> padd xv (place u (neg BV) w) = bary xv xb xc w.
Proof.
  intros Z. rewrite place_bary by auto. rewrite (t_vb _ _ _ _ _ _ _ _ Ht), (t_vBC _ _ _ _ _ _ _ _ Ht), (fs_odd _ u Su BV HBV), vec_bv.
  replace (padd xv (pneg (padd xv (pneg xb)))) with xb; auto. apply pt_eq; unfold padd, pneg; cbn [fst snd]; ring.
Qed.
Lemma tri_bva w : 0 < sum3 w -> padd xb (place u BV w) = bary xb xv (0, 0) w.
Proof.
  intros Z. rewrite place_bary by auto. rewrite (t_bv _ _ _ _ _ _ _ _ Ht), (t_vVA _ _ _ _ _ _ _ _ Ht), vec_bv.
  replace (padd xb (padd xv (pneg xb))) with xv. 2: { apply pt_eq; unfold padd, pneg; cbn [fst snd]; ring. }
  replace (padd xv (pneg xv)) with (0, 0); auto. apply pt_eq; unfold padd, pneg; cbn [fst snd]; ring.
Qed.
Lemma third_ok p l w' : normal n p -> pface p = AB -> weights w' -> place s AB (den (pa p), den (pb p), den (pc p)) = padd xv (place u (neg BV) w') ->
  exists q, in_face_loop s u p (pface p) (AB :: l) = Ok q /\ normal (n + 6) q /\ same_point (n + 6) u (neg BV, w') (location q).
Proof.
  intros Np Ef Qw Pw. cbn [in_face_loop]. rewrite (coordinates_self n s S0 Cl p Np). cbn [bind]. rewrite (next_ok (n + 6) u Su AB HABu), (t_ab _ _ _ _ _ _ _ _ Ht). cbn [bind].
  assert (RA : rotate u (mkPoint AB 1%X 0%X 0%X) BV = Ok (mkPoint BV 0%X 0%X 1%X)).
  { unfold rotate. cbn [pface pa pb pc]. rewrite (next_ok (n + 6) u Su AB HABu), (t_ab _ _ _ _ _ _ _ _ Ht). cbn [bind]. now rewrite Nat.eqb_refl. }
  rewrite RA. cbn [bind].
  destruct (crossed_ok (n + 6) u Su Clu (mkPoint BV 0%X 0%X 1%X) HBV) as ([[va ba] ca] & E1 & Z1 & P1). rewrite E1. cbn [bind tden sum3 pface pa pb pc] in *.
  rewrite !den_ofZ in *. change (IZR 0) with 0 in *. change (IZR 1) with 1 in *. replace (0 + 0 + 1) with 1 in * by ring. rewrite Rmult_1_r in Z1.
  assert (A1 := area_pos (n + 6) u Su Clu _ HVB). rewrite <- Z1 in A1. clear Z1. specialize (P1 R1_neq_R0).
  assert (Wm : weights (den (pa p), den (pb p), den (pc p))) by now apply (normal_weights n p). assert (Zm := weights_sum _ Wm). unfold sum3 in Zm.
  assert (EA : (0, 0) = bary xv xb xc (den va, den ba, den ca)).
  { rewrite <- tri_vbc by (unfold sum3; auto). assert (Y : padd xb (padd (vv u BV) (place u (neg BV) (den va, den ba, den ca))) = bary xb xv (0, 0) (0, 0, 1)).
    { rewrite P1. apply tri_bva. unfold sum3. lra. }
    rewrite vec_bv, <- padd_assoc in Y. replace (padd xb (padd xv (pneg xb))) with xv in Y. 2: { apply pt_eq; unfold padd, pneg; cbn [fst snd]; ring. }
    rewrite Y. unfold bary, padd, pscale; cbn [fst snd]. apply pt_eq; cbn [fst snd]; field. }
  assert (X1 := bary_change2 (0, 0) xb xc xv _ _ _ _ _ _ A1 Zm EA).
  set (v1 := (pa p * va)%X). set (b1 := (pa p * ba + pb p * (va + ba + ca))%X). set (c1 := (pa p * ca + pc p * (va + ba + ca))%X).
  assert (Y1 : bary (0, 0) xb xc (den (pa p), den (pb p), den (pc p)) = bary xv xb xc (den v1, den b1, den c1)).
  { rewrite X1. unfold c1, v1, b1. rewrite !den_add, !den_mul, !den_add. reflexivity. }
  assert (T1 : 0 < den v1 + den b1 + den c1).
  { replace (den v1 + den b1 + den c1) with ((den va + den ba + den ca) * (den (pa p) + den (pb p) + den (pc p))) by (unfold c1, v1, b1; rewrite !den_add, !den_mul, !den_add; ring). now apply Rmult_lt_0_compat. }
  assert (M0 : place s AB (den (pa p), den (pb p), den (pc p)) = bary (0, 0) xb xc (den (pa p), den (pb p), den (pc p))).
  { rewrite <- (padd_0 (place s AB _)), place_bary by auto. now rewrite !padd_0. }
  rewrite M0, Y1, <- tri_vbc in Pw by (unfold sum3; auto). apply padd_inj in Pw. destruct w' as [[v' b'] c']. assert (Zw := weights_sum _ Qw). unfold sum3 in Zw.
  destruct (place_unique (n + 6) u Su Clu (neg BV) v' b' c' (den v1) (den b1) (den c1) HVB) as (U1 & U2 & U3); auto; try lra.
  destruct (proportional v' b' c' (den v1) (den b1) (den c1) Zw T1 U1 U2 U3) as (t & Ht' & Q1 & Q2 & Q3).
  assert (Wq : weights (den v1, den b1, den c1)). { destruct Qw as (V1 & V2 & V3 & _). unfold weights. rewrite Q1, Q2, Q3 in T1 |- *. repeat split; auto; apply Rmult_le_pos; lra. }
  clearbody v1 b1 c1.
  rewrite (proj2 (nonneg_spec K v1)), (proj2 (nonneg_spec K b1)), (proj2 (nonneg_spec K c1)) by apply Wq. cbn [andb].
  destruct (normalize_ok (n + 6) u Su Clu (mkPoint (neg BV) v1 b1 c1) HVB Wq) as (q & Eq & Nq & Tq). exists q. split; [exact Eq|]. split; auto.
  eapply sp_trans; [|exact (turned_sp (n + 6) u Su (mkPoint (neg BV) v1 b1 c1) q HVB Wq Tq)]. now apply (same_place (n + 6) u Su Clu).
Qed.
End third.

Lemma face_thirds n (s u : flat K) e v k x : flat_surface n s -> closed_surface n s -> (e < n)%nat -> face_inserted n s u e v -> corner_domain s e k x ->
  exists BV VA CV xv, third n s u k BV VA CV xv /\ padd x xv = v /\ (neg BV = n \/ neg BV = n + 2 \/ neg BV = n + 4)%nat.
Proof.
  intros S0 Cl He FI C. assert (Clu := face_closed n s u e v S0 Cl He FI). pose proof FI as [Su IF Old New]. assert (W := fs_wf n s S0). assert (Wu := fs_wf _ u Su).
  assert (H1 := fF_lt n s e S0 He). assert (H2 := fF_lt n s _ S0 H1). destruct (new_negs n (wf_even _ _ W)) as (N0 & N2 & N4 & N1 & N3 & N5).
  assert (E3 := wf_triangle _ _ W e He). change (fF s (fF s (fF s e)) = e) in E3.
  unfold inserted_faces in IF. change (nF (fT s)) with (fF s) in IF. change (nF (fT u)) with (fF u) in IF. destruct IF as (G1 & G2 & G3 & G4 & G5 & G6 & G7 & G8 & G9 & _).
  assert (Hn : (n < n + 6)%nat) by lia.
  assert (VA : vv u n = pneg v). { rewrite <- New, (fs_odd _ u Su n Hn). destruct (vv u n) as [a b]. unfold pneg. cbn [fst snd]. apply pt_eq; cbn [fst snd]; ring. }
  assert (VB : vv u (neg (n + 2)) = padd v (pneg (vv s e))).
  { assert (Hb : (neg (n + 2) < n + 6)%nat) by lia. destruct (closes _ u Su Clu _ Hb) as [X1 X2]. rewrite G3, G1, (Old e He), VA in X1, X2. apply pt_eq; unfold padd, pneg in *; cbn [fst snd] in *; lra. }
  assert (VC : vv u (neg n) = v) by exact New.
  assert (VB' : vv u (n + 2) = padd (vv s e) (pneg v)).
  { assert (Hb : (n + 2 < n + 6)%nat) by lia. assert (Y := fs_odd _ u Su _ Hb). rewrite VB in Y. destruct (vv u (n + 2)) as [a b]. assert (Y1 := f_equal fst Y). assert (Y2 := f_equal snd Y). clear - Y1 Y2. apply pt_eq; unfold padd, pneg in *; cbn [fst snd] in *; lra. }
  assert (VC' : vv u (n + 4) = padd (padd (vv s e) (vv s (fF s e))) (pneg v)).
  { assert (Hb : (neg n < n + 6)%nat) by lia. destruct (closes _ u Su Clu _ Hb) as [X1 X2]. rewrite G9, G7, (Old _ H2), VC in X1, X2. destruct (closes n s S0 Cl e He) as [X3 X4].
    apply pt_eq; unfold padd, pneg in *; cbn [fst snd] in *; lra. }
  destruct C.
  - exists (neg (n + 2)), n, (neg (n + 4)), v. split; [|split; [apply padd_0|rewrite neg_neg; auto]]. split; rewrite ?neg_neg; auto; try lia.
  - exists (neg (n + 4)), (n + 2)%nat, (neg n), (padd v (pneg (vv s e))). split; [|split; [|rewrite neg_neg; auto]].
    + split; rewrite ?neg_neg; auto; try lia. rewrite VB'. apply pt_eq; unfold padd, pneg; cbn [fst snd]; ring.
    + apply pt_eq; unfold padd, pneg; cbn [fst snd]; ring.
  - exists (neg n), (n + 4)%nat, (neg (n + 2)), (padd v (pneg (padd (vv s e) (vv s (fF s e))))). split; [|split; [|rewrite neg_neg; auto]].
    + split; rewrite ?E3, ?neg_neg; auto; try lia. rewrite VC'. apply pt_eq; unfold padd, pneg; cbn [fst snd]; ring.
    + apply pt_eq; unfold padd, pneg; cbn [fst snd]; ring.
Qed.

(** The smallest half edge that ends in the new vertex. *)
Lemma incoming_first n (s u : flat K) e v w0 : flat_surface n s -> closed_surface n s -> (e < n)%nat -> face_inserted n s u e v -> vertex_source (fT u) n = Ok w0 ->
  first_incoming w0 = neg n.
Proof.
  intros S0 Cl He FI E. assert (W := fs_wf n s S0). assert (Su := fi_surface _ _ _ _ _ FI). assert (Wu := fs_wf _ u Su). destruct (new_negs n (wf_even _ _ W)) as (N0 & N2 & N4 & N1 & N3 & N5).
  assert (Hn : (n < n + 6)%nat) by lia.
  destruct (vertex_source_Ok (n + 6) (fT u) n Wu Hn) as (w & E' & _ & C). rewrite E in E'. inv E'.
  destruct (proj2 (face_angles n s u e v S0 Cl He FI) w E) as (_ & NO).
  unfold first_incoming. set (l := map neg (filter (scontains w) (seq 0 (length w)))).
  assert (M : forall x, scontains (sof_list l) x = true <-> exists y, x = neg y /\ scontains w y = true).
  { intros x. rewrite contains_mem. unfold sof_list. rewrite mem_of_list. destruct (in_dec Nat.eq_dec x l) as [I|I].
    - cbn [Datatypes.orb]. split; auto. intros _. unfold l in I. apply in_map_iff in I as (y & <- & I). apply filter_In in I as [_ I]. eauto.
    - cbn [Datatypes.orb]. split; [intros M; unfold mem, sempty_set in M; cbn in M; destruct x; discriminate|]. intros (y & -> & Cy). exfalso. apply I. unfold l. apply in_map. apply filter_In. split; auto.
      apply in_seq. split; [lia|]. unfold scontains in Cy. destruct (Nat.leb_spec (length w) y); [discriminate|]. lia. }
  assert (B : scontains (sof_list l) (neg n) = true). { apply M. exists n. split; auto. apply C. split; auto. exists 0%nat. reflexivity. }
  destruct (sbegin_first _ _ B) as [B1 B2]. specialize (B2 _ B). apply M in B1 as (y & Ey & Cy). rewrite Ey in *.
  apply C in Cy as Hy. destruct Hy as [Hy _]. destruct (le_lt_dec n y) as [L|L].
  - assert (y = n \/ y = n + 1)%nat as [-> | ->].
    { assert (D : (y = n \/ y = n + 1 \/ y = n + 2 \/ y = n + 3 \/ y = n + 4 \/ y = n + 5)%nat) by lia. rewrite N0 in B2.
      destruct D as [->|[->|[->|[->|[->| ->]]]]]; auto; exfalso; rewrite ?N2, ?N3, ?N4, ?N5 in B2; lia. }
    + auto.
    + exfalso. apply C in Cy as [_ (j & Ej)]. destruct (face_vertices n s u e v S0 He (Cl e He) FI) as (_ & _ & _ & _ & _ & _ & V7 & V8 & V9 & _).
      assert (Q : In (Nat.iter j (nV (fT u)) n) [n; n + 2; n + 4]%nat).
      { apply iter_in; [now left|]. intros z [<-|[<-|[<-|[]]]]; change (nV (fT u)) with (fV u); rewrite ?V7, ?V8, ?V9; cbn; auto. }
      rewrite Ej in Q. cbn in Q. lia.
  - rewrite NO in Cy by auto. discriminate.
Qed.

Theorem face_image_ok n (s u : flat K) e (v : vec K) w0 p : flat_surface n s -> closed_surface n s -> (e < n)%nat ->
  inside s e (vden v) -> face_inserted n s u e (vden v) -> vertex_source (fT u) n = Ok w0 -> normal n p ->
  (forall x w', corner_domain s e (pface p) x -> weights w' ->
     padd x (place s (pface p) (den (pa p), den (pb p), den (pc p))) = padd (vden v) (place u (neg (fF u (pface p))) w') ->
     exists q, insertion_image truediv s u (InFace w0) p = Ok (u, q) /\ normal (n + 6) q /\
       face_image n s u e (vden v) (location p) (neg (fF u (pface p)), w') /\ same_point (n + 6) u (neg (fF u (pface p)), w') (location q)) /\
  (~ In (pface p) [e; fF s e; fF s (fF s e)] -> insertion_image truediv s u (InFace w0) p = Ok (s, p)).
Proof.
  intros S0 Cl He In FI Ew N. assert (W := fs_wf n s S0). assert (Su := fi_surface _ _ _ _ _ FI). assert (Wu := fs_wf _ u Su).
  assert (Ha : (neg n < n + 6)%nat) by (destruct (new_negs n (wf_even _ _ W)) as (-> & _); lia).
  assert (Va : vden (vat' u (neg n)) = vden v) by (change (vv u (neg n) = vden v); apply (fi_new _ _ _ _ _ FI)).
  destruct (place_exists n s S0 Cl e (vden v) He) as (w1 & Z1 & P1).
  assert (Qw1 : weights w1).
  { destruct In as (A & B & C). destruct w1 as [[a b] c]. unfold sum3 in Z1. rewrite <- P1 in A, B, C.
    destruct (weight_signs (place s e (a, b, c)) (0, 0) (vv s e) (padd (vv s e) (vv s (fF s e))) a b c Z1) as (G1 & G2 & G3).
    - assert (D := area_pos n s S0 Cl e He). unfold orient, psub, pdet, padd, pneg in *; cbn [fst snd] in *. lra.
    - rewrite <- (padd_0 (place s e _)), place_bary by auto. now rewrite !padd_0.
    - destruct (closes n s S0 Cl e He) as [X3 X4]. set (x := place s e (a, b, c)) in *. unfold orient, psub, pdet, padd, pneg in *; cbn [fst snd] in *.
      unfold weights. split; [|split; [|split]]; auto.
      + apply G1. lra.
      + apply G2. nra.
      + apply G3. lra. }
  destruct (point_at n s e (vat' u (neg n)) S0 Cl He) as (V & w & EV & NV & Qw & Pw & Sw). { rewrite Va. eauto. }
  rewrite Va in Pw. destruct (face_weights n s e _ w S0 Cl He In Qw Pw) as (a & b & c & -> & Pa & Pb & Pc).
  destruct (face_normal n s e a b c V S0 Cl He Pa Pb Pc NV Sw) as (Vb & Vc & Vf).
  assert (IP : insertion_point truediv s u (InFace w0) = Ok V).
  { unfold insertion_point. rewrite (incoming_first n s u e (vden v)) by auto. rewrite (prevV_Ok (n + 6)) by auto. cbn [bind].
    replace (pV (fT u) (neg n)) with e. 2: { assert (Q := proj1 (face_vertices n s u e _ S0 He (Cl e He) FI)). destruct (new_negs n (wf_even _ _ W)) as (N0 & _). rewrite N0, <- Q. symmetry. apply (pV_nV (n + 6)); auto. lia. }
    rewrite from_he_Ok by now rewrite (fs_length _ u Su). cbn [bind]. rewrite EV. reflexivity. }
  unfold insertion_image. rewrite IP. cbn [bind]. assert (Hp := proj1 N).
  destruct (in_ok n s S0 Cl V (pface p) NV Hp) as (i & Ei & Ii). rewrite Ei. cbn [bind].
  assert (Ti : i = true <-> (pface p = e \/ pface p = fF s e \/ pface p = fF s (fF s e))).
  { rewrite Ii. unfold touches. split.
    - intros [T|[[Z _]|(_ & Z & _)]]; [|lra|lra]. destruct Vf as [Vf|Vf].
      + rewrite Vf in T. now apply (face_cycle n s) in T.
      + assert (H1 := fF_lt n s e S0 He). assert (H2 := fF_lt n s _ S0 H1). assert (E3 := wf_triangle _ _ W e He). change (fF s (fF s (fF s e)) = e) in E3.
        apply (face_cycle n s) in T; auto. destruct Vf as [Vf|Vf]; rewrite Vf in T; rewrite ?E3 in T; tauto.
    - intros T. left. destruct T as [-> | [-> | ->]]; assert (E3 := wf_triangle _ _ W e He); change (fF s (fF s (fF s e)) = e) in E3; rewrite ?E3; tauto. }
  split.
  - intros x w' Cd Qw' E.
    assert (T : pface p = e \/ pface p = fF s e \/ pface p = fF s (fF s e)) by (destruct Cd; auto).
    rewrite (proj2 Ti T). cbn [negb]. rewrite (next_ok n s S0 _ Hp). cbn [bind]. rewrite (prev_ok n s S0 _ Hp). cbn [bind].
    destruct (face_thirds n s u e _ _ _ S0 Cl He FI Cd) as (BV & VA & CV & xv & Ht & Ex & NB). rewrite (t_ab _ _ _ _ _ _ _ _ Ht) in *.
    destruct (third_ok n s u _ _ _ _ _ Ht p [fF s (pface p); fF s (fF s (pface p))] w' N eq_refl Qw') as (q & Eq & Nq & Sq).
    { rewrite <- Ex, padd_assoc in E. now apply padd_inj in E. }
    rewrite Eq. cbn [bind]. exists q. split; auto. split; auto. split; auto. eapply ff_inside; [exact Cd| |now apply (normal_weights n p)|auto|exact E].
    apply cf_V. tauto.
  - intros I. destruct i; auto. exfalso. apply I. destruct (proj1 Ti eq_refl) as [-> | [-> | ->]]; cbn [List.In]; auto.
Qed.
End image.
