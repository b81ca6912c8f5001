(** * Points and flips *)
From Coq Require Import ZArith Reals List Arith Bool Lia Lra Psatz Relations.
From Verif Require Import Base HalfEdge HalfEdgeFacts Perm PermSpec PermFacts PermCycles PermLemmas
  IndexedSet IndexedSetSpec IndexedSetFacts Combinatorial CombinatorialSpec CombinatorialFacts CombinatorialFlip
  CombinatorialHistory CombinatorialOps ExactReal Vector PlaneSpec Plane VectorFacts FlatTri FlatSpec FlatFacts FlatDelaunay
  Point PointSpec PointFacts PointOps PointEq PointHash PointPlane.
Import ListNotations.
Local Open Scope R_scope.

Definition psub (p q : pt) : pt := padd p (pneg q).
(** Twice the area of a triangle. *)
Definition orient (p q r : pt) : R := pdet (psub q p) (psub r p).
(** The centre of mass. *)
Definition bary (p q r : pt) (w : R * R * R) : pt :=
  let '(a, b, c) := w in pscale (1 / (a + b + c)) (padd (padd (pscale a p) (pscale b q)) (pscale c r)).

Lemma padd_comm p q : padd p q = padd q p.
Proof. unfold padd. f_equal; ring. Qed.
Lemma padd_assoc p q r : padd (padd p q) r = padd p (padd q r).
Proof. unfold padd; cbn [fst snd]. f_equal; ring. Qed.
Lemma padd_inj p q r : padd p q = padd p r -> q = r.
Proof. unfold padd. intros E. injection E as E1 E2. apply pt_eq; lra. Qed.
Lemma orient_rot p q r : orient q r p = orient p q r.
Proof. unfold orient, psub, pdet, padd, pneg; cbn [fst snd]. ring. Qed.

(** In one surface. *)
Section one.
Context {K : ExactReal}.
Variables (n : nat) (s : flat K).
Hypothesis S0 : flat_surface n s.
Hypothesis Cl : closed_surface n s.
Notation F := (fF s).
Notation sp := (same_point n s).

Lemma place_bary x h w : 0 < sum3 w -> padd x (place s h w) = bary x (padd x (vv s h)) (padd (padd x (vv s h)) (vv s (F h))) w.
Proof.
  destruct w as [[a b] c]. unfold sum3. intros Z. unfold place, bary, padd, pscale; cbn [fst snd]. f_equal; field; lra.
Qed.
Lemma bary_rot p q r a b c : bary q r p (b, c, a) = bary p q r (a, b, c).
Proof. unfold bary. replace (b + c + a) with (a + b + c) by ring. unfold padd, pscale; cbn [fst snd]. f_equal; ring. Qed.

(** A point has a place in the plane of each triangle. *)
Lemma place_exists h x : (h < n)%nat -> exists w, 0 < sum3 w /\ place s h w = x.
Proof.
  intros H. assert (A := area_pos n s S0 Cl h H). unfold pdet in A.
  set (ac := padd (vv s h) (vv s (F h))). set (b := pdet x ac). set (c := pdet (vv s h) x).
  exists (pdet (vv s h) (vv s (F h)) - b - c, b, c). unfold sum3. split; [unfold pdet; lra|].
  unfold place. replace (pdet (vv s h) (vv s (F h)) - b - c + b + c) with (pdet (vv s h) (vv s (F h))) by ring.
  unfold b, c, ac, pdet, padd, pscale in *; cbn [fst snd] in *. destruct x as [x y]; cbn [fst snd]. f_equal; field; lra.
Qed.
(** Same place in the same triangle. *)
Lemma same_place h w w' : (h < n)%nat -> weights w -> weights w' -> place s h w = place s h w' -> sp (h, w) (h, w').
Proof.
  intros H Q Q' E. destruct w as [[a b] c], w' as [[a' b'] c']. assert (Z := weights_sum _ Q). assert (Z' := weights_sum _ Q'). unfold sum3 in Z, Z'.
  destruct (place_unique n s S0 Cl h a b c a' b' c') as (X1 & X2 & X3); auto; try lra. now apply sp_prop.
Qed.
(** Same place in neighbouring triangles. *)
Lemma same_place_across h w w' : (h < n)%nat -> weights w -> weights w' -> place s h w = padd (vv s h) (place s (neg h) w') -> sp (h, w) (neg h, w').
Proof.
  intros H Q Q' E. destruct w as [[a b] c], w' as [[a' b'] c']. assert (Z := weights_sum _ Q). assert (Z' := weights_sum _ Q'). unfold sum3 in Z, Z'.
  assert (Hn := neg_lt n s S0 h H). pose proof (area_pos n s S0 Cl h H) as A1. pose proof (area_pos n s S0 Cl _ Hn) as A2.
  assert (Y : c / (a + b + c) * pdet (vv s h) (vv s (F h)) = - (c' / (a' + b' + c') * pdet (vv s (neg h)) (vv s (F (neg h))))).
  { rewrite <- !place_side by lra. rewrite E. rewrite (fs_odd n s S0 h H). generalize (place s (neg h) (a', b', c')). intros y.
    unfold pdet, padd, pneg; cbn [fst snd]. ring. }
  assert (P1 : 0 <= c / (a + b + c)). { apply Rmult_le_pos; [apply Q|]. apply Rlt_le. now apply Rinv_0_lt_compat. }
  assert (P2 : 0 <= c' / (a' + b' + c')). { apply Rmult_le_pos; [apply Q'|]. apply Rlt_le. now apply Rinv_0_lt_compat. }
  assert (c / (a + b + c) = 0) as C1 by nra. assert (c = 0) as ->. { apply (f_equal (fun z => z * (a + b + c))) in C1. field_simplify in C1; lra. }
  eapply sp_trans; [apply sp_glue; auto|]. apply same_place; auto. { unfold weights in *. lra. }
  apply (padd_inj (vv s h)). rewrite <- E. apply (place_glue n s S0); auto. lra.
Qed.

(** The signs of the weights. *)
Lemma weight_c x p q r a b c : 0 < a + b + c -> x = bary p q r (a, b, c) -> orient p q x = c / (a + b + c) * orient p q r.
Proof. intros Z ->. unfold bary, orient, psub, pdet, padd, pneg, pscale; cbn [fst snd]. field; lra. Qed.
Lemma weight_signs x p q r a b c : 0 < a + b + c -> 0 < orient p q r -> x = bary p q r (a, b, c) ->
  (0 <= a <-> 0 <= orient q r x) /\ (0 <= b <-> 0 <= orient r p x) /\ (0 <= c <-> 0 <= orient p q x).
Proof.
  intros Z O E.
  assert (G : forall c t o, 0 < t -> 0 < o -> (0 <= c <-> 0 <= c / t * o)).
  { intros y t o T P. assert (X : 0 < / t) by now apply Rinv_0_lt_compat. unfold Rdiv. split; intros Y; [apply Rmult_le_pos; [apply Rmult_le_pos|]; lra|].
    assert (y * (/ t * o) >= 0) by lra. assert (0 < / t * o) by nra. nra. }
  pose proof (weight_c x p q r a b c Z E) as W1.
  pose proof (weight_c x q r p b c a ltac:(lra) ltac:(now rewrite bary_rot)) as W2.
  pose proof (weight_c x r p q c a b ltac:(lra) ltac:(now rewrite <- bary_rot)) as W3.
  rewrite W1, W2, W3. rewrite orient_rot. rewrite (orient_rot r p q), (orient_rot q r p) in *.
  replace (orient r p q) with (orient p q r) by (now rewrite <- (orient_rot p q r), <- (orient_rot q r p)).
  split; [|split]; apply G; lra.
Qed.
End one.

(** An affine map that is not negative at the corners. *)
Lemma orient_convex u v p q r w : weights w -> 0 <= orient u v p -> 0 <= orient u v q -> 0 <= orient u v r -> 0 <= orient u v (bary p q r w).
Proof.
  destruct w as [[a b] c]. intros Q P1 P2 P3. assert (Z := weights_sum _ Q). unfold sum3 in Z. destruct Q as (A & B & C & _).
  replace (orient u v (bary p q r (a, b, c))) with (/ (a + b + c) * (a * orient u v p + b * orient u v q + c * orient u v r)).
  - apply Rmult_le_pos; [apply Rlt_le; now apply Rinv_0_lt_compat|]. assert (0 <= a * orient u v p) by now apply Rmult_le_pos.
    assert (0 <= b * orient u v q) by now apply Rmult_le_pos. assert (0 <= c * orient u v r) by now apply Rmult_le_pos. lra.
  - unfold bary, orient, psub, pdet, padd, pneg, pscale; cbn [fst snd]. field; lra.
Qed.

(** A point of the triangle ABC in the triangles DCA and CDB, in a convex quadrilateral. *)
Lemma split_signs A B C D w wd wc wa uc ud ub :
  0 < orient A B C -> 0 < orient B A D -> 0 < orient C D B -> 0 < orient D C A ->
  weights w -> 0 < wd + wc + wa -> 0 < uc + ud + ub ->
  bary A B C w = bary D C A (wd, wc, wa) -> bary A B C w = bary C D B (uc, ud, ub) ->
  0 <= wd /\ 0 <= wc /\ 0 <= uc /\ 0 <= ud /\ (wa < 0 -> 0 <= ub).
Proof.
  intros P1 P2 P3 P4 Qw Z Z' E E'.
  destruct (weight_signs _ _ _ _ _ _ _ Z P4 E) as (Wd & Wc & Wa). destruct (weight_signs _ _ _ _ _ _ _ Z' P3 E') as (Uc & Ud & Ub).
  assert (OO : forall p q, orient p q p = 0 /\ orient p q q = 0) by (intros; unfold orient, psub, pdet, padd, pneg; cbn [fst snd]; split; ring).
  assert (N : orient C D (bary A B C w) = - orient D C (bary A B C w)) by (generalize (bary A B C w); intros; unfold orient, psub, pdet, padd, pneg; cbn [fst snd]; ring).
  assert (0 <= orient C A (bary A B C w)). { apply orient_convex; auto; [rewrite (proj2 (OO _ _)); lra| |rewrite (proj1 (OO _ _)); lra]. rewrite <- orient_rot. lra. }
  assert (0 <= orient A D (bary A B C w)). { apply orient_convex; auto; [rewrite (proj1 (OO _ _)); lra| |]; [rewrite orient_rot|rewrite <- orient_rot]; lra. }
  assert (0 <= orient D B (bary A B C w)). { apply orient_convex; auto; [|rewrite (proj2 (OO _ _)); lra|]; [rewrite <- orient_rot|rewrite orient_rot]; lra. }
  assert (0 <= orient B C (bary A B C w)). { apply orient_convex; auto; [|rewrite (proj1 (OO _ _)); lra|rewrite (proj2 (OO _ _)); lra]. rewrite orient_rot; lra. }
  repeat split; try tauto. intros G. apply Ub. rewrite N. destruct (Rle_or_lt 0 (orient D C (bary A B C w))) as [L|L]; [apply Wa in L; lra|lra].
Qed.

(** Two triangulations of the same quadrilateral: [(e a b)(-e c d)] and [(a g d)(c -g b)]. *)
Record quad {K : ExactReal} (n : nat) (s s' : flat K) (e g a b c d : nat) : Prop := {
  q_s : flat_surface n s; q_s' : flat_surface n s';
  q_cl : closed_surface n s; q_cl' : closed_surface n s';
  q_e : (e < n)%nat; q_g : g = e \/ g = neg e;
  q_ea : fF s e = a; q_ab : fF s a = b; q_be : fF s b = e;
  q_ec : fF s (neg e) = c; q_cd : fF s c = d; q_de : fF s d = neg e;
  q_ag : fF s' a = g; q_gd : fF s' g = d; q_da : fF s' d = a;
  q_cg : fF s' c = neg g; q_gb : fF s' (neg g) = b; q_bc : fF s' b = c;
  q_other : forall i, (i < n)%nat -> ~ In i [e; a; b; neg e; c; d] -> fF s' i = fF s i;
  q_vec : forall i, (i < n)%nat -> i <> e -> i <> neg e -> vv s' i = vv s i
}.

Lemma quad_sym {K : ExactReal} n (s s' : flat K) e g a b c d : quad n s s' e g a b c d -> quad n s s' (neg e) (neg g) c d a b.
Proof.
  intros [Q1 Q2 Q3 Q4 Q5 Q6 Q7 Q8 Q9 Q10 Q11 Q12 Q13 Q14 Q15 Q16 Q17 Q18 Q19 Q20].
  split; rewrite ?neg_neg; auto.
  - now apply (neg_lt n s Q1).
  - destruct Q6 as [->| ->]; rewrite ?neg_neg; auto.
  - intros i Hi N. apply Q19; auto. cbn [In] in *. tauto.
Qed.
Lemma quad_rev {K : ExactReal} n (s s' : flat K) e g a b c d : quad n s s' e g a b c d -> quad n s' s g (neg e) d a b c.
Proof.
  intros [Q1 Q2 Q3 Q4 Q5 Q6 Q7 Q8 Q9 Q10 Q11 Q12 Q13 Q14 Q15 Q16 Q17 Q18 Q19 Q20].
  split; rewrite ?neg_neg; auto.
  - destruct Q6 as [->| ->]; auto. now apply (neg_lt n s Q1).
  - destruct Q6 as [->| ->]; rewrite ?neg_neg; auto.
  - intros i Hi N. symmetry. apply Q19; auto. cbn [In] in *. destruct Q6 as [->| ->]; rewrite ?neg_neg in *; tauto.
  - intros i Hi N1 N2. symmetry. apply Q20; auto; destruct Q6 as [->| ->]; rewrite ?neg_neg in *; auto.
Qed.

(** Where the half edges start, if [e] starts at [x0]. *)
Definition before {K : ExactReal} (s : flat K) (e a b c d : nat) (x0 : pt) (k : nat) (x : pt) : Prop :=
  let xb := padd x0 (vv s e) in let xc := padd xb (vv s a) in let xd := padd x0 (vv s c) in
  (k = e /\ x = x0) \/ (k = a /\ x = xb) \/ (k = b /\ x = xc) \/ (k = neg e /\ x = xb) \/ (k = c /\ x = x0) \/ (k = d /\ x = xd).
Definition after {K : ExactReal} (s : flat K) (e g a b c d : nat) (x0 : pt) (k : nat) (x : pt) : Prop :=
  let xb := padd x0 (vv s e) in let xc := padd xb (vv s a) in let xd := padd x0 (vv s c) in
  (k = a /\ x = xb) \/ (k = g /\ x = xc) \/ (k = d /\ x = xd) \/ (k = c /\ x = x0) \/ (k = neg g /\ x = xd) \/ (k = b /\ x = xc).
(** The same point of the plane. *)
Definition im {K : ExactReal} (n : nat) (s s' : flat K) (e g a b c d : nat) (x0 : pt) (r r' : rep) : Prop :=
  (r = r' /\ (fst r < n)%nat /\ weights (snd r) /\ ~ In (fst r) [e; a; b; neg e; c; d]) \/
  (exists x x', before s e a b c d x0 (fst r) x /\ after s e g a b c d x0 (fst r') x' /\ weights (snd r) /\ weights (snd r') /\
     padd x (place s (fst r) (snd r)) = padd x' (place s' (fst r') (snd r'))).

Section quad.
Context {K : ExactReal}.
Variables (n : nat) (s s' : flat K) (e g a b c d : nat).
Hypothesis Q : quad n s s' e g a b c d.
Variable x0 : pt.
Notation xb := (padd x0 (vv s e)).
Notation xc := (padd (padd x0 (vv s e)) (vv s a)).
Notation xd := (padd x0 (vv s c)).
Local Notation bef := (before s e a b c d x0).
Local Notation aft := (after s e g a b c d x0).
Local Notation img := (im n s s' e g a b c d x0).
Let S0 := q_s _ _ _ _ _ _ _ _ _ Q.
Let S1 := q_s' _ _ _ _ _ _ _ _ _ Q.
Let Cl := q_cl _ _ _ _ _ _ _ _ _ Q.
Let Cl' := q_cl' _ _ _ _ _ _ _ _ _ Q.

Lemma lts : (e < n /\ neg e < n /\ a < n /\ b < n /\ c < n /\ d < n /\ g < n /\ neg g < n)%nat.
Proof.
  assert (He := q_e _ _ _ _ _ _ _ _ _ Q). assert (Hn := neg_lt n s S0 e He).
  assert (Ha : (a < n)%nat) by (rewrite <- (q_ea _ _ _ _ _ _ _ _ _ Q); now apply (F_lt n s S0)).
  assert (Hb : (b < n)%nat) by (rewrite <- (q_ab _ _ _ _ _ _ _ _ _ Q); now apply (F_lt n s S0)).
  assert (Hc : (c < n)%nat) by (rewrite <- (q_ec _ _ _ _ _ _ _ _ _ Q); now apply (F_lt n s S0)).
  assert (Hd : (d < n)%nat) by (rewrite <- (q_cd _ _ _ _ _ _ _ _ _ Q); now apply (F_lt n s S0)).
  repeat (split; auto); destruct (q_g _ _ _ _ _ _ _ _ _ Q) as [->| ->]; rewrite ?neg_neg; auto.
Qed.
Lemma sides_ne k : k = a \/ k = b \/ k = c \/ k = d -> k <> e /\ k <> neg e.
Proof.
  destruct lts as (He & Hn & Ha & Hb & Hc & Hd & _).
  pose proof (F_neg n s S0 Cl e He) as [A1 A2]. pose proof (F_neg n s S0 Cl _ Hn) as [B1 B2]. rewrite neg_neg in B1, B2.
  pose proof (F_ne n s Cl e He) as A3. pose proof (FF_ne n s S0 Cl e He) as A4. pose proof (F_ne n s Cl _ Hn) as B3. pose proof (FF_ne n s S0 Cl _ Hn) as B4.
  rewrite (q_ea _ _ _ _ _ _ _ _ _ Q) in A1, A2, A3, A4. rewrite (q_ab _ _ _ _ _ _ _ _ _ Q) in A2, A4.
  rewrite (q_ec _ _ _ _ _ _ _ _ _ Q) in B1, B2, B3, B4. rewrite (q_cd _ _ _ _ _ _ _ _ _ Q) in B2, B4.
  intros [->|[->|[->| ->]]]; auto.
Qed.
Lemma vec_side k : k = a \/ k = b \/ k = c \/ k = d -> vv s' k = vv s k.
Proof.
  intros X. destruct (sides_ne k X). apply (q_vec _ _ _ _ _ _ _ _ _ Q); auto.
  destruct lts as (He & Hn & Ha & Hb & Hc & Hd & _). destruct X as [->|[->|[->| ->]]]; auto.
Qed.

(** The corners close up. *)
Lemma end_b : padd xc (vv s b) = x0.
Proof.
  destruct lts as (He & _). destruct (closes n s S0 Cl e He) as [X Y]. rewrite (q_ea _ _ _ _ _ _ _ _ _ Q), (q_ab _ _ _ _ _ _ _ _ _ Q) in X, Y.
  unfold padd; cbn [fst snd]. apply pt_eq; cbn [fst snd]; lra.
Qed.
Lemma end_ne : padd xb (vv s (neg e)) = x0.
Proof. destruct lts as (He & _). rewrite (fs_odd n s S0 e He). unfold padd, pneg; cbn [fst snd]. apply pt_eq; cbn [fst snd]; ring. Qed.
Lemma end_d : padd xd (vv s d) = xb.
Proof.
  destruct lts as (He & Hn & _). destruct (closes n s S0 Cl _ Hn) as [X Y]. rewrite (q_ec _ _ _ _ _ _ _ _ _ Q), (q_cd _ _ _ _ _ _ _ _ _ Q) in X, Y.
  destruct (vv_neg n s S0 e He) as [X' Y'].
  unfold padd; cbn [fst snd]. apply pt_eq; cbn [fst snd]; lra.
Qed.
Lemma end_g : padd xc (vv s' g) = xd.
Proof.
  destruct lts as (He & Hn & Ha & Hb & Hc & Hd & Hg & _). destruct (closes n s' S1 Cl' _ Ha) as [X Y].
  rewrite (q_ag _ _ _ _ _ _ _ _ _ Q), (q_gd _ _ _ _ _ _ _ _ _ Q), (vec_side a), (vec_side d) in X, Y by auto.
  pose proof (f_equal fst end_d) as E1. pose proof (f_equal snd end_d) as E2. unfold padd in *; cbn [fst snd] in *. apply pt_eq; cbn [fst snd]; lra.
Qed.
Lemma end_ng : padd xd (vv s' (neg g)) = xc.
Proof.
  destruct lts as (_ & _ & _ & _ & _ & _ & Hg & _). rewrite (fs_odd n s' S1 g Hg), <- end_g.
  unfold padd, pneg; cbn [fst snd]. apply pt_eq; cbn [fst snd]; ring.
Qed.

(** The six triangles. *)
Lemma tri_before k x w : bef k x -> 0 < sum3 w -> padd x (place s k w) = bary x (padd x (vv s k)) (padd (padd x (vv s k)) (vv s (fF s k))) w.
Proof. intros _. apply place_bary. Qed.
Lemma tri_e w : 0 < sum3 w -> padd x0 (place s e w) = bary x0 xb xc w.
Proof. intros Z. rewrite place_bary by auto. now rewrite (q_ea _ _ _ _ _ _ _ _ _ Q). Qed.
Lemma tri_g w : 0 < sum3 w -> padd xc (place s' g w) = bary xc xd xb w.
Proof. intros Z. rewrite place_bary by auto. rewrite (q_gd _ _ _ _ _ _ _ _ _ Q), end_g, (vec_side d), end_d by auto. reflexivity. Qed.
Lemma tri_ng w : 0 < sum3 w -> padd xd (place s' (neg g) w) = bary xd xc x0 w.
Proof. intros Z. rewrite place_bary by auto. rewrite (q_gb _ _ _ _ _ _ _ _ _ Q), end_ng, (vec_side b), end_b by auto. reflexivity. Qed.

Lemma orient_at h (t : flat K) x : orient x (padd x (vv t h)) (padd (padd x (vv t h)) (vv t (fF t h))) = pdet (vv t h) (vv t (fF t h)).
Proof. unfold orient, psub, padd, pneg, pdet; cbn [fst snd]. ring. Qed.
Lemma pos_abc : 0 < orient x0 xb xc.
Proof. destruct lts as (He & _). rewrite <- (q_ea _ _ _ _ _ _ _ _ _ Q). rewrite orient_at. now apply (area_pos n s). Qed.
Lemma pos_bad : 0 < orient xb x0 xd.
Proof.
  destruct lts as (He & Hn & _). pose proof (area_pos n s S0 Cl _ Hn) as A. rewrite <- (orient_at (neg e) s xb) in A. rewrite end_ne in A.
  now rewrite (q_ec _ _ _ _ _ _ _ _ _ Q) in A.
Qed.
Lemma pos_cdb : 0 < orient xc xd xb.
Proof.
  destruct lts as (_ & _ & _ & _ & _ & _ & Hg & _). pose proof (area_pos n s' S1 Cl' _ Hg) as A. rewrite <- (orient_at g s' xc) in A. rewrite end_g in A.
  rewrite (q_gd _ _ _ _ _ _ _ _ _ Q), (vec_side d), end_d in A by auto. exact A.
Qed.
Lemma pos_dca : 0 < orient xd xc x0.
Proof.
  destruct lts as (_ & _ & _ & _ & _ & _ & _ & Hg). pose proof (area_pos n s' S1 Cl' _ Hg) as A. rewrite <- (orient_at (neg g) s' xd) in A. rewrite end_ng in A.
  rewrite (q_gb _ _ _ _ _ _ _ _ _ Q), (vec_side b), end_b in A by auto. exact A.
Qed.


Lemma six_nodup : NoDup [e; a; b; neg e; c; d].
Proof.
  destruct lts as (He & Hn & Ha & Hb & Hc & Hd & _).
  pose proof (sides_ne a ltac:(auto)) as [A1 A2]. pose proof (sides_ne b ltac:(auto)) as [B1 B2].
  pose proof (sides_ne c ltac:(auto)) as [C1 C2]. pose proof (sides_ne d ltac:(auto)) as [D1 D2]. assert (N := neg_ne e).
  pose proof Q as [_ _ _ _ _ _ E1 E2 E3 E4 E5 E6 _ _ _ _ _ _ _ _].
  assert (a <> b). { intros X. rewrite X in E2. rewrite E2 in E3. auto. }
  assert (c <> d). { intros X. rewrite X in E5. rewrite E5 in E6. auto. }
  assert (b <> d). { intros X. rewrite X in E3. rewrite E3 in E6. auto. }
  assert (a <> c). { intros X. rewrite X, E5 in E2. auto. }
  assert (a <> d). { intros X. rewrite X, E6 in E2. auto. }
  assert (b <> c). { intros X. rewrite X, E5 in E3. auto. }
  repeat constructor; cbn [In]; intros; intuition congruence.
Qed.
Lemma bef_fun k x y : bef k x -> bef k y -> x = y.
Proof.
  pose proof six_nodup as N. rewrite !NoDup_cons_iff in N. cbn [In] in N. unfold before. intros X Y.
  intuition congruence.
Qed.
Lemma bef_in k x : bef k x -> In k [e; a; b; neg e; c; d] /\ (k < n)%nat.
Proof. destruct lts as (He & Hn & Ha & Hb & Hc & Hd & _). unfold before. cbn [In]. intuition (subst; auto). Qed.
Lemma in_bef k : In k [e; a; b; neg e; c; d] -> exists x, bef k x.
Proof. unfold before. cbn [In]. intros [X|[X|[X|[X|[X|[X|[]]]]]]]; eexists; intuition eauto. Qed.
Lemma aft_lt k x : aft k x -> (k < n)%nat.
Proof. destruct lts as (He & Hn & Ha & Hb & Hc & Hd & Hg & Hg'). unfold after. intuition (subst; auto). Qed.
Lemma img_valid r r' : img r r' -> (fst r < n)%nat /\ weights (snd r) /\ (fst r' < n)%nat /\ weights (snd r').
Proof.
  intros [(<- & A & B & _)|(x & x' & A & B & C & D & _)]; auto. apply bef_in in A. apply aft_lt in B. tauto.
Qed.

(** Each representation after the flip in the triangle at [g] or in the triangle at [-g]. *)
Lemma aft_main k x w : aft k x -> weights w ->
  exists w', weights w' /\
    ((same_point n s' (k, w) (g, w') /\ padd x (place s' k w) = padd xc (place s' g w')) \/
     (same_point n s' (k, w) (neg g, w') /\ padd x (place s' k w) = padd xd (place s' (neg g) w'))).
Proof.
  intros A W. destruct w as [[wa wb] wc]. assert (Z := weights_sum _ W). unfold sum3 in Z.
  destruct lts as (He & Hn & Ha & Hb & Hc & Hd & Hg & Hg').
  assert (W1 : weights (wb, wc, wa)) by (unfold weights in *; lra). assert (W2 : weights (wc, wa, wb)) by (unfold weights in *; lra).
  assert (R1 : forall h y, (h < n)%nat -> padd y (place s' h (wa, wb, wc)) = padd (padd y (vv s' h)) (place s' (fF s' h) (wb, wc, wa))).
  { intros h y H. rewrite padd_assoc. now rewrite (place_rot n s' S1 Cl') by (auto; lra). }
  assert (R2 : forall h y, (h < n)%nat -> padd y (place s' h (wa, wb, wc)) = padd (padd (padd y (vv s' h)) (vv s' (fF s' h))) (place s' (fF s' (fF s' h)) (wc, wa, wb))).
  { intros h y H. rewrite R1 by auto. rewrite (padd_assoc (padd y _)). rewrite (place_rot n s' S1 Cl'); auto; [apply (F_lt n s' S1); auto|lra]. }
  destruct A as [[-> ->]|[[-> ->]|[[-> ->]|[[-> ->]|[[-> ->]|[-> ->]]]]]].
  - exists (wb, wc, wa). split; auto. left. pose proof (sp_rot n s' a wa wb wc Ha W) as T. rewrite (q_ag _ _ _ _ _ _ _ _ _ Q) in T. split; [exact T|]. rewrite R1 by auto. now rewrite (vec_side a), (q_ag _ _ _ _ _ _ _ _ _ Q) by auto.
  - exists (wa, wb, wc). split; auto. left. split; [apply sp_refl|reflexivity].
  - exists (wc, wa, wb). split; auto. left. pose proof (sp_rot2 n s' S1 d wa wb wc Hd W) as T. rewrite (q_da _ _ _ _ _ _ _ _ _ Q), (q_ag _ _ _ _ _ _ _ _ _ Q) in T. split; [exact T|].
    rewrite R2 by auto. now rewrite (vec_side d), end_d, (q_da _ _ _ _ _ _ _ _ _ Q), (vec_side a), (q_ag _ _ _ _ _ _ _ _ _ Q) by auto.
  - exists (wb, wc, wa). split; auto. right. pose proof (sp_rot n s' c wa wb wc Hc W) as T. rewrite (q_cg _ _ _ _ _ _ _ _ _ Q) in T. split; [exact T|]. rewrite R1 by auto. now rewrite (vec_side c), (q_cg _ _ _ _ _ _ _ _ _ Q) by auto.
  - exists (wa, wb, wc). split; auto. right. split; [apply sp_refl|reflexivity].
  - exists (wc, wa, wb). split; auto. right. pose proof (sp_rot2 n s' S1 b wa wb wc Hb W) as T. rewrite (q_bc _ _ _ _ _ _ _ _ _ Q), (q_cg _ _ _ _ _ _ _ _ _ Q) in T. split; [exact T|].
    rewrite R2 by auto. now rewrite (vec_side b), end_b, (q_bc _ _ _ _ _ _ _ _ _ Q), (vec_side c), (q_cg _ _ _ _ _ _ _ _ _ Q) by auto.
Qed.
(** The same point of the plane is the same point of the surface. *)
Lemma aft_same k x w k' x' w' : aft k x -> aft k' x' -> weights w -> weights w' ->
  padd x (place s' k w) = padd x' (place s' k' w') -> same_point n s' (k, w) (k', w').
Proof.
  intros A A' W W' E. destruct (aft_main k x w A W) as (u & Wu & H). destruct (aft_main k' x' w' A' W') as (u' & Wu' & H').
  destruct lts as (He & Hn & Ha & Hb & Hc & Hd & Hg & Hg').
  destruct H as [[H1 H2]|[H1 H2]], H' as [[H3 H4]|[H3 H4]]; rewrite H2, H4 in E;
    (eapply sp_trans; [exact H1|]; eapply sp_trans; [|apply sp_sym; exact H3]).
  - apply (same_place n s' S1 Cl'); auto. now apply padd_inj in E.
  - apply (same_place_across n s' S1 Cl'); auto. rewrite <- end_g, (padd_assoc xc (vv s' g)) in E. first [now apply padd_inj in E|symmetry in E; now apply padd_inj in E].
  - apply sp_sym. apply (same_place_across n s' S1 Cl'); auto. rewrite <- end_g, (padd_assoc xc (vv s' g)) in E. first [now apply padd_inj in E|symmetry in E; now apply padd_inj in E].
  - apply (same_place n s' S1 Cl'); auto. now apply padd_inj in E.
Qed.
Lemma img_fun r r1 r2 : img r r1 -> img r r2 -> same_point n s' r1 r2.
Proof.
  intros [(<- & A1 & A2 & A3)|(x & x' & A1 & A2 & A3 & A4 & A5)] [(<- & B1 & B2 & B3)|(y & y' & B1 & B2 & B3 & B4 & B5)].
  - apply sp_refl.
  - apply bef_in in B1. tauto.
  - apply bef_in in A1. tauto.
  - rewrite (bef_fun _ _ _ A1 B1) in A5. destruct r1, r2. eapply aft_same; eauto. cbn [fst snd] in *. congruence.
Qed.

(** A side keeps its coordinates. *)
Lemma img_side k u v : (k < n)%nat -> weights (u, v, 0) -> k <> e -> k <> neg e -> img (k, (u, v, 0)) (k, (u, v, 0)).
Proof.
  intros Hk W N1 N2. destruct (in_dec Nat.eq_dec k [e; a; b; neg e; c; d]) as [I|I]; [right|left; cbn [fst snd]; auto].
  assert (P : place s k (u, v, 0) = place s' k (u, v, 0)).
  { unfold place. rewrite (q_vec _ _ _ _ _ _ _ _ _ Q) by auto. unfold padd, pscale; cbn [fst snd]. f_equal; ring. }
  cbn [In] in I. cbn [fst snd]. unfold before, after. rewrite P.
  destruct I as [I|[I|[I|[I|[I|[I|[]]]]]]]; try congruence.
  - exists xb, xb. subst. repeat (split; auto).
  - exists xc, xc. subst k. split; [auto 7|split; [auto 7|auto]].
  - exists x0, x0. subst k. split; [auto 7|split; [auto 7|auto]].
  - exists xd, xd. subst k. split; [auto 7|split; [auto 7|auto]].
Qed.

Lemma bef_next k x : bef k x -> bef (fF s k) (padd x (vv s k)).
Proof.
  pose proof end_b as Eb. pose proof end_ne as En. pose proof end_d as Ed.
  pose proof Q as [_ _ _ _ _ _ E1 E2 E3 E4 E5 E6 _ _ _ _ _ _ _ _]. unfold before.
  intros [[-> ->]|[[-> ->]|[[-> ->]|[[-> ->]|[[-> ->]|[-> ->]]]]]]; rewrite ?E1, ?E2, ?E3, ?E4, ?E5, ?E6, ?Eb, ?En, ?Ed; auto 8.
Qed.
Lemma out_next k : (k < n)%nat -> ~ In k [e; a; b; neg e; c; d] -> ~ In (fF s k) [e; a; b; neg e; c; d].
Proof.
  intros Hk N I. apply N. clear N. destruct lts as (He & Hn & Ha & Hb & Hc & Hd & _).
  pose proof Q as [_ _ _ _ _ _ E1 E2 E3 E4 E5 E6 _ _ _ _ _ _ _ _]. cbn [In] in *.
  destruct I as [I|[I|[I|[I|[I|[I|[]]]]]]]; [rewrite <- E3 in I|rewrite <- E1 in I|rewrite <- E2 in I|rewrite <- E6 in I|rewrite <- E4 in I|rewrite <- E5 in I];
    apply (F_inj n s S0) in I; auto 8.
Qed.

(** One step. *)
Lemma img_step r1 r2 r1' r2' : identified n s r1 r2 -> img r1 r1' -> img r2 r2' -> same_point n s' r1' r2'.
Proof.
  intros I. destruct I as [h u v w r Hh W Hr|h u v w Hh W|h u v Hh W].
  - assert (Z := weights_sum _ W). unfold sum3 in Z.
    intros [(<- & A1 & A2 & A3)|(x & x' & A1 & A2 & A3 & A4 & A5)] [(<- & B1 & B2 & B3)|(y & y' & B1 & B2 & B3 & B4 & B5)]; cbn [fst snd] in *.
    + now apply sp_scale.
    + apply bef_in in B1. tauto.
    + apply bef_in in A1. tauto.
    + rewrite (bef_fun _ _ _ A1 B1), <- (place_scale s h u v w r) in A5 by lra. destruct r1', r2'. eapply aft_same; eauto. cbn [fst snd] in *. congruence.
  - assert (Z := weights_sum _ W). unfold sum3 in Z.
    intros [(<- & A1 & A2 & A3)|(x & x' & A1 & A2 & A3 & A4 & A5)] [(<- & B1 & B2 & B3)|(y & y' & B1 & B2 & B3 & B4 & B5)]; cbn [fst snd] in *.
    + rewrite <- (q_other _ _ _ _ _ _ _ _ _ Q) by auto. now apply sp_rot.
    + apply bef_in in B1. exfalso. apply (out_next h); tauto.
    + apply bef_next, bef_in in A1. exfalso. tauto.
    + apply bef_next in A1. rewrite <- (place_rot n s S0 Cl) in A5 by (auto; lra). rewrite <- padd_assoc, (bef_fun _ _ _ A1 B1) in A5.
      destruct r1', r2'. eapply aft_same; eauto. cbn [fst snd] in *. congruence.
  - intros A B. assert (Z := weights_sum _ W). unfold sum3 in Z.
    assert (M : forall x y, bef h x -> bef (neg h) y -> padd x (vv s h) = y -> same_point n s' r1' r2').
    { intros x y X Y E. destruct A as [(<- & A1 & A2 & A3)|(x1 & x' & A1 & A2 & A3 & A4 & A5)]; [apply bef_in in X; tauto|].
      destruct B as [(<- & B1 & B2 & B3)|(y1 & y' & B1 & B2 & B3 & B4 & B5)]; [apply bef_in in Y; tauto|]. cbn [fst snd] in *.
      rewrite (bef_fun _ _ _ A1 X) in A5. rewrite (bef_fun _ _ _ B1 Y) in B5. rewrite <- (place_glue n s S0) in A5 by (auto; lra).
      rewrite <- padd_assoc, E in A5. destruct r1', r2'. eapply aft_same; eauto. cbn [fst snd] in *. congruence. }
    destruct (Nat.eq_dec h e) as [->|N1].
    { apply (M x0 xb); unfold before; auto 8. }
    destruct (Nat.eq_dec h (neg e)) as [->|N2].
    { apply (M xb x0); unfold before; rewrite ?neg_neg; auto 8. apply end_ne. }
    assert (Hn := neg_lt n s S0 h Hh).
    eapply sp_trans; [eapply img_fun; [exact A|apply img_side; auto]|].
    eapply sp_trans; [|apply sp_sym; eapply img_fun; [exact B|apply img_side]]; auto.
    + now apply sp_glue.
    + unfold weights in *; lra.
    + intros X. apply N2. rewrite <- X. now rewrite neg_neg.
    + intros X. apply N1. now apply neg_inj in X.
Qed.
Lemma identified_valid r r' : identified n s r r' -> ((fst r < n)%nat /\ weights (snd r)) /\ ((fst r' < n)%nat /\ weights (snd r')).
Proof.
  intros [h u v w t Hh W Ht|h u v w Hh W|h u v Hh W]; cbn [fst snd]; (split; [now split|]); split; auto.
  - unfold weights in *. destruct W as (A & B & C & D). repeat split; try (apply Rmult_le_pos; lra). replace (t * u + t * v + t * w) with (t * (u + v + w)) by ring. now apply Rmult_lt_0_compat.
  - now apply (F_lt n s S0).
  - unfold weights in *; lra.
  - now apply (neg_lt n s S0).
  - unfold weights in *; lra.
Qed.
Lemma sp_valid r r' : same_point n s r r' -> ((fst r < n)%nat /\ weights (snd r)) <-> ((fst r' < n)%nat /\ weights (snd r')).
Proof.
  induction 1 as [x y H|x|x y H IH|x y z H IH H' IH'].
  - apply identified_valid in H. tauto.
  - tauto.
  - tauto.
  - tauto.
Qed.

(** Each point of the triangle at [e] has an image. *)
Lemma img_e w : weights w -> exists r', img (e, w) r'.
Proof.
  intros W. assert (Z := weights_sum _ W). destruct lts as (He & Hn & Ha & Hb & Hc & Hd & Hg & Hg').
  set (X := padd x0 (place s e w)).
  destruct (place_exists n s' S1 Cl' (neg g) (psub X xd) Hg') as ([[wd wc] wa] & Z1 & P1).
  destruct (place_exists n s' S1 Cl' g (psub X xc) Hg) as ([[uc ud] ub] & Z2 & P2).
  assert (BX : X = bary x0 xb xc w) by now apply tri_e.
  assert (SU : forall y z, padd y (psub z y) = z) by (intros; unfold padd, psub, padd, pneg; cbn [fst snd]; apply pt_eq; cbn [fst snd]; ring).
  assert (B1 : X = bary xd xc x0 (wd, wc, wa)) by (rewrite <- tri_ng by auto; rewrite P1, SU; reflexivity).
  assert (B2 : X = bary xc xd xb (uc, ud, ub)) by (rewrite <- tri_g by auto; rewrite P2, SU; reflexivity).
  unfold sum3 in Z1, Z2.
  destruct (split_signs x0 xb xc xd w wd wc wa uc ud ub) as (G1 & G2 & G3 & G4 & G5); auto using pos_abc, pos_bad, pos_cdb, pos_dca; try congruence.
  destruct (Rle_or_lt 0 wa) as [L|L].
  - exists (neg g, (wd, wc, wa)). right. exists x0, xd. cbn [fst snd]. repeat split; auto; try (unfold before, after; auto 8).
    rewrite P1, SU. reflexivity.
  - exists (g, (uc, ud, ub)). right. exists x0, xc. cbn [fst snd]. specialize (G5 L). repeat split; auto; try (unfold before, after; auto 8).
    rewrite P2, SU. reflexivity.
Qed.
End quad.

Lemma im_sym {K : ExactReal} n (s s' : flat K) e g a b c d x0 r r' : quad n s s' e g a b c d ->
  im n s s' (neg e) (neg g) c d a b (padd x0 (vv s e)) r r' -> im n s s' e g a b c d x0 r r'.
Proof.
  intros Q. pose proof (end_ne n s s' e g a b c d Q x0) as En. unfold im, before, after.
  intros [(<- & A & B & C)|(x & x' & A & B & C & D & E)]; [left|right].
  - repeat (split; auto). cbn [In] in *. rewrite neg_neg in C. tauto.
  - rewrite !neg_neg, !En in *. exists x, x'. split; [clear - A; tauto|]. split; [clear - B; tauto|]. auto.
Qed.
Lemma im_rev {K : ExactReal} n (s s' : flat K) e g a b c d x0 r r' : quad n s s' e g a b c d ->
  im n s s' e g a b c d x0 r r' -> im n s' s g (neg e) d a b c (padd (padd x0 (vv s e)) (vv s a)) r' r.
Proof.
  intros Q. pose proof (end_g n s s' e g a b c d Q x0) as Eg. pose proof (end_d n s s' e g a b c d Q x0) as Ed. pose proof (end_b n s s' e g a b c d Q x0) as Eb.
  unfold im, before, after. rewrite (vec_side n s s' e g a b c d Q d), (vec_side n s s' e g a b c d Q b) by auto. rewrite Eg, Ed, Eb.
  intros [(<- & A & B & C)|(x & x' & A & B & C & D & E)]; [left|right].
  - repeat (split; auto). cbn [In] in *. destruct (q_g _ _ _ _ _ _ _ _ _ Q) as [->| ->]; rewrite ?neg_neg; tauto.
  - rewrite !neg_neg. exists x', x. split; [clear - B; tauto|]. split; [clear - A; tauto|]. auto.
Qed.

Section total.
Context {K : ExactReal}.
Variables (n : nat) (s s' : flat K) (e g a b c d : nat).
Hypothesis Q : quad n s s' e g a b c d.
Variable x0 : pt.
Local Notation img := (im n s s' e g a b c d x0).
Let S0 := q_s _ _ _ _ _ _ _ _ _ Q.
Let Cl := q_cl _ _ _ _ _ _ _ _ _ Q.

Lemma img_total r : (fst r < n)%nat -> weights (snd r) -> exists r', img r r'.
Proof.
  destruct r as [k w]. cbn [fst snd]. intros Hk W.
  destruct (in_dec Nat.eq_dec k [e; a; b; neg e; c; d]) as [I|I].
  2: { exists (k, w). left. cbn [fst snd]. auto. }
  assert (Z := weights_sum _ W). destruct w as [[u v] w]. unfold sum3 in Z.
  assert (W1 : weights (v, w, u)) by (unfold weights in *; lra). assert (W2 : weights (w, u, v)) by (unfold weights in *; lra).
  assert (M : forall w', weights w' -> (exists r', img (e, w') r') /\ (exists r', img (neg e, w') r')).
  { intros w' W'. split; [now apply (img_e n s s')|]. apply quad_sym in Q as Q'. destruct (img_e n s s' _ _ _ _ _ _ Q' (padd x0 (vv s e)) w' W') as (r' & R).
    exists r'. eapply im_sym; eauto. }
  (* a representation of the same point of the plane *)
  assert (T : forall k' w', weights w' -> (exists r', img (k', w') r') -> In k' [e; a; b; neg e; c; d] ->
     (forall x y, before s e a b c d x0 k x -> before s e a b c d x0 k' y -> padd x (place s k (u, v, w)) = padd y (place s k' w')) ->
     exists r', img (k, (u, v, w)) r').
  { intros k' w' W' [r' R] I' E. exists r'. destruct R as [(<- & _ & _ & X)|(x & x' & A & B & C & D & X)]; [cbn [fst snd] in X; tauto|].
    destruct (in_bef s e a b c d x0 k I) as [y Y]. right. exists y, x'. cbn [fst snd] in *. repeat (split; auto). rewrite (E y x); auto. }
  assert (R1 : forall x y, before s e a b c d x0 k x -> before s e a b c d x0 (fF s k) y -> padd x (place s k (u, v, w)) = padd y (place s (fF s k) (v, w, u))).
  { intros x y X Y. apply (bef_next n s s' e g a b c d Q) in X. rewrite (bef_fun n s s' e g a b c d Q _ _ _ _ Y X). rewrite padd_assoc.
    now rewrite (place_rot n s S0 Cl) by (auto; lra). }
  assert (R2 : forall x y, before s e a b c d x0 k x -> before s e a b c d x0 (fF s (fF s k)) y -> padd x (place s k (u, v, w)) = padd y (place s (fF s (fF s k)) (w, u, v))).
  { intros x y X Y. apply (bef_next n s s' e g a b c d Q) in X. apply (bef_next n s s' e g a b c d Q) in X. rewrite (bef_fun n s s' e g a b c d Q _ _ _ _ Y X). rewrite padd_assoc.
    rewrite (place_rot n s S0 Cl) by (try apply (F_lt n s S0); auto; lra). rewrite padd_assoc. now rewrite (place_rot n s S0 Cl) by (auto; lra). }
  cbn [In] in I. pose proof Q as [_ _ _ _ _ _ E1 E2 E3 E4 E5 E6 _ _ _ _ _ _ _ _].
  destruct I as [I|[I|[I|[I|[I|[I|[]]]]]]]; subst k.
  - now apply M.
  - rewrite E2, E3 in R2. apply (T e _ W2 (proj1 (M _ W2))); [cbn [In]; auto|auto].
  - rewrite E3 in R1. apply (T e _ W1 (proj1 (M _ W1))); [cbn [In]; auto|auto].
  - now apply M.
  - rewrite E5, E6 in R2. apply (T (neg e) _ W2 (proj2 (M _ W2))); [cbn [In]; auto|auto].
  - rewrite E6 in R1. apply (T (neg e) _ W1 (proj2 (M _ W1))); [cbn [In]; auto|auto].
Qed.

Lemma img_sp r1 r2 r1' r2' : same_point n s r1 r2 -> img r1 r1' -> img r2 r2' -> same_point n s' r1' r2'.
Proof.
  intros H. revert r1' r2'. induction H as [x y H|x|x y H IH|x y z H IH H' IH']; intros r1' r2' A B.
  - eapply img_step; eauto.
  - eapply img_fun; eauto.
  - apply sp_sym. auto.
  - destruct (img_valid n s s' e g a b c d Q _ _ _ A) as (V1 & V2 & _).
    destruct (proj1 (sp_valid n s s' e g a b c d Q _ _ H) (conj V1 V2)) as [V3 V4].
    destruct (img_total y V3 V4) as [y' Y]. eapply sp_trans; eauto.
Qed.
End total.
Lemma img_sp_inv {K : ExactReal} n (s s' : flat K) e g a b c d x0 r1 r2 r1' r2' : quad n s s' e g a b c d ->
  same_point n s' r1' r2' -> im n s s' e g a b c d x0 r1 r1' -> im n s s' e g a b c d x0 r2 r2' -> same_point n s r1 r2.
Proof.
  intros Q H A B. eapply (img_sp n s' s); [apply quad_rev; exact Q|exact H| |]; eapply im_rev; eauto.
Qed.
