(** * A vertex that is moved ends somewhere or is blocked *)
From Coq Require Import ZArith Reals List Arith Bool Lia Lra Psatz Relations.
From Verif Require Import Base HalfEdge HalfEdgeFacts Perm PermSpec PermFacts PermCycles IndexedSet Combinatorial CombinatorialSpec
  CombinatorialFacts CombinatorialHistory CombinatorialOps ExactReal Vector PlaneSpec Plane VectorFacts
  FlatTri FlatSpec FlatFacts FlatSum FlatAngle FlatSector
  Search SearchSpec SearchMoves SearchPlane SearchDepth Point PointSpec
  Translate TranslateSpec TranslateMove.
Import ListNotations.
Local Open Scope R_scope.

Section total.
Context {K : ExactReal} (n : nat) (s : flat K).
Hypothesis S0 : flat_surface n s.
Hypothesis Cl : closed_surface n s.
Let W := fs_wf n s S0.

Lemma path_snoc d l : forall x b, path_ok n s d x l -> fF s (neg (snd (walk s x l))) <> neg (snd (walk s x l)) -> crossing n s d (child s b (walk s x l)) -> path_ok n s d x (l ++ [b]).
Proof.
  induction l as [|c l IH]; intros x b H N C; cbn [app].
  - destruct H as [H _]. cbn in N, C. repeat (split; auto).
  - destruct H as (C0 & N0 & H). repeat (split; auto).
Qed.
Lemma walk_snoc x l b : walk s x (l ++ [b]) = child s b (walk s x l).
Proof. unfold walk. now rewrite fold_left_app. Qed.

Definition beyond (p : pt) (h : nat) (v : pt) : Prop := pdet p (vv s h) <= pdet v (vv s h).

(** The coordinates of [v] in the triangle. *)
Section triangle.
Variables (p a b e v : pt).
Let w := padd p a.
Let q := padd p e.
Hypothesis Eab : padd a b = e.
Hypothesis A0 : 0 < pdet a e.
Let al := 1 - pdet (padd v (pneg p)) e / pdet a e - pdet a (padd v (pneg p)) / pdet a e.
Let be := pdet (padd v (pneg p)) e / pdet a e.
Let ga := pdet a (padd v (pneg p)) / pdet a e.
Lemma tri_coords : v = padd p (padd (pscale be a) (pscale ga e)).
Proof. unfold be, ga. destruct v as [v1 v2], p as [p1 p2], a as [a1 a2], e as [e1 e2]. unfold padd, pscale, pneg, pdet in *; cbn [fst snd] in *. apply pt_eq; cbn [fst snd]; field; lra. Qed.
Lemma tri_be : be * pdet a e = pdet v e - pdet p e.
Proof. unfold be. replace (pdet (padd v (pneg p)) e) with (pdet v e - pdet p e) by (unfold pdet, padd, pneg; cbn; ring). field. lra. Qed.
Lemma tri_ga : ga * pdet a e = pdet p a - pdet v a.
Proof. unfold ga. replace (pdet a (padd v (pneg p))) with (pdet p a - pdet v a) by (unfold pdet, padd, pneg; cbn; ring). field. lra. Qed.
Lemma tri_al : al * pdet a e = pdet w b - pdet v b.
Proof.
  assert (E : pdet a e = pdet a b) by (rewrite <- Eab; unfold pdet, padd; cbn; ring). replace (pdet w b - pdet v b) with (pdet a b - (pdet v b - pdet p b)) by (unfold w, pdet, padd; cbn; ring).
  unfold al. replace (pdet (padd v (pneg p)) e) with (pdet v a + pdet v b - pdet p a - pdet p b) by (rewrite <- Eab; unfold pdet, padd, pneg; cbn; ring). replace (pdet a (padd v (pneg p))) with (pdet p a - pdet v a) by (unfold pdet, padd, pneg; cbn; ring).
  rewrite <- E. field. lra.
Qed.
Lemma tri_sum : al + be + ga = 1.
Proof. unfold al, be, ga. ring. Qed.
Hypothesis PE : 0 < pdet p e.
Hypothesis VE : 0 < pdet v e.
Hypothesis Bey : pdet p e <= pdet v e.
Hypothesis Rt : 0 < pdet v q.
Hypothesis Lt : 0 <= pdet p v.
Lemma tri_be_pos : 0 <= be.
Proof. pose proof tri_be. nra. Qed.
Lemma tri_we : 0 < pdet w e.
Proof. replace (pdet w e) with (pdet p e + pdet a e) by (unfold w, pdet, padd; cbn; ring). lra. Qed.
Lemma tri_right : 0 < pdet v w -> ~ (0 <= al /\ 0 <= ga) -> 0 < pdet p w /\ pdet p a <= pdet v a.
Proof.
  intros R N. assert (PW : 0 < pdet p w) by (apply (hp_le_lt e p v w); auto; apply tri_we). split; auto.
  assert (B := tri_be_pos). assert (G := tri_ga). assert (Sm := tri_sum).
  destruct (Rle_lt_dec ga 0) as [Hg|Hg]; [nra|]. exfalso. assert (Ha : al < 0) by (destruct (Rle_lt_dec 0 al); auto; exfalso; apply N; lra).
  assert (Vw : pdet v w = (1 - be) * pdet p w - ga * (pdet p e + pdet a e)) by (rewrite tri_coords at 1; unfold w, pdet, padd, pscale; cbn [fst snd]; ring).
  assert (Vq : pdet v q = (1 - ga) * pdet p e + be * (pdet a e - pdet p w)) by (rewrite tri_coords at 1; unfold q, w, pdet, padd, pscale; cbn [fst snd]; ring).
  clear N G. clearbody al be ga. set (P := pdet p w) in *. set (E := pdet p e) in *. set (A := pdet a e) in *. clearbody P E A. rewrite Vw in R. rewrite Vq in Rt. clear Vw Vq Bey Lt VE.
  destruct (Rle_lt_dec (E + A - P) 0); nra.
Qed.
Lemma tri_left : pdet v w <= 0 -> ~ (0 <= al /\ 0 <= ga) -> 0 < pdet w q /\ pdet w b <= pdet v b.
Proof.
  intros R N. assert (WQ : 0 < pdet w q). { apply (hp_le_lt e w v q); auto; [apply tri_we|replace (pdet q e) with (pdet p e) by (unfold q, pdet, padd; cbn; ring); auto|rewrite pdet_swap; lra]. }
  split; auto. assert (B := tri_be_pos). assert (G := tri_al). assert (Sm := tri_sum).
  destruct (Rle_lt_dec al 0) as [Hg|Hg]; [nra|]. exfalso. assert (Ha : ga < 0) by (destruct (Rle_lt_dec 0 ga); auto; exfalso; apply N; lra).
  assert (Vw : pdet v w = (1 - be) * pdet p w - ga * (pdet p e + pdet a e)) by (rewrite tri_coords at 1; unfold w, pdet, padd, pscale; cbn [fst snd]; ring).
  assert (Vp : pdet p v = be * pdet p w + ga * pdet p e) by (rewrite tri_coords at 1; unfold w, pdet, padd, pscale; cbn [fst snd]; ring).
  assert (Q : pdet w q = pdet p e + pdet a e - pdet p w) by (unfold w, q, pdet, padd; cbn; ring).
  clear N G. clearbody al be ga. set (P := pdet p w) in *. set (E := pdet p e) in *. set (A := pdet a e) in *. clearbody P E A. rewrite Vw in R. rewrite Vp in Lt. rewrite Q in WQ. clear Vw Vp Q Bey Rt VE.
  destruct (Rle_lt_dec P 0); nra.
Qed.
Lemma tri_vertex : 0 < pdet p v -> pdet v w = 0 -> ~ (0 <= al /\ 0 <= ga) -> exists k, 0 < k /\ v = pscale (1 + k) w.
Proof.
  intros Lt' Z N. assert (We := tri_we). set (la := pdet v e / pdet w e). assert (La : 0 < la) by (apply Rmult_lt_0_compat; auto; apply Rinv_0_lt_compat; auto).
  assert (Ev : v = pscale la w).
  { assert (E1 : pdet w e <> 0) by lra. unfold la. clear - Z E1. destruct v as [v1 v2], w as [w1 w2], e as [e1 e2]. unfold pscale, pdet in *; cbn [fst snd] in *. 
    apply pt_eq; cbn [fst snd]; apply (Rmult_eq_reg_r (w1 * e2 - w2 * e1)); auto; apply Rminus_diag_uniq.
    - transitivity (- e1 * (v1 * w2 - v2 * w1)); [field; auto|rewrite Z; ring].
    - transitivity (- e2 * (v1 * w2 - v2 * w1)); [field; auto|rewrite Z; ring]. }
  destruct (Rle_lt_dec la 1) as [Hl|Hl]; [|exists (la - 1); split; [lra|]; replace (1 + (la - 1)) with la by ring; auto]. exfalso. apply N. clear N.
  assert (G := tri_ga). assert (A := tri_al).
  assert (PW : 0 < pdet p w) by (replace (pdet p v) with (la * pdet p w) in Lt' by (rewrite Ev; unfold pdet, pscale; cbn; ring); nra).
  assert (WQ : 0 < pdet w q) by (replace (pdet v q) with (la * pdet w q) in Rt by (rewrite Ev; unfold pdet, pscale; cbn; ring); nra).
  assert (Eb : pdet w b = pdet w q) by (unfold w, q; rewrite <- Eab; unfold pdet, padd; cbn; ring).
  assert (Ea : pdet p a = pdet p w) by (unfold w, pdet, padd; cbn; ring).
  replace (pdet v b) with (la * pdet w b) in A by (rewrite Ev; unfold pdet, pscale; cbn; ring). replace (pdet v a) with (la * pdet w a) in G by (rewrite Ev; unfold pdet, pscale; cbn; ring).
  replace (pdet w a) with (pdet p a) in G by (unfold w, pdet, padd; cbn; ring). rewrite Ea in G. rewrite Eb in A. clear Ev Eb Ea. clearbody al be ga. split; nra.
Qed.
End triangle.

Lemma place_found p h v : (h < n)%nat -> let a := vv s (fF s (neg h)) in let e := vv s h in
  let be := pdet (padd v (pneg p)) e / pdet a e in let ga := pdet a (padd v (pneg p)) / pdet a e in let al := 1 - be - ga in
  0 <= be -> 0 <= al -> 0 <= ga -> found s p h v (al, be, ga).
Proof.
  intros Hh a e be ga al B A G. assert (Hn : (neg h < n)%nat) by now apply (neg_ltn n (fT s) W). destruct (across' n s S0 p h Hh (Cl _ Hn)) as [Eq Ar]. fold a e in Eq, Ar.
  split; [unfold weights; repeat split; auto; unfold al; lra|]. unfold place. replace (al + be + ga) with 1 by (unfold al; ring).
  assert (Eab : padd a (vv s (fF s (fF s (neg h)))) = e). { destruct p, a, (vv s (fF s (fF s (neg h)))), e. unfold padd in *; cbn [fst snd] in *. injection Eq as Z1 Z2. apply pt_eq; cbn [fst snd]; lra. }
  fold a. rewrite Eab. pose proof (tri_coords p a _ e v Eab Ar) as Ev. fold be ga in Ev. symmetry. etransitivity; [exact Ev|]. clearbody be ga. clear. unfold padd, pscale; cbn [fst snd]. apply pt_eq; cbn [fst snd]; field.
Qed.

Lemma ray_total (left : bool) v : v <> (0, 0) -> forall x0, let x := x0 : pt * nat in crossing n s v x -> passes s left (fst x) (snd x) v -> beyond (fst x) (snd x) v ->
  (exists r, goes s left (fst x) (snd x) v r) \/ (left = false /\ exists u g k, 0 < k /\ hits s (fst x) (snd x) u g /\ v = pscale (1 + k) u).
Proof.
  intros Nv x0 x C0 Ps0 B0. destruct (depth_bounded n s S0 (pdot v v)) as [N Bound].
  assert (G : forall j l, path_ok n s v x l -> (length l + j = N)%nat -> let y := walk s x l in passes s left (fst y) (snd y) v -> beyond (fst y) (snd y) v ->
    (exists r, goes s left (fst y) (snd y) v r) \/ (left = false /\ exists u g k, 0 < k /\ hits s (fst y) (snd y) u g /\ v = pscale (1 + k) u)).
  2:{ apply (G N []); auto. split; auto. }
  induction j as [|j IH]; intros l Pk Lk y Ps B.
  - exfalso. assert (C := path_end n s v l x Pk). fold y in C. destruct (crossing_facts n s v y C) as (F1 & F2 & F3 & F4).
    specialize (Bound v x l Pk ltac:(lia)). cbv zeta in Bound. specialize (Bound (part s v y) F4). fold y in Bound. unfold beyond in B.
    set (c := when s v y) in *. assert (Ec : padd (fst y) (pscale (part s v y) (vv s (snd y))) = pscale c v).
    { unfold c, part, when. destruct (fst y) as [p1 p2], v as [v1 v2], (vv s (snd y)) as [e1 e2]. unfold pscale, padd, pdet in *; cbn [fst snd] in *. apply pt_eq; cbn [fst snd]; field; lra. }
    rewrite Ec in Bound. assert (c <= 1). { unfold c, when. apply (Rmult_le_reg_r (pdet v (vv s (snd y)))); auto. unfold Rdiv. rewrite Rmult_assoc, Rinv_l by lra. lra. }
    replace (pdot (pscale c v) (pscale c v)) with (c * c * pdot v v) in Bound by (unfold pdot, pscale; cbn; ring). assert (0 < pdot v v) by now apply pdot_pos. assert (c * c <= 1) by nra. nra.
  - assert (C := path_end n s v l x Pk). fold y in C. destruct (crossing_facts n s v y C) as (F1 & F2 & _). destruct C as (Hh & D & Cn).
    unfold y in *. clear y. destruct (walk s x l) as [p h] eqn:Ey; cbn [fst snd] in *. assert (Hn : (neg h < n)%nat) by now apply (neg_ltn n (fT s) W). assert (Nb := Cl _ Hn).
    destruct (across' n s S0 p h Hh Nb) as [Eq Ar]. set (a := vv s (fF s (neg h))) in *. set (b := vv s (fF s (fF s (neg h)))) in *. set (e := vv s h) in *.
    assert (Eab : padd a b = e). { clear - Eq. destruct p, a, b, e. unfold padd in *; cbn [fst snd] in *. injection Eq as Z1 Z2. apply pt_eq; cbn [fst snd]; lra. }
    assert (Pl : 0 <= pdet p v) by (destruct Ps as [Ps _]; destruct left; lra). assert (Pr : 0 < pdet v (padd p e)) by apply Ps.
    set (be := pdet (padd v (pneg p)) e / pdet a e). set (ga := pdet a (padd v (pneg p)) / pdet a e). set (al := 1 - be - ga).
    assert (Hbe : 0 <= be) by (apply (tri_be_pos p a e v Ar B)).
    assert (Dec : (0 <= al /\ 0 <= ga) \/ ~ (0 <= al /\ 0 <= ga)) by (destruct (Rle_lt_dec 0 al), (Rle_lt_dec 0 ga); [left; auto|right; lra..]).
    destruct Dec as [[Ha Hg]|Nf]; [left; exists (fF s (neg h), (al, be, ga)); apply goes_here; auto; now apply place_found|].
    assert (Nfd : forall w, ~ found s p h v w).
    { intros w [Ww Ew]. apply Nf. destruct w as [[a0 b0] c0]. unfold place in Ew. fold a b in Ew. rewrite Eab in Ew. destruct Ww as (Q1 & Q2 & Q3 & Q4). 
      assert (E1 : ga = c0 / (a0 + b0 + c0)). { unfold ga. rewrite <- Ew. replace (pdet a _) with (c0 / (a0 + b0 + c0) * pdet a e) by (unfold pdet, padd, pneg, pscale; cbn [fst snd]; field; lra). field. lra. }
      assert (E2 : be = b0 / (a0 + b0 + c0)). { unfold be. rewrite <- Ew. replace (pdet _ e) with (b0 / (a0 + b0 + c0) * pdet a e) at 1 by (unfold pdet, padd, pneg, pscale; cbn [fst snd]; field; lra). field. lra. }
      assert (E3 : al = a0 / (a0 + b0 + c0)) by (unfold al; rewrite E1, E2; field; lra). rewrite E1, E3. split; apply Rmult_le_pos; auto; apply Rlt_le, Rinv_0_lt_compat; auto. }
    assert (Nb' : fF s (neg (snd (walk s x l))) <> neg (snd (walk s x l))) by (rewrite Ey; exact Nb).
    assert (Cr : forall u k, 0 < k -> v = pscale (1 + k) u -> left = false -> crosses s p h u).
    { intros u k Hk Eu El. rewrite El in Ps. destruct Ps as [X1 X2]. fold e in X2. split; fold e; [replace (pdet p v) with ((1 + k) * pdet p u) in X1 by (rewrite Eu; unfold pdet, pscale; cbn; ring); nra|].
      replace (pdet v (padd p e)) with ((1 + k) * pdet u (padd p e)) in X2 by (rewrite Eu; unfold pdet, pscale; cbn; ring). nra. }
    destruct (Rtotal_order (pdet v (padd p a)) 0) as [V|[V|V]].
    3:{ destruct (tri_right p a b e v Eab Ar F2 F1 B Pr Pl V Nf) as [R1 R2]. 
        assert (Cc : crossing n s v (child s false (walk s x l))) by (rewrite Ey; split; [cbn [child snd]; now apply (fF_lt n)|]; cbn [child fst snd]; fold a; repeat (split; auto); lra).
        destruct (IH (l ++ [false])) as [(r & Gr)|(El & u & g & k & Hk & H & Eu)]; [now apply path_snoc|rewrite app_length; cbn; lia|rewrite walk_snoc, Ey; cbn [child fst snd]; split; [apply Ps|exact V]|rewrite walk_snoc, Ey; exact R2| |].
        - left. rewrite walk_snoc, Ey in Gr. exists r. now apply goes_right.
        - right. split; auto. rewrite walk_snoc, Ey in H. exists u, g, k. split; auto. split; auto. apply hits_right; auto. now apply (Cr u k). }
    all: destruct (tri_left p a b e v Eab Ar F2 F1 B Pr Pl) as [R1 R2]; [lra|exact Nf|].
    all: assert (Eqw : padd (padd p a) b = padd p e) by exact Eq.
    all: assert (Cc : 0 <= pdet (padd p a) v -> crossing n s v (child s true (walk s x l))) by (intros Z; rewrite Ey; split; [cbn [child snd]; now repeat apply (fF_lt n)|]; cbn [child fst snd]; fold a b; rewrite Eqw; repeat (split; auto); lra).
    all: assert (Vs : pdet (padd p a) v = - pdet v (padd p a)) by (unfold pdet; ring).
    + destruct (IH (l ++ [true])) as [(r & Gr)|(El & u & g & k & Hk & H & Eu)]; [apply path_snoc; auto; apply Cc; lra|rewrite app_length; cbn; lia|rewrite walk_snoc, Ey; cbn [child fst snd]; fold a b; split; [destruct left; lra|fold b; now rewrite Eqw]|rewrite walk_snoc, Ey; exact R2| |].
      * left. rewrite walk_snoc, Ey in Gr. exists r. now apply goes_left.
      * right. split; auto. rewrite walk_snoc, Ey in H. exists u, g, k. split; auto. split; auto. apply hits_left; auto. now apply (Cr u k).
    + destruct left.
      * destruct (IH (l ++ [true])) as [(r & Gr)|(El & _)]; [apply path_snoc; auto; apply Cc; lra|rewrite app_length; cbn; lia|rewrite walk_snoc, Ey; cbn [child fst snd]; fold a b; split; [lra|fold b; now rewrite Eqw]|rewrite walk_snoc, Ey; exact R2| |discriminate].
        left. rewrite walk_snoc, Ey in Gr. exists r. now apply goes_left.
      * right. split; auto. destruct (tri_vertex p a b e v Eab Ar F2 F1 Pr (proj1 Ps) V Nf) as (k & Hk & Ek). exists (padd p a), (fF s (fF s (neg h))), k. split; auto. split; auto. apply hits_vertex; auto. now apply (Cr _ k).
Qed.

(** Saddle connections are not arbitrarily short. *)
Lemma hits_long : exists m, 0 < m /\ forall h u g, (h < n)%nat -> hits s (vv s h) (fF s h) u g -> m <= norm1 u.
Proof.
  destruct (maximum (fun h => norm1 (vv s h)) (seq 0 n)) as (M & HM & Edges).
  destruct (positive_minimum (fun _ => True) (fun h => pdet (vv s h) (vv s (fV s h)))) with (l := seq 0 n) as (A & HA & Areas); [auto| |].
  { intros h J _. apply in_seq in J. assert (Hh : (h < n)%nat) by lia. apply (corner_det n); auto. }
  exists (A / M). split; [apply Rmult_lt_0_compat; auto; now apply Rinv_0_lt_compat|]. intros h u g Hh H.
  assert (Hf : (fF s h < n)%nat) by now apply (fF_lt n).
  assert (Eq := across_corner n s S0 Cl h Hh). assert (D : 0 < pdet (vv s h) (padd (vv s h) (vv s (fF s h)))) by (rewrite Eq; apply (corner_det n); auto).
  pose proof (hits_beyond n s S0 _ _ _ _ H Hf D) as B. rewrite Eq in B. pose proof (norm1_det u (vv s (fF s h))) as X. pose proof (norm1_nonneg u) as U.
  assert (E1 : norm1 (vv s (fF s h)) <= M) by (apply Edges, in_seq; lia). assert (E2 : A <= pdet (vv s h) (vv s (fV s h))) by (apply Areas; auto; apply in_seq; lia).
  apply (Rmult_le_reg_r M); auto. unfold Rdiv. rewrite Rmult_assoc, Rinv_l by lra. assert (norm1 u * norm1 (vv s (fF s h)) <= norm1 u * M) by (apply Rmult_le_compat_l; auto). lra.
Qed.

Lemma step_total h v : (h < n)%nat -> v <> (0, 0) -> sector_contains s h v ->
  (exists r, ends_at n s h v r) \/ exists u g k, 0 < k /\ hits s (vv s h) (fF s h) u g /\ v = pscale (1 + k) u.
Proof.
  intros Hh Nv Sc. apply (contains_signs n s S0 Cl) in Sc as [P1 P2]; auto. set (u := vv s h) in *. set (q := vv s (fV s h)) in *. set (z := vv s (fF s h)).
  assert (Eq := across_corner n s S0 Cl h Hh). fold u q z in Eq. assert (D : 0 < pdet u q) by (apply (corner_det n); auto).
  set (x := pdet v q / pdet u q). set (y := pdet u v / pdet u q). assert (Hx : 0 < x) by (apply Rmult_lt_0_compat; auto; now apply Rinv_0_lt_compat). assert (Hy : 0 <= y) by (apply Rmult_le_pos; auto; apply Rlt_le; now apply Rinv_0_lt_compat).
  assert (Ev : v = padd (pscale x u) (pscale y q)). { unfold x, y. clear - D. destruct v as [v1 v2], u as [u1 u2], q as [q1 q2]. unfold padd, pscale, pdet in *; cbn [fst snd] in *. apply pt_eq; cbn [fst snd]; field; lra. }
  destruct (Rle_lt_dec (x + y) 1) as [Hs|Hs].
  - left. exists (h, (1 - x - y, x, y)). apply ends_here; [unfold weights; lra|]. unfold place. fold u z. rewrite Eq, Ev at 1. replace (1 - x - y + x + y) with 1 by ring. clearbody x y. clear. unfold padd, pscale; cbn [fst snd]. apply pt_eq; cbn [fst snd]; field.
  - assert (Uz : pdet u z = pdet u q) by (rewrite <- Eq; unfold pdet, padd; cbn; ring). assert (Qz : pdet q z = pdet u q) by (rewrite <- Eq; unfold pdet, padd; cbn; ring).
    assert (Vz : pdet v z = (x + y) * pdet u q). { rewrite Ev at 1. replace (pdet (padd (pscale x u) (pscale y q)) z) with (x * pdet u z + y * pdet q z) by (unfold pdet, padd, pscale; cbn; ring). rewrite Uz, Qz. ring. }
    assert (Out : forall w, weights w -> place s h w <> v).
    { intros [[a b] c] (Q1 & Q2 & Q3 & Q4) Ew. unfold place in Ew. fold u z in Ew. 
      assert (Dz : pdet v z * (a + b + c) = (b + c) * pdet u q). { rewrite <- Ew, <- Uz. unfold pdet, padd, pscale; cbn [fst snd]. field. lra. }
      rewrite Vz in Dz. assert (E : (x + y) * (a + b + c) = b + c) by (apply (Rmult_eq_reg_r (pdet u q)); lra). nra. }
    set (left := if Req_EM_T (pdet u v) 0 then true else false).
    assert (Cr : crossing n s v (u, fF s h)) by (split; [now apply (fF_lt n)|]; cbn [fst snd]; fold z; rewrite Eq; repeat (split; auto); lra).
    destruct (ray_total left v Nv (u, fF s h) Cr) as [(r & G)|(El & w & g & k & Hk & H & Ek)]; cbn [fst snd] in *.
    + split; fold z; [|now rewrite Eq]. unfold left. destruct (Req_EM_T (pdet u v) 0); lra.
    + unfold beyond. fold z. rewrite Vz, Uz. nra.
    + left. exists r. apply (ends_across n s h v r left); auto. unfold left. fold u. destruct (Req_EM_T (pdet u v) 0); lra.
    + right. exists w, g, k. auto.
Qed.

Lemma vertex_total h v : (h < n)%nat -> v <> (0, 0) -> sector_contains s h v -> (exists r, ends_at n s h v r) \/ blocked n s h v.
Proof.
  destruct hits_long as (m & Hm & Long).
  assert (G : forall j h v, norm1 v <= INR j * m -> (h < n)%nat -> v <> (0, 0) -> sector_contains s h v -> (exists r, ends_at n s h v r) \/ blocked n s h v).
  { clear h v. induction j as [|j IH]; intros h v Lv Hh Nv Sc; [cbn in Lv; pose proof (norm1_pos v Nv); lra|].
    destruct (step_total h v Hh Nv Sc) as [E|(u & g & k & Hk & H & Ev)]; [now left|]. subst v. assert (Hg := hits_target n s S0 _ _ _ _ H (fF_lt n s _ S0 Hh)).
    assert (Nk : pscale k u <> (0, 0)). { intros Z. apply Nv. destruct u as [u1 u2]. unfold pscale in *; cbn [fst snd] in *. injection Z as Z1 Z2. apply pt_eq; cbn [fst snd]; nra. }
    assert (L := Long h u g Hh H). rewrite S_INR in Lv. rewrite norm1_scale in Lv. rewrite Rabs_right in Lv by lra.
    destruct (angle_marked n s S0 Cl g Hg) as (_ & al & _ & _ & Ma). destruct (Nat.eq_dec al 1) as [->|Na].
    - assert (Mg := proj1 Ma eq_refl). destruct (Mg (pscale k u) Nk) as (g' & (G1 & G2 & G3) & _). destruct (IH g' (pscale k u)) as [[r E]|B]; auto.
      + rewrite norm1_scale, Rabs_right by lra. lra.
      + left. exists r. apply (ends_past n s h u g k g' r); auto.
      + right. apply (blocked_past n s h u g k g'); auto.
    - right. apply (blocked_here n s h u g k); auto. tauto. }
  intros Hh Nv Sc. apply (G (Z.to_nat (up (norm1 v / m)))); auto. assert (Q : 0 <= norm1 v / m) by (apply Rmult_le_pos; [apply norm1_nonneg|apply Rlt_le; now apply Rinv_0_lt_compat]).
  destruct (archimed (norm1 v / m)) as [A _]. rewrite INR_IZR_INZ, Z2Nat.id. 2:{ apply le_IZR. lra. }
  apply Rle_trans with (norm1 v / m * m); [right; field; lra|]. apply Rmult_le_compat_r; lra.
Qed.
End total.
