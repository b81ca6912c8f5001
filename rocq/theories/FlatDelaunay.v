(** * The Delaunay condition *)
From Coq Require Import ZArith Reals List Arith Bool Lia Lra Psatz Permutation.
From Verif Require Import Base HalfEdge HalfEdgeFacts Perm PermSpec PermFacts PermCycles PermLemmas
  IndexedSet Combinatorial CombinatorialSpec CombinatorialFacts CombinatorialFlip
  CombinatorialHistory CombinatorialOps ExactReal Vector PlaneSpec Plane VectorFacts FlatTri FlatSpec FlatFacts FlatSum FlatLinear.
Import ListNotations.
Local Open Scope nat_scope.

Definition incirc (a b c : pt) : R :=
  (fst a * (snd b * pdot c c - pdot b b * snd c) - fst b * (snd a * pdot c c - snd c * pdot a a) + fst c * (snd a * pdot b b - snd b * pdot a a))%R.
Definition psub (p q : pt) : pt := padd p (pneg q).

Section flat.
Context {K : ExactReal}.
Implicit Types (s u : flat K) (n e h : nat).

(** Both sides of the edge are triangles. *)
Definition inner n s e : Prop := e < n /\ fF s e <> e /\ fF s (neg e) <> neg e.

Definition dl s e : R :=
  let A := vv s e in let B := pneg (vv s (fF s (fF s e))) in let D := vv s (fF s (neg e)) in
  incirc (psub A D) (psub B D) (pneg D).

Definition verdict (x : R) (r : DELAUNAY) : Prop :=
  match r with IS_DELAUNAY => (x < 0)%R | AMBIGUOUS => x = 0%R | NON_DELAUNAY => (0 < x)%R end.

Lemma den_incircle (a b c : vec K) : den (incircle a b c) = incirc (vden a) (vden b) (vden c).
Proof. unfold incircle, det3, incirc, pdot, vden; cbn. rewrite ?den_add, ?den_sub, ?den_mul, ?den_add, ?den_sub, ?den_mul, ?den_add, ?den_mul. ring. Qed.

Lemma delaunay_edge_Ok n s e : flat_surface n s -> inner n s e -> exists r, delaunay_edge s e = Ok r /\ verdict (dl s e) r.
Proof.
  intros S (He & N1 & N2). assert (W := fs_wf n s S). assert (Hn := neg_ltn n _ W e He). assert (L := fs_length n s S).
  assert (H1 := fF_lt n s e S He). assert (H2 := fF_lt n s _ S H1). assert (H3 := fF_lt n s _ S Hn).
  unfold delaunay_edge, positive, negative. rewrite from_he_Ok by lia. cbn [bind]. rewrite (nextV_Ok n) by auto. cbn [bind].
  rewrite (nV_link' n _ W) by auto. fold (fF s e). fold (fF s (fF s e)).
  rewrite from_he_Ok by (rewrite L; now apply (neg_ltn n _ W)). cbn [bind]. rewrite (next_Ok n) by auto. cbn [bind]. fold (fF s (neg e)).
  rewrite from_he_Ok by (rewrite L; now apply (neg_ltn n _ W)). cbn [bind].
  eexists. split; [reflexivity|].
  match goal with |- context [rltb ?d _] => remember d as del eqn:Ed end.
  assert (V : den del = dl s e).
  { subst del. rewrite den_incircle, !vden_add.
    change (vden (vat' s (neg (fF s (neg e))))) with (vv s (neg (fF s (neg e)))). change (vden (vat' s e)) with (vv s e).
    change (vden (vat' s (neg (fF s (fF s e))))) with (vv s (neg (fF s (fF s e)))). rewrite !(fs_odd n s S) by auto.
    unfold dl, psub. f_equal; unfold padd, pneg; cbn; f_equal; ring. }
  pose proof (rltb_spec K del (rofZ 0)) as A. pose proof (reqb_spec K del (rofZ 0)) as B. rewrite den_ofZ, V in A, B.
  destruct (rltb _ _); cbn [verdict]; [now apply A|]. destruct (reqb _ _); cbn [verdict]; [now apply B|].
  destruct (Rtotal_order (dl s e) 0) as [X|[X|X]]; auto; exfalso; [apply A in X|apply B in X]; discriminate.
Qed.

Lemma verdict_unique x r r' : verdict x r -> verdict x r' -> r = r'.
Proof. destruct r, r'; cbn; auto; lra. Qed.

(** The quadrilateral around an edge. *)
Lemma quad n s e : flat_surface n s -> inner n s e ->
  let A := vv s e in let B := pneg (vv s (fF s (fF s e))) in let D := vv s (fF s (neg e)) in
  vv s (fF s e) = psub B A /\ vv s (fF s (fF s (neg e))) = psub A D /\ vv s (neg e) = pneg A /\
  (0 < pdet A B)%R /\ (0 < pdet D A)%R.
Proof.
  intros S (He & N1 & N2). cbv zeta. assert (Hn := neg_ltn n _ (fs_wf n s S) e He).
  destruct (fs_flat n s S e He N1) as [Z1 C1]. destruct (fs_flat n s S (neg e) Hn N2) as [Z2 C2]. rewrite (fs_odd n s S e He) in *.
  revert Z1 C1 Z2 C2. destruct (vv s e) as [x y], (vv s (fF s e)) as [x1 y1], (vv s (fF s (fF s e))) as [x2 y2],
    (vv s (fF s (neg e))) as [x3 y3], (vv s (fF s (fF s (neg e)))) as [x4 y4].
  unfold psub, padd, pneg, pdet; cbn [fst snd]. intros Z1 C1 Z2 C2. injection Z1 as A1 A2. injection Z2 as B1 B2.
  split; [f_equal; lra|]. split; [f_equal; lra|]. split; auto. assert (x2 = (- x - x1)%R) by lra. assert (y2 = (- y - y1)%R) by lra. subst x2 y2. split; lra.
Qed.

Lemma inner_neg n s e : flat_surface n s -> inner n s e -> inner n s (neg e).
Proof. intros S (He & N1 & N2). split; [now apply (neg_ltn n _ (fs_wf n s S))|]. rewrite neg_neg. auto. Qed.

(** The orientation of the edge does not matter. *)
Lemma dl_neg n s e : flat_surface n s -> inner n s e -> dl s (neg e) = dl s e.
Proof.
  intros S I. destruct (quad n s e S I) as (Qa & Qd & Qn & _). unfold dl. rewrite neg_neg, Qa, Qd, Qn.
  destruct (vv s e) as [x y], (vv s (fF s (fF s e))) as [x2 y2], (vv s (fF s (neg e))) as [x3 y3].
  unfold incirc, psub, padd, pneg, pdot; cbn [fst snd]. ring.
Qed.

Lemma edge_of_cases h : edge_of h = h \/ edge_of h = neg h.
Proof. unfold edge_of. destruct (_ <? _); auto. Qed.

Lemma delaunay_oriented n s h : flat_surface n s -> inner n s h -> exists r, delaunay_edge s (edge_of h) = Ok r /\ verdict (dl s h) r.
Proof.
  intros S I. destruct (edge_of_cases h) as [-> | ->]; [now apply (delaunay_edge_Ok n)|].
  rewrite <- (dl_neg n s h S I). apply (delaunay_edge_Ok n); auto. now apply inner_neg.
Qed.

Lemma circle_dl n s h o r2 : flat_surface n s -> inner n s h -> circumscribed s h o r2 ->
  exists k, (0 < k /\ dl s h = k * (r2 - dist2 (opposite_corner s h) o))%R.
Proof.
  intros S I (C0 & C1 & C2). destruct (quad n s h S I) as (Qa & Qd & Qn & P & _). rewrite Qa in C2.
  exists (pdet (vv s h) (pneg (vv s (fF s (fF s h))))). split; auto. unfold opposite_corner, dl.
  revert C0 C1 C2. generalize (vv s h) (vv s (fF s (fF s h))) (vv s (fF s (neg h))). intros [x y] [x2 y2] [x3 y3]. destruct o as [p q].
  unfold dist2, incirc, psub, padd, pneg, pdot, pdet; cbn [fst snd]. intros C0 C1 C2.
  subst r2.
  assert (E1 : (x * x + y * y = 2 * (x * p + y * q))%R) by lra.
  assert (E2 : (x2 * x2 + y2 * y2 = - 2 * (x2 * p + y2 * q))%R) by (ring_simplify in C2; ring_simplify; lra).
  (* both sides are polynomials; the difference is a combination of the two equations *)
  assert (F1 : ((x * x + y * y - 2 * (x * p + y * q)) = 0)%R) by lra.
  assert (F2 : ((x2 * x2 + y2 * y2 + 2 * (x2 * p + y2 * q)) = 0)%R) by lra.
  apply Rminus_diag_uniq.
  match goal with |- ?l = 0%R =>
    replace l with ((x * x + y * y - 2 * (x * p + y * q)) * (x2 * y3 - y2 * x3) - (x2 * x2 + y2 * y2 + 2 * (x2 * p + y2 * q)) * (x3 * y - y3 * x))%R by ring end.
  rewrite F1, F2. ring.
Qed.

(** Every triangle has a circumscribed circle. *)
Lemma circle_exists n s h : flat_surface n s -> h < n -> fF s h <> h -> exists o r2, circumscribed s h o r2.
Proof.
  intros S Hh N. destruct (fs_flat n s S h Hh N) as [_ C]. unfold circumscribed.
  revert C. generalize (vv s h) (vv s (fF s h)). intros [x y] [x1 y1]. unfold pdet; cbn [fst snd]. intros C.
  remember (x * y1 - y * x1)%R as D eqn:ED.
  (* solve 2 (p x + q y) = |A|^2, 2 (p (x + x1) + q (y + y1)) = |B|^2 *)
  remember ((x * x + y * y) / 2)%R as u eqn:Eu. remember (((x + x1) * (x + x1) + (y + y1) * (y + y1)) / 2)%R as w eqn:Ew.
  remember ((u * (y + y1) - w * y) / D)%R as p eqn:Ep. remember ((w * x - u * (x + x1)) / D)%R as q eqn:Eq.
  assert (E1 : (p * x + q * y = u)%R) by (subst p q; field_simplify; [|lra]; rewrite ED; field; lra).
  assert (E2 : (p * (x + x1) + q * (y + y1) = w)%R) by (subst p q; field_simplify; [|lra]; rewrite ED; field; lra).
  exists (p, q), (p * p + q * q)%R. unfold dist2, padd, pneg, pdot; cbn [fst snd].
  split; [ring|]. split; [|assert (2 * w = (x + x1) * (x + x1) + (y + y1) * (y + y1))%R by (subst w; field)]; [assert (2 * u = x * x + y * y)%R by (subst u; field)|]; lra.
Qed.

Lemma sq2 (a b : R) : (0 <= a * a + b * b)%R.
Proof. nra. Qed.

(** An edge that is not Delaunay can be flipped. *)
Lemma non_delaunay_can_flip n s e : flat_surface n s -> inner n s e -> (0 < dl s e)%R -> can_flip n s e.
Proof.
  intros S I P. destruct (quad n s e S I) as (Qa & Qd & Qn & P1 & P2). destruct I as (He & N1 & N2).
  unfold can_flip. split; auto. split; auto. split; auto. cbv zeta. rewrite Qa, Qd. unfold dl in P.
  revert P P1 P2. generalize (vv s e) (vv s (fF s (fF s e))) (vv s (fF s (neg e))). intros [x y] [x2 y2] [x3 y3].
  unfold incirc, psub, padd, pneg, pdot, pdet; cbn [fst snd]. intros P P1 P2.
  assert (Q1 : (0 < (x * x + y * y) * (x2 * y3 - y2 * x3))%R).
  { match type of P with (0 < ?l)%R => replace l with ((x * x + y * y) * (x2 * y3 - y2 * x3) - (x3 * x3 + y3 * y3) * (x * - y2 - y * - x2) - (x2 * x2 + y2 * y2) * (x3 * y - y3 * x))%R in P by ring end.
    assert (0 <= (x3 * x3 + y3 * y3) * (x * - y2 - y * - x2))%R by (apply Rmult_le_pos; [apply sq2|lra]).
    assert (0 <= (x2 * x2 + y2 * y2) * (x3 * y - y3 * x))%R by (apply Rmult_le_pos; [apply sq2|lra]). lra. }
  assert (Q2 : (0 < (x * x + y * y) * ((x - x3) * (- y2 - y) - (y - y3) * (- x2 - x)))%R).
  { (* the same at the other end of the edge, with A at the origin *)
    match type of P with (0 < ?l)%R => replace l with ((x * x + y * y) * ((x - x3) * (- y2 - y) - (y - y3) * (- x2 - x))
      - ((x - x3) * (x - x3) + (y - y3) * (y - y3)) * (x * - y2 - y * - x2) - ((x2 + x) * (x2 + x) + (y2 + y) * (y2 + y)) * (x3 * y - y3 * x))%R in P by ring end.
    assert (0 <= ((x - x3) * (x - x3) + (y - y3) * (y - y3)) * (x * - y2 - y * - x2))%R by (apply Rmult_le_pos; [apply sq2|lra]).
    assert (0 <= ((x2 + x) * (x2 + x) + (y2 + y) * (y2 + y)) * (x3 * y - y3 * x))%R by (apply Rmult_le_pos; [apply sq2|lra]). lra. }
  assert (Pos : (0 < x * x + y * y)%R).
  { destruct (Req_dec x 0) as [->|]; [destruct (Req_dec y 0) as [->|]|]; nra. }
  split; [|]; (eapply Rmult_lt_reg_l; [exact Pos|]); rewrite Rmult_0_r; [eapply Rlt_le_trans; [exact Q2|]|eapply Rlt_le_trans; [exact Q1|]]; right; ring.
Qed.

(** Flipping reverses the verdict. *)
Lemma dl_flip n s e s' : flat_surface n s -> e < n -> fflip s e = (s', Ok tt) -> dl s' e = (- dl s e)%R.
Proof.
  intros S He E.
  destruct (flip_facts n s e s' S He E) as (a & b & c & d & Fe & Fa & Fb & Fn & Fc & Fd & G1 & G2 & G3 & G4 & G5 & G6 & D6 & Ha & Hb & Hc & Hd & Hn & _ & Va & Vb & Vc & Vd & On & Ve & Vn).
  destruct (fflip_spec n s e s' S He E) as ((_ & N1 & N2 & _) & _).
  destruct (quad n s e S) as (Qa & Qd & _); [split; auto|]. rewrite Fn, Fc in Qd.
  unfold dl. rewrite G5, G6, G2, Vc, Vd, Ve, Qd, Fe, Fa, Fn.
  destruct (vv s e) as [x y], (vv s b) as [x2 y2], (vv s c) as [x3 y3].
  unfold incirc, psub, padd, pneg, pdot; cbn [fst snd]. ring.
Qed.

Lemma closed_flip n s e s' : flat_surface n s -> closed_surface n s -> e < n -> fflip s e = (s', Ok tt) -> closed_surface n s'.
Proof.
  intros S C He E.
  destruct (flip_facts n s e s' S He E) as (a & b & c & d & Fe & Fa & Fb & Fn & Fc & Fd & G1 & G2 & G3 & G4 & G5 & G6 & D6 & Ha & Hb & Hc & Hd & Hn & O & _).
  pose proof (nodup6 _ _ _ _ _ _ D6) as ((D1 & D2 & D3 & D4 & D5) & (D7 & D8 & D9 & D10) & (D11 & D12 & D13) & (D14 & D15) & D16).
  intros i Hi. destruct (in_dec Nat.eq_dec i [e; a; b; neg e; c; d]) as [J|J].
  - cbn in J. destruct J as [<-|[<-|[<-|[<-|[<-|[<-|[]]]]]]]; congruence.
  - destruct (O i Hi J) as [-> _]. now apply C.
Qed.

Lemma closed_inner n s e : flat_surface n s -> closed_surface n s -> e < n -> inner n s e.
Proof. intros S C He. split; auto. split; apply C; auto. now apply (neg_ltn n _ (fs_wf n s S)). Qed.

Lemma fflips_app es es' : forall s, fflips s (es ++ es') = match fflips s es with (s', Ok _) => fflips s' es' | x => x end.
Proof.
  induction es as [|e r IH]; intros s; cbn [fflips app]; auto.
  destruct (fflip s e) as [s1 [[]| | |]]; auto.
Qed.

(** ** The potential of a surface, sum of area times squared side lengths over triangles *)
Definition corner_pot s e : R := if fF s e =? e then 0%R else (triangle_area2 s e * pdot (vv s e) (vv s e))%R.
Definition pot n s : R := rsum (map (corner_pot s) (seq 0 n)).

Lemma pot_flip n s e s' : flat_surface n s -> e < n -> fflip s e = (s', Ok tt) -> pot n s' = (pot n s - 4 * dl s e)%R.
Proof.
  intros S He E. destruct (fflip_spec n s e s' S He E) as (CF & S' & _).
  destruct (flip_facts n s e s' S He E) as (a & b & c & d & Fe & Fa & Fb & Fn & Fc & Fd & G1 & G2 & G3 & G4 & G5 & G6 & D6 & Ha & Hb & Hc & Hd & Hn & O & Va & Vb & Vc & Vd & On & Ve & Vn).
  assert (X : rsum (map (fun i => (corner_pot s' i + - corner_pot s i)%R) (seq 0 n)) = (- 4 * dl s e)%R).
  { rewrite (rsum_support _ [e; a; b; neg e; c; d]).
    - pose proof (nodup6 _ _ _ _ _ _ D6) as ((D1 & D2 & D3 & D4 & D5) & (D7 & D8 & D9 & D10) & (D11 & D12 & D13) & (D14 & D15) & D16).
      destruct (quad n s e S) as (Qa & Qd & _). { destruct CF as (_ & N1 & N2 & _). split; auto. }
      rewrite Fe, Fa, Fn, Fc in *.
      cbn [map rsum]. unfold corner_pot, triangle_area2, dl. rewrite Fe, Fa, Fb, Fn, Fc, Fd, G1, G2, G3, G4, G5, G6, Va, Vb, Vc, Vd, On, Ve, Vn, Qa, Qd.
      repeat match goal with |- context [?x =? ?y] => replace (x =? y) with false by (symmetry; apply Nat.eqb_neq; congruence) end.
      destruct (vv s e) as [x1 y1], (vv s b) as [x3 y3], (vv s c) as [x4 y4].
      unfold incirc, psub, padd, pneg, pdet, pdot; cbn [fst snd]. ring.
    - exact D6.
    - apply seq_NoDup.
    - intros x I. apply in_seq. cbn in I. destruct I as [<-|[<-|[<-|[<-|[<-|[<-|[]]]]]]]; lia.
    - intros i I N. apply in_seq in I. assert (Hi : i < n) by lia.
      assert (N' : ~ In (fF s i) [e; a; b; neg e; c; d]).
      { intros J. apply N. assert (X := fF3 n s i S Hi). cbn in J. cbn.
        destruct J as [J|[J|[J|[J|[J|[J|[]]]]]]]; rewrite <- J in X; rewrite ?Fe, ?Fa, ?Fb, ?Fn, ?Fc, ?Fd in X; rewrite ?Fe, ?Fa, ?Fb, ?Fn, ?Fc, ?Fd in X; auto 10. }
      destruct (O i Hi N) as [O1 O2]. destruct (O (fF s i) (fF_lt n s i S Hi) N') as [O3 O4].
      unfold corner_pot, triangle_area2. rewrite O1, O2, O4. destruct (_ =? _); lra. }
  rewrite rsum_plus in X. unfold pot.
  rewrite (rsum_ext (fun x => (- corner_pot s x)%R) (fun x => (-1 * corner_pot s x)%R)) in X by (intros; lra).
  rewrite rsum_scale in X. lra.
Qed.

Lemma pot_nonneg n s : flat_surface n s -> (0 <= pot n s)%R.
Proof.
  intros S. apply rsum_nonneg. intros e I. apply in_seq in I. unfold corner_pot. destruct (Nat.eqb_spec (fF s e) e) as [|B]; [lra|].
  destruct (fs_flat n s S e) as [_ C]; auto; [lia|]. apply Rmult_le_pos; [unfold triangle_area2; lra|]. unfold pdot. nra.
Qed.

(** ** The algorithm *)
Lemma delaunay_pass_Ok n es : forall s b, flat_surface n s -> closed_surface n s -> (forall e, In e es -> e < n) ->
  exists s' hist b', delaunay_pass s es b = (s', Ok b') /\ fflips s hist = (s', Ok tt) /\ (forall e, In e hist -> In e es) /\
    flat_surface n s' /\ closed_surface n s' /\
    (b' = true -> b = true /\ s' = s /\ forall e, In e es -> delaunay_edge s e <> Ok NON_DELAUNAY).
Proof.
  induction es as [|e r IH]; intros s b S C H; cbn [delaunay_pass].
  - exists s, [], b. split; auto. split; auto. split; auto. split; auto.
  - assert (He : e < n) by auto with datatypes. assert (I := closed_inner n s e S C He).
    destruct (delaunay_edge_Ok n s e S I) as (v & E & V). rewrite E. destruct v.
    + cbn in V. assert (CF := non_delaunay_can_flip n s e S I V). destruct (fflip_Ok n s e S He CF) as (s1 & Ef & S1 & _).
      unfold positive. rewrite Ef. assert (C1 := closed_flip n s e s1 S C He Ef).
      destruct (IH s1 false S1 C1) as (s' & hist & b' & E' & F' & H' & S' & C' & B'); [auto with datatypes|].
      exists s', (e :: hist), b'. split; auto. cbn [fflips]. rewrite Ef. split; auto.
      split. { intros x [<-|J]; auto with datatypes. }
      split; auto. split; auto. intros X. destruct (B' X). discriminate.
    + destruct (IH s b S C) as (s' & hist & b' & E' & F' & H' & S' & C' & B'); [auto with datatypes|].
      exists s', hist, b'. split; auto. split; auto. split; [auto with datatypes|]. split; auto. split; auto.
      intros X. destruct (B' X) as (X1 & X2 & X3). split; auto. split; auto. intros x [<-|J]; [congruence|auto].
    + destruct (IH s b S C) as (s' & hist & b' & E' & F' & H' & S' & C' & B'); [auto with datatypes|].
      exists s', hist, b'. split; auto. split; auto. split; [auto with datatypes|]. split; auto. split; auto.
      intros X. destruct (B' X) as (X1 & X2 & X3). split; auto. split; auto. intros x [<-|J]; [congruence|auto].
Qed.

Lemma delaunay_result n fuel : forall s, flat_surface n s -> closed_surface n s ->
  exists s' hist, fflips s hist = (s', Ok tt) /\ (forall e, In e hist -> In e (edges (fT s))) /\ flat_surface n s' /\ closed_surface n s' /\
    ((delaunay fuel s = (s', Ok tt) /\ forall e, In e (edges (fT s')) -> delaunay_edge s' e <> Ok NON_DELAUNAY) \/
     delaunay fuel s = (s', OutOfFuel)).
Proof.
  induction fuel as [|k IH]; intros s S C; cbn [delaunay].
  - exists s, []. split; auto. split; [intros e []|]. split; auto.
  - destruct (delaunay_pass_Ok n (edges (fT s)) s true S C) as (s1 & h1 & b & E & F1 & H1 & S1 & C1 & B1).
    { intros e J. now apply (in_edges n (fT s)) in J; [|apply S]. }
    rewrite E. destruct b.
    + destruct (B1 eq_refl) as (_ & -> & D). exists s, h1. auto 10.
    + assert (Ee : edges (fT s1) = edges (fT s)).
      { unfold edges. now rewrite (wf_size n _ (fs_wf n s1 S1)), (wf_size n _ (fs_wf n s S)). }
      destruct (IH s1 S1 C1) as (s' & h2 & F2 & H2 & S' & C' & R). exists s', (h1 ++ h2). rewrite fflips_app, F1.
      split; auto. split; [|auto]. intros e J. apply in_app_or in J as [J|J]; auto. rewrite <- Ee. auto.
Qed.

(** *** Termination for lattice coordinates *)
Lemma lattice_coords n s N : lattice n s N -> forall e, e < n ->
  exists x y, (IZR N * fst (vv s e) = IZR x)%R /\ (IZR N * snd (vv s e) = IZR y)%R.
Proof. intros [_ L] e He. destruct (L e He) as (x & y & E). unfold pscale in E. injection E as E1 E2. eauto. Qed.

Lemma lattice_flip n s e s' N : flat_surface n s -> e < n -> fflip s e = (s', Ok tt) -> lattice n s N -> lattice n s' N.
Proof.
  intros S He E L.
  destruct (fflip_spec n s e s' S He E) as (_ & S' & _ & Vo & Ve).
  assert (Hn := neg_ltn n _ (fs_wf n s S) e He). assert (H1 := fF_lt n s e S He). assert (H2 := fF_lt n s _ S H1). assert (H3 := fF_lt n s _ S Hn).
  destruct (lattice_coords n s N L _ H2) as (x & y & X & Y). destruct (lattice_coords n s N L _ H3) as (x' & y' & X' & Y').
  split; [apply L|]. intros i Hi.
  destruct (Nat.eq_dec i e) as [->|D].
  { exists (- (x + x'))%Z, (- (y + y'))%Z. rewrite Ve. unfold pscale, pneg, padd; cbn [fst snd]. rewrite !opp_IZR, !plus_IZR. f_equal; lra. }
  destruct (Nat.eq_dec i (neg e)) as [->|D'].
  { exists (x + x')%Z, (y + y')%Z. rewrite (fs_odd n s' S' e He), Ve. unfold pscale, pneg, padd; cbn [fst snd]. rewrite !plus_IZR. f_equal; lra. }
  destruct L as [_ L]. destruct (L i Hi) as (p & q & P). exists p, q. rewrite <- P. unfold vv. now rewrite Vo.
Qed.

Definition integral (x : R) : Prop := exists z, x = IZR z.
Lemma integral_plus x y : integral x -> integral y -> integral (x + y)%R.
Proof. intros (z & ->) (w & ->). exists (z + w)%Z. now rewrite plus_IZR. Qed.
Lemma integral_opp x : integral x -> integral (- x)%R.
Proof. intros (z & ->). exists (- z)%Z. now rewrite opp_IZR. Qed.
Lemma integral_minus x y : integral x -> integral y -> integral (x - y)%R.
Proof. intros. apply integral_plus; auto. now apply integral_opp. Qed.
Lemma integral_mult x y : integral x -> integral y -> integral (x * y)%R.
Proof. intros (z & ->) (w & ->). exists (z * w)%Z. now rewrite mult_IZR. Qed.
Lemma integral_0 : integral 0%R.
Proof. now exists 0%Z. Qed.
Lemma integral_rsum {A} (f : A -> R) l : (forall x, In x l -> integral (f x)) -> integral (rsum (map f l)).
Proof. induction l as [|a l IH]; cbn; intros H; [apply integral_0|]. apply integral_plus; auto. Qed.

Lemma pot_integral n s N : flat_surface n s -> lattice n s N -> integral (IZR N * IZR N * IZR N * IZR N * pot n s).
Proof.
  intros S L. unfold pot. rewrite <- rsum_scale. apply integral_rsum. intros e I. apply in_seq in I. assert (He : e < n) by lia.
  unfold corner_pot, triangle_area2. destruct (_ =? _); [rewrite Rmult_0_r; apply integral_0|].
  destruct (lattice_coords n s N L e He) as (x & y & X & Y). destruct (lattice_coords n s N L _ (fF_lt n s e S He)) as (x' & y' & X' & Y').
  unfold pdet, pdot. replace (IZR N * IZR N * IZR N * IZR N * ((fst (vv s e) * snd (vv s (fF s e)) - snd (vv s e) * fst (vv s (fF s e))) * (fst (vv s e) * fst (vv s e) + snd (vv s e) * snd (vv s e))))%R
    with (((IZR N * fst (vv s e)) * (IZR N * snd (vv s (fF s e))) - (IZR N * snd (vv s e)) * (IZR N * fst (vv s (fF s e)))) *
      ((IZR N * fst (vv s e)) * (IZR N * fst (vv s e)) + (IZR N * snd (vv s e)) * (IZR N * snd (vv s e))))%R by ring.
  rewrite X, Y, X', Y'. repeat (apply integral_mult || apply integral_minus || apply integral_plus || apply integral_opp); eexists; reflexivity.
Qed.

Lemma dl_integral n s N e : flat_surface n s -> e < n -> lattice n s N -> integral (IZR N * IZR N * IZR N * IZR N * dl s e).
Proof.
  intros S He L. assert (Hn := neg_ltn n _ (fs_wf n s S) e He). assert (H1 := fF_lt n s e S He). assert (H2 := fF_lt n s _ S H1). assert (H3 := fF_lt n s _ S Hn).
  destruct (lattice_coords n s N L _ He) as (x & y & X & Y). destruct (lattice_coords n s N L _ H2) as (x' & y' & X' & Y').
  destruct (lattice_coords n s N L _ H3) as (x'' & y'' & X'' & Y'').
  unfold dl. revert X Y X' Y' X'' Y''. generalize (vv s e) (vv s (fF s (fF s e))) (vv s (fF s (neg e))). intros [p q] [p' q'] [p'' q'']. cbn [fst snd]. intros.
  replace (IZR N * IZR N * IZR N * IZR N * incirc (psub (p, q) (p'', q'')) (psub (pneg (p', q')) (p'', q'')) (pneg (p'', q'')))%R
    with (incirc (psub (IZR N * p, IZR N * q) (IZR N * p'', IZR N * q'')) (psub (pneg (IZR N * p', IZR N * q')) (IZR N * p'', IZR N * q'')) (pneg (IZR N * p'', IZR N * q'')))%R
    by (unfold incirc, psub, pneg, padd, pdot; cbn [fst snd]; ring).
  rewrite X, Y, X', Y', X'', Y''. unfold incirc, psub, pneg, padd, pdot; cbn [fst snd].
  repeat (apply integral_mult || apply integral_plus || apply integral_minus || apply integral_opp); eexists; reflexivity.
Qed.

Lemma integral_pos_ge1 x : integral x -> (0 < x)%R -> (1 <= x)%R.
Proof. intros (z & ->) P. apply lt_IZR in P. apply IZR_le. lia. Qed.

Lemma delaunay_pass_lattice n N es : forall s b s' b', flat_surface n s -> closed_surface n s -> lattice n s N -> (forall e, In e es -> e < n) ->
  delaunay_pass s es b = (s', Ok b') -> flat_surface n s' /\ closed_surface n s' /\ lattice n s' N /\
   (IZR N * IZR N * IZR N * IZR N * pot n s' <= IZR N * IZR N * IZR N * IZR N * pot n s - (if b && negb b' then 4 else 0))%R.
Proof.
  induction es as [|e r IH]; intros s b s' b' S C L H; cbn [delaunay_pass].
  - intros X. injection X as <- <-. destruct b; cbn; split; auto; split; auto; split; auto; lra.
  - assert (He : e < n) by auto with datatypes. assert (I := closed_inner n s e S C He).
    destruct (delaunay_edge_Ok n s e S I) as (v & E & V). rewrite E. destruct v.
    + cbn in V. assert (CF := non_delaunay_can_flip n s e S I V). destruct (fflip_Ok n s e S He CF) as (s1 & Ef & S1 & _).
      unfold positive. rewrite Ef. assert (C1 := closed_flip n s e s1 S C He Ef). intros X.
      assert (L1 := lattice_flip n s e s1 N S He Ef L).
      destruct (IH s1 false s' b' S1 C1 L1) as (S' & C' & L' & P); auto with datatypes. cbn [andb] in P.
      split; auto. split; auto. split; auto. rewrite (pot_flip n s e s1 S He Ef) in P.
      assert (D := dl_integral n s N e S He L). apply integral_pos_ge1 in D.
      * destruct (b && negb b'); lra.
      * destruct L as [LN _]. apply IZR_lt in LN. repeat apply Rmult_lt_0_compat; auto.
    + intros X. now apply (IH s b s' b'); auto with datatypes.
    + intros X. now apply (IH s b s' b'); auto with datatypes.
Qed.

Lemma delaunay_terminates n N s : flat_surface n s -> closed_surface n s -> lattice n s N -> exists fuel s', delaunay fuel s = (s', Ok tt).
Proof.
  intros S C L. destruct (pot_integral n s N S L) as (z & Ez).
  assert (Pz : (0 <= z)%Z).
  { apply le_IZR. rewrite <- Ez. destruct L as [LN _]. apply IZR_lt in LN. repeat apply Rmult_le_pos; try lra. now apply pot_nonneg. }
  rewrite <- (Z2Nat.id z Pz) in Ez. remember (Z.to_nat z) as k eqn:Ek. clear Ek Pz z. 
  revert s S C L Ez. induction k as [k IH] using lt_wf_ind. intros s S C L Ez.
  assert (He : forall e, In e (edges (fT s)) -> e < n) by (intros e J; now apply (in_edges n (fT s)) in J; [|apply S]).
  destruct (delaunay_pass_Ok n (edges (fT s)) s true S C He) as (s1 & h1 & b & E & _).
  destruct b. { exists 1, s1. cbn [delaunay]. now rewrite E. }
  destruct (delaunay_pass_lattice n N _ s true s1 false S C L He E) as (S1 & C1 & L1 & P). cbn [andb negb] in P.
  destruct (pot_integral n s1 N S1 L1) as (z & Ez1).
  assert (Pz : (0 <= z)%Z).
  { apply le_IZR. rewrite <- Ez1. destruct L as [LN _]. apply IZR_lt in LN. repeat apply Rmult_le_pos; try lra. now apply pot_nonneg. }
  rewrite Ez, Ez1, <- minus_IZR in P. apply le_IZR in P.
  destruct (IH (Z.to_nat z)) with (s := s1) as (fuel & s' & F); auto; [lia|now rewrite Z2Nat.id|].
  exists (Datatypes.S fuel), s'. cbn [delaunay]. now rewrite E.
Qed.

Lemma delaunay_fuel n fuel : forall s s' o, delaunay fuel s = (s', o) -> o <> OutOfFuel -> delaunay (fuel + n) s = (s', o).
Proof.
  induction fuel as [|k IH]; cbn [delaunay Nat.add]; intros s s' o E N.
  - injection E as <- <-. congruence.
  - destruct (delaunay_pass s (edges (fT s)) true) as [s1 [[]| | |]]; auto.
Qed.
End flat.
