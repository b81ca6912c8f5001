(** * The search for an isomorphism finds one if there is one *)
From Coq Require Import ZArith Reals List Arith Bool Lia Lra.
From Verif Require Import Base HalfEdge HalfEdgeFacts Perm PermSpec PermFacts IndexedSet Combinatorial CombinatorialSpec CombinatorialFacts CombinatorialOps
  ExactReal Vector PlaneSpec Plane VectorFacts FlatTri FlatSpec FlatFacts FlatSum FlatLinear FlatOps FlatAngle
  PointSpec Deform DeformSpec DeformGood Equivalence EquivalenceSpec EquivalenceFacts EquivalenceCode Isomorphism IsomorphismSpec IsomorphismFacts.
Import ListNotations.
Local Open Scope nat_scope.

(** ** Matrices *)
Section plane.
Local Open Scope R_scope.
Lemma matrix_unique (a b c d a' b' c' d' : R) (v w : pt) : pdet v w <> 0 -> papply a b c d v = papply a' b' c' d' v -> papply a b c d w = papply a' b' c' d' w ->
  a = a' /\ b = b' /\ c = c' /\ d = d'.
Proof.
  intros D E1 E2. destruct v as [v1 v2], w as [w1 w2]. unfold papply, pdet in *. cbn [fst snd] in *. injection E1 as P1 P2. injection E2 as Q1 Q2.
  assert (X : forall p q, p * v1 + q * v2 = 0 -> p * w1 + q * w2 = 0 -> p = 0 /\ q = 0).
  { clear - D. intros p q H1 H2. split; apply (Rmult_eq_reg_r (v1 * w2 - v2 * w1)); auto.
    - replace (p * (v1 * w2 - v2 * w1)) with ((p * v1 + q * v2) * w2 - (p * w1 + q * w2) * v2) by ring. rewrite H1, H2. ring.
    - replace (q * (v1 * w2 - v2 * w1)) with ((p * w1 + q * w2) * v1 - (p * v1 + q * v2) * w1) by ring. rewrite H1, H2. ring. }
  destruct (X (a - a') (b - b')); [lra|lra|]. destruct (X (c - c') (d - d')); [lra|lra|]. repeat split; lra.
Qed.
Lemma pdet_apply (a b c d : R) (v w : pt) : pdet (papply a b c d v) (papply a b c d w) = (a * d - b * c) * pdet v w.
Proof. unfold pdet, papply. cbn [fst snd]. ring. Qed.
End plane.

Section faces.
Context {K : ExactReal}.
Implicit Types s u : flat K.
Variable truediv : K -> K -> option K.
Hypothesis Hdiv : exact_division truediv.
Variable fuel : nat.

(** [papply] with coefficients of the ring. *)
Definition mapply (m : K * K * K * K) : pt -> pt := let '(a, b, c, d) := m in papply (den a) (den b) (den c) (den d).
Definition mdet4 (m : K * K * K * K) : R := let '(a, b, c, d) := m in (den a * den d - den b * den c)%R.
Definition oriented_like (same : bool) (r : R) : Prop := if same then (0 < r)%R else (r < 0)%R.

Lemma quotient (x y : K) (z : R) : (den y <> 0)%R -> (z * den y = den x)%R -> forall q, truediv x y = Some q -> den q = z.
Proof. intros D E q Q. assert (H := Hdiv x y D). rewrite Q in H. apply (Rmult_eq_reg_r (den y)); auto. congruence. Qed.
Lemma solve (v w v' w' : vec K) (same : bool) : (pdet (vden v) (vden w) <> 0)%R -> (pdet (vden v') (vden w') <> 0)%R ->
  let D := (vx v * vy w - vy v * vx w)%X in
  match (match truediv (vx v' * vy w - vy v * vx w')%X D, truediv (vx v * vx w' - vx v' * vx w)%X D, truediv (vy v' * vy w - vy v * vy w')%X D, truediv (vx v * vy w' - vy v' * vx w)%X D with
         | Some a, Some b, Some c, Some d => if eqb same (rltb (b * c) (a * d))%X then Some (a, b, c, d) else None
         | _, _, _, _ => None
         end) with
  | Some m => mapply m (vden v) = vden v' /\ mapply m (vden w) = vden w' /\ oriented_like same (mdet4 m)
  | None => forall m, mapply m (vden v) = vden v' -> mapply m (vden w) = vden w' -> ~ oriented_like same (mdet4 m)
  end.
Proof.
  intros H H'. cbv zeta. set (D := (vx v * vy w - vy v * vx w)%X).
  assert (HD : den D = pdet (vden v) (vden w)) by (unfold D, pdet, vden; cbn [fst snd]; now rewrite den_sub, !den_mul).
  assert (Dn : (den D <> 0)%R) by (now rewrite HD).
  assert (U : forall a b c d : K, mapply (a, b, c, d) (vden v) = vden v' -> mapply (a, b, c, d) (vden w) = vden w' ->
    (den a * den D = den (vx v' * vy w - vy v * vx w')%X /\ den b * den D = den (vx v * vx w' - vx v' * vx w)%X /\ den c * den D = den (vy v' * vy w - vy v * vy w')%X /\ den d * den D = den (vx v * vy w' - vy v' * vx w)%X)%R).
  { intros a b c d E1 E2. unfold mapply, papply, vden in E1, E2. cbn [fst snd] in E1, E2. injection E1 as P1 P2. injection E2 as Q1 Q2.
    rewrite !den_sub, !den_mul, <- P1, <- P2, <- Q1, <- Q2. unfold D. rewrite den_sub, !den_mul. repeat split; ring. }
  assert (N : forall x z : K, truediv x D = None -> (den z * den D = den x)%R -> False). { intros x z E Q. assert (Hx := Hdiv x D Dn). rewrite E in Hx. now apply (Hx z). }
  assert (S : forall x z : K, truediv x D = Some z -> (den z * den D = den x)%R). { intros x z E. assert (Hx := Hdiv x D Dn). now rewrite E in Hx. }
  destruct (truediv (vx v' * vy w - vy v * vx w')%X D) as [a|] eqn:Ea; [|intros [[[p q] r] t] M1 M2 _; destruct (U p q r t M1 M2) as (X & _); eauto].
  destruct (truediv (vx v * vx w' - vx v' * vx w)%X D) as [b|] eqn:Eb; [|intros [[[p q] r] t] M1 M2 _; destruct (U p q r t M1 M2) as (_ & X & _); eauto].
  destruct (truediv (vy v' * vy w - vy v * vy w')%X D) as [c|] eqn:Ec; [|intros [[[p q] r] t] M1 M2 _; destruct (U p q r t M1 M2) as (_ & _ & X & _); eauto].
  destruct (truediv (vx v * vy w' - vy v' * vx w)%X D) as [d|] eqn:Ed; [|intros [[[p q] r] t] M1 M2 _; destruct (U p q r t M1 M2) as (_ & _ & _ & X); eauto].
  apply S in Ea, Eb, Ec, Ed. rewrite !den_sub, !den_mul in *.
  assert (M : mapply (a, b, c, d) (vden v) = vden v' /\ mapply (a, b, c, d) (vden w) = vden w').
  { unfold mapply, papply, vden. cbn [fst snd]. unfold D in *. rewrite den_sub, !den_mul in *.
    split; f_equal; apply (Rmult_eq_reg_r (den (vx v) * den (vy w) - den (vy v) * den (vx w))%R); auto.
    - replace ((den a * den (vx v) + den b * den (vy v)) * (den (vx v) * den (vy w) - den (vy v) * den (vx w)))%R with (den a * (den (vx v) * den (vy w) - den (vy v) * den (vx w)) * den (vx v) + den b * (den (vx v) * den (vy w) - den (vy v) * den (vx w)) * den (vy v))%R by ring. rewrite Ea, Eb. ring.
    - replace ((den c * den (vx v) + den d * den (vy v)) * (den (vx v) * den (vy w) - den (vy v) * den (vx w)))%R with (den c * (den (vx v) * den (vy w) - den (vy v) * den (vx w)) * den (vx v) + den d * (den (vx v) * den (vy w) - den (vy v) * den (vx w)) * den (vy v))%R by ring. rewrite Ec, Ed. ring.
    - replace ((den a * den (vx w) + den b * den (vy w)) * (den (vx v) * den (vy w) - den (vy v) * den (vx w)))%R with (den a * (den (vx v) * den (vy w) - den (vy v) * den (vx w)) * den (vx w) + den b * (den (vx v) * den (vy w) - den (vy v) * den (vx w)) * den (vy w))%R by ring. rewrite Ea, Eb. ring.
    - replace ((den c * den (vx w) + den d * den (vy w)) * (den (vx v) * den (vy w) - den (vy v) * den (vx w)))%R with (den c * (den (vx v) * den (vy w) - den (vy v) * den (vx w)) * den (vx w) + den d * (den (vx v) * den (vy w) - den (vy v) * den (vx w)) * den (vy w))%R by ring. rewrite Ec, Ed. ring. }
  destruct M as [M1 M2].
  assert (Dt : (den a * den d - den b * den c <> 0)%R).
  { intros Z. apply H'. rewrite <- M1, <- M2. unfold mapply. rewrite pdet_apply, Z. ring. }
  assert (Or : eqb same (rltb (b * c) (a * d))%X = true <-> oriented_like same (den a * den d - den b * den c)%R).
  { pose proof (rltb_spec K (b * c)%X (a * d)%X) as Q. rewrite !den_mul in Q. unfold oriented_like. destruct (rltb (b * c)%X (a * d)%X).
    - assert (L : (den b * den c < den a * den d)%R) by now apply Q. destruct same; cbn; split; intros; try discriminate; auto; lra.
    - assert (L : ~ (den b * den c < den a * den d)%R) by (intros L; apply Q in L; discriminate). destruct same; cbn; split; intros; try discriminate; auto; lra. }
  destruct (eqb same _) eqn:Eo.
  - split; auto. split; auto. cbn [mdet4]. now apply Or.
  - intros [[[p q] r] t] P1 P2 Q. unfold mapply in P1, P2, M1, M2. rewrite <- P1 in M1. rewrite <- P2 in M2. destruct (matrix_unique _ _ _ _ _ _ _ _ _ _ H M1 M2) as (X1 & X2 & X3 & X4).
    cbn [mdet4] in Q. rewrite <- X1, <- X2, <- X3, <- X4 in Q. apply Or in Q. discriminate.
Qed.

(** ** The linear map *)
Lemma linear_codomain_ok n s (m : K * K * K * K) (same : bool) : closed_flat n s -> oriented_like same (mdet4 m) ->
  exists l, linear_codomain same s m = Ok l /\ closed_flat n l /\ (let '(a, b, c, d) := m in affine_gluing n n s l (den a) (den b) (den c) (den d) (fun h => h)).
Proof.
  destruct m as [[[a b] c] d]. intros [S C] O. assert (W := fs_wf n s S). unfold linear_codomain. destruct (closed_has_boundary n s S C) as [HB BO]. cbn [mdet4] in O.
  set (f := fun e => mkVec (vx (vat' s e) * a + vy (vat' s e) * b)%X (vx (vat' s e) * c + vy (vat' s e) * d)%X : vec K).
  assert (G : forall t1, well_formed n t1 -> exists t2, well_formed n t2 /\ tV t2 = tV t1 /\ tF t2 = tF t1 /\
     let u := mkFlat t2 (map f (seq 0 n)) in
     ((make_flat t1 (fun e => do v <- from_he s e; Ok (mkVec (vx v * a + vy v * b)%X (vx v * c + vy v * d)%X)) = Ok u /\ triangles_flat n u) \/
      (make_flat t1 (fun e => do v <- from_he s e; Ok (mkVec (vx v * a + vy v * b)%X (vx v * c + vy v * d)%X)) = Throw /\ ~ triangles_flat n u))).
  { intros t1 W1. apply (make_flat_spec n t1 _ f W1). intros e He. rewrite from_he_Ok by (rewrite (fs_length n s S); auto). reflexivity. }
  assert (Vf : forall e, vden (f e) = papply (den a) (den b) (den c) (den d) (vden (vat' s e))).
  { intros e. unfold f, vden, papply. cbn [vx vy fst snd]. rewrite !den_add, !den_mul. f_equal; ring. }
  assert (Eb : edge_bijection n n (fun h => h)) by (split; [exists (fun h => h); auto|auto]).
  destruct same; cbn [oriented_like] in O.
  - destruct (clone_Ok n (fT s) W) as (t1 & Cl & W1 & _ & EF). rewrite Cl. cbn [bind].
    destruct (G t1 W1) as (t2 & W2 & _ & EF2 & M). cbv zeta in M. remember (mkFlat t2 _) as u eqn:Eu.
    assert (Ev : forall e, e < n -> vv u e = papply (den a) (den b) (den c) (den d) (vv s e)).
    { intros e He. subst u. rewrite vv_map by auto. apply Vf. }
    assert (Ef : forall e, e < n -> fF u e = fF s e).
    { intros e He. subst u. unfold fF at 1. cbn [fT]. now rewrite (same_nF _ _ _ EF2), (same_nF _ _ _ EF). }
    assert (Su : flat_surface n u).
    { eapply (same_faces_flat n s u); eauto; subst u; cbn [fT fvec]; auto. now rewrite map_length, seq_length. }
    exists u. destruct M as [[M _]|[_ M]]; [|exfalso; apply M, Su]. split; auto. split; [split; auto; intros e He; rewrite Ef; auto|].
    split; auto. left. split; auto. split; auto. intros x Hx. symmetry. auto.
  - destruct (reverse_Ok n (fT s) W) as (t1 & Rv & W1 & _ & EF). rewrite Rv. cbn [bind].
    destruct (G t1 W1) as (t2 & W2 & _ & EF2 & M). cbv zeta in M. remember (mkFlat t2 _) as u eqn:Eu.
    assert (Ev : forall e, e < n -> vv u e = papply (den a) (den b) (den c) (den d) (vv s e)).
    { intros e He. subst u. rewrite vv_map by auto. apply Vf. }
    assert (Ef : forall e, e < n -> fF u (neg (fF s e)) = neg e).
    { intros e He. subst u. unfold fF at 1. cbn [fT]. rewrite (same_nF _ _ _ EF2). now apply EF. }
    assert (Su : flat_surface n u).
    { eapply (reversed_faces_flat n s u); eauto; subst u; cbn [fT fvec]; auto. now rewrite map_length, seq_length. }
    exists u. destruct M as [[M _]|[_ M]]; [|exfalso; apply M, Su]. split; auto.
    assert (Cu : closed_surface n u).
    { intros e He E. assert (He' := neg_ltn n _ W e He).
      pose proof (pF_lt n _ W _ He') as Hp. pose proof (nF_pF n _ W _ He') as Ep. specialize (Ef _ Hp). unfold fF in Ef at 2. rewrite Ep, neg_neg, E in Ef.
      apply (C _ Hp). unfold fF. rewrite Ep. apply neg_inj. now rewrite neg_neg. }
    split; [split; auto|]. split; auto. right. split; auto. split; auto. intros x Hx.
    assert (L := fF_lt n s). rewrite (fV_eq n s x S Hx) by auto. rewrite (fV_eq n u) by (auto; try (apply (neg_ltn n _ W); auto); apply Cu; apply (neg_ltn n _ W); auto).
    rewrite Ef by auto. rewrite Ef by auto. apply neg_neg.
Qed.

(** ** The search *)
(** [actb] are the half edges that are not ignored, [g] and [h] turn to the next and the previous half edge of a cell. *)
Record cells (kind : ISOMORPHISM) (n : nat) (s : flat K) (actb : nat -> bool) (g h : nat -> nat) : Prop := {
  ce_ignore : forall x, x < n -> ignore kind s x = Ok (negb (actb x));
  ce_neg : forall x, x < n -> actb x = true -> actb (neg x) = true;
  ce_next : forall x, x < n -> actb x = true -> g x < n /\ actb (g x) = true /\ next_in_cell fuel kind s x = Ok (g x);
  ce_image : forall x, x < n -> actb x = true -> h x < n /\ actb (h x) = true /\ next_in_image_cell fuel kind false s x = Ok (h x);
  ce_convex : forall x, x < n -> actb x = true -> (0 < pdet (vv s x) (vv s (g x)))%R /\ (pdet (vv s x) (vv s (h x)) < 0)%R;
  ce_connected : forall P : nat -> Prop, (exists x, (x < n /\ actb x = true) /\ P x) -> (forall x, x < n /\ actb x = true -> P x -> P (neg x) /\ P (g x)) -> forall x, x < n /\ actb x = true -> P x;
  ce_connected' : forall P : nat -> Prop, (exists x, (x < n /\ actb x = true) /\ P x) -> (forall x, x < n /\ actb x = true -> P x -> P (neg x) /\ P (h x)) -> forall x, x < n /\ actb x = true -> P x
}.
(** A map of these half edges. *)
Definition cell_map (n : nat) (s u : flat K) (A B : nat -> bool) (g g' : nat -> nat) (m : K * K * K * K) (fm : nat -> nat -> bool) (f : nat -> nat) : Prop :=
  (forall x, x < n -> A x = true -> f x < n /\ B (f x) = true /\ fm x (f x) = true /\ vv u (f x) = mapply m (vv s x) /\ f (neg x) = neg (f x) /\ f (g x) = g' (f x)).
(** The filter accepts the matrix. *)
Definition accepts (fmx : K -> K -> K -> K -> bool) (m : K * K * K * K) : bool := let '(a, b, c, d) := m in fmx a b c d.

Section search.
Variables (kind : ISOMORPHISM) (n : nat) (s u : flat K) (A B : nat -> bool) (g h g' h' : nat -> nat) (fmx : K -> K -> K -> K -> bool) (fm : nat -> nat -> bool).
Hypothesis CS : closed_flat n s.
Hypothesis CU : closed_flat n u.
Hypothesis Cs : cells kind n s A g h.
Hypothesis Cu : cells kind n u B g' h'.
Hypothesis Hfuel : n < fuel.
Hypothesis Hval : by_value fmx.
Definition gof (same : bool) : nat -> nat := if same then g' else h'.

Lemma vv_vat (w : flat K) x : vv w x = vden (vat' w x). Proof. reflexivity. Qed.
Lemma HsA : forall x, (x < n /\ A x = true) -> x < n /\ (neg x < n /\ A (neg x) = true) /\ (g x < n /\ A (g x) = true) /\ next_in_cell fuel kind s x = Ok (g x) /\ from_he s x = Ok (vat' s x).
Proof.
  intros x [L a]. assert (W := fs_wf n s (proj1 CS)). destruct (ce_next _ _ _ _ _ _ Cs x L a) as (? & ? & ?). split; auto. split; [split; [now apply (neg_ltn n _ W)|now apply (ce_neg _ _ _ _ _ _ Cs)]|]. split; auto. split; auto.
  apply from_he_Ok. now rewrite (fs_length n s (proj1 CS)).
Qed.
Lemma HuB same : forall y, (y < n /\ B y = true) -> (neg y < n /\ B (neg y) = true) /\ (gof same y < n /\ B (gof same y) = true) /\ next_in_image_cell fuel kind same u y = Ok (gof same y) /\ from_he u y = Ok (vat' u y).
Proof.
  intros y [L b]. assert (W := fs_wf n u (proj1 CU)). split; [split; [now apply (neg_ltn n _ W)|now apply (ce_neg _ _ _ _ _ _ Cu)]|].
  assert (V : from_he u y = Ok (vat' u y)) by (apply from_he_Ok; now rewrite (fs_length n u (proj1 CU))).
  destruct same; cbn [gof].
  - destruct (ce_next _ _ _ _ _ _ Cu y L b) as (? & ? & ?). auto.
  - destruct (ce_image _ _ _ _ _ _ Cu y L b) as (? & ? & ?). auto.
Qed.

Lemma first_mapped_ok m l x y : In x l -> mapped m x = Some y -> exists p q, first_mapped m l = Ok (p, q) /\ In p l /\ mapped m p = Some q.
Proof.
  induction l as [|p l IH]; intros I E; [destruct I|]. cbn [first_mapped]. destruct (mapped m p) as [q|] eqn:Ep.
  - exists p, q. split; auto. split; auto. now left.
  - destruct I as [-> |I]; [congruence|]. destruct (IH I E) as (p' & q' & -> & I' & E'). exists p', q'. split; auto. split; auto. now right.
Qed.

(** What is known about a result. *)
Definition result_ok (same : bool) (i : isomorphism_result) : Prop :=
  closed_flat n (is_linear i) /\ (let '(a, b, c, d) := is_matrix i in affine_gluing n n s (is_linear i) (den a) (den b) (den c) (den d) (fun x => x)) /\
  accepts fmx (is_matrix i) = true /\ oriented_like same (mdet4 (is_matrix i)) /\
  exists f, cell_map n s u A B g (gof same) (is_matrix i) fm f /\ (forall y, y < n -> B y = true -> exists x, x < n /\ A x = true /\ f x = y) /\
    is_preimage i < n /\ A (is_preimage i) = true /\ f (is_preimage i) = is_image i.

Lemma try_image_ok pre image same : pre < n -> A pre = true -> image < n -> B image = true ->
  exists r, try_image truediv fuel kind fmx fm s u pre image same = Ok r /\
    match r with
    | Some i => result_ok same i
    | None => forall m f, accepts fmx m = true -> oriented_like same (mdet4 m) -> cell_map n s u A B g (gof same) m fm f -> f pre = image -> False
    end.
Proof.
  intros Lp Ap Li Bi. unfold try_image, matrix_of.
  destruct (HsA pre (conj Lp Ap)) as (_ & _ & Gp & Np & Vp). destruct (HsA _ Gp) as (_ & _ & _ & _ & Vg). destruct (HuB same image (conj Li Bi)) as (_ & Gi & Ni & Vi). destruct (HuB same _ Gi) as (_ & _ & _ & Vgi).
  rewrite Vp, Np. cbn [bind]. rewrite Vg, Vi, Ni. cbn [bind]. rewrite Vgi. cbn [bind]. cbv zeta.
  assert (D1 : (pdet (vden (vat' s pre)) (vden (vat' s (g pre))) <> 0)%R). { destruct (ce_convex _ _ _ _ _ _ Cs pre Lp Ap) as [X _]. rewrite !vv_vat in X. lra. }
  assert (D2 : (pdet (vden (vat' u image)) (vden (vat' u (gof same image))) <> 0)%R). { destruct (ce_convex _ _ _ _ _ _ Cu image Li Bi) as [X Y]. rewrite !vv_vat in X, Y. destruct same; cbn [gof]; lra. }
  assert (Sv := solve (vat' s pre) (vat' s (g pre)) (vat' u image) (vat' u (gof same image)) same D1 D2). cbv zeta in Sv.
  match goal with |- exists r, (match ?z with Some _ => _ | None => _ end) = _ /\ _ => destruct z as [m|] end.
  2:{ exists None. split; auto. intros m f Am Om Cm E. destruct (Cm pre Lp Ap) as (_ & _ & _ & V1 & _ & G1). destruct (Cm (g pre)) as (_ & _ & _ & V2 & _); [apply Gp|apply Gp|].
      rewrite G1, E in *. apply (Sv m); auto. }
  destruct m as [[[a b] c] d]. destruct Sv as (S1 & S2 & So).
  assert (Un : forall m f, cell_map n s u A B g (gof same) m fm f -> f pre = image -> let '(a', b', c', d') := m in den a = den a' /\ den b = den b' /\ den c = den c' /\ den d = den d').
  { intros [[[a' b'] c'] d'] f Cm E. destruct (Cm pre Lp Ap) as (_ & _ & _ & V1 & _ & G1). destruct (Cm (g pre)) as (_ & _ & _ & V2 & _); [apply Gp|apply Gp|]. rewrite G1, E in *. unfold mapply in *.
    rewrite !vv_vat in *. rewrite V1 in S1. rewrite V2 in S2. exact (matrix_unique _ _ _ _ _ _ _ _ _ _ D1 S1 S2). }
  destruct (fmx a b c d) eqn:Ef; cbn [negb].
  2:{ exists None. split; auto. intros m f Am Om Cm E. specialize (Un m f Cm E). destruct m as [[[a' b'] c'] d']. destruct Un as (U1 & U2 & U3 & U4). cbn [accepts] in Am. rewrite (Hval a b c d a' b' c' d' U1 U2 U3 U4) in Ef. congruence. }
  assert (Kb := match_ok kind same s u a b c d fm fuel n (fun x => x < n /\ A x = true) (fun y => y < n /\ B y = true) g (gof same) HsA (HuB same) fuel [] pre image).
  destruct Kb as (m' & r & Em & _ & _ & Sr); [split; [constructor|intros ? ? []]|cbn; lia|auto|auto|]. rewrite Em. cbn [bind].
  destruct r; cbn [negb].
  2:{ exists None. split; auto. intros m f Am Om Cm E. assert (U := Un m f Cm E). destruct m as [[[a' b'] c'] d']. destruct U as (U1 & U2 & U3 & U4).
      rewrite <- E in Em. destruct (match_complete kind same s u a b c d fm fuel n (fun x => x < n /\ A x = true) (fun y => y < n /\ B y = true) g (gof same) HsA (HuB same) f fuel [] pre m' false) as [X _]; auto; try discriminate.
      - intros z [Lz Az]. destruct (Cm z Lz Az) as (F1 & F2 & F3 & F4 & F5 & F6). split; auto. split; auto. split; auto. rewrite !vv_vat in F4. rewrite F4. unfold mapply. now rewrite U1, U2, U3, U4.
      - intros p q []. }
  destruct (linear_codomain_ok n s (a, b, c, d) same CS So) as (l & -> & Cl & Al). cbn [bind].
  destruct (match_map kind same s u a b c d fm fuel n (fun x => x < n /\ A x = true) (fun y => y < n /\ B y = true) g (gof same) HsA (HuB same) (ce_connected _ _ _ _ _ _ Cs)) with (k := fuel) (x0 := pre) (y0 := image) (m' := m') as (f & F0 & F1 & F2 & F3); auto.
  { destruct same; cbn [gof]; [apply (ce_connected _ _ _ _ _ _ Cu)|apply (ce_connected' _ _ _ _ _ _ Cu)]. }
  destruct (first_mapped_ok m' (half_edges (fT s)) pre (f pre)) as (p & q & -> & Ip & Eq).
  { unfold half_edges. rewrite (wf_size n (fT s)) by apply CS. apply in_seq. lia. }
  { now apply F1. }
  cbn [bind]. eexists. split; [reflexivity|]. unfold result_ok. cbn [is_linear is_matrix is_preimage is_image]. split; auto. split; auto. split; auto. split; auto.
  exists f. split; [|split].
  - intros x Lx Ax. destruct (F1 x (conj Lx Ax)) as ([B1 B2] & [T1 T2] & P1 & P2 & _). auto 10.
  - intros y Ly By. destruct (F2 y (conj Ly By)) as (x & [X1 X2] & X3). eauto.
  - destruct (F3 p q Eq) as [P1 P2]. split; auto. split; auto. destruct (F1 p (conj P1 P2)) as (_ & _ & _ & _ & Q). congruence.
Qed.

Lemma try_images_ok pre l : pre < n -> A pre = true -> (forall x, In x l -> x < n) ->
  exists r, try_images truediv fuel kind fmx fm s u pre l = Ok r /\
    match r with
    | Some i => exists same, result_ok same i
    | None => forall same m f, accepts fmx m = true -> oriented_like same (mdet4 m) -> cell_map n s u A B g (gof same) m fm f -> ~ In (f pre) l
    end.
Proof.
  intros Lp Ap. induction l as [|y l IH]; intros Hl; cbn [try_images].
  - exists None. split; auto.
  - assert (Ly : y < n) by (apply Hl; now left). rewrite (ce_ignore _ _ _ _ _ _ Cu y Ly). cbn [bind]. destruct (B y) eqn:By; cbn [negb].
    + destruct (try_image_ok pre y true Lp Ap Ly By) as (r1 & -> & H1). cbn [bind]. destruct r1 as [i|]; [exists (Some i); split; eauto|].
      destruct (try_image_ok pre y false Lp Ap Ly By) as (r2 & -> & H2). cbn [bind]. destruct r2 as [i|]; [exists (Some i); split; eauto|].
      destruct IH as (r & -> & H); [intros x Hx; apply Hl; now right|]. exists r. split; auto. destruct r as [i|]; auto. intros same m f Am Om Cm [E|I]; [|now apply (H same m f)].
      destruct same; [apply (H1 m f)|apply (H2 m f)]; auto.
    + destruct IH as (r & -> & H); [intros x Hx; apply Hl; now right|]. exists r. split; auto. destruct r as [i|]; auto. intros same m f Am Om Cm [E|I]; [|now apply (H same m f)].
      destruct (Cm pre Lp Ap) as (_ & X & _). congruence.
Qed.
Lemma first_half_edge_ok l : (forall x, In x l -> x < n) -> (exists x, In x l /\ A x = true) -> exists x, first_half_edge kind s l = Ok x /\ x < n /\ A x = true.
Proof.
  induction l as [|y l IH]; intros Hl (x & I & Ax); [destruct I|]. cbn [first_half_edge]. assert (Ly : y < n) by (apply Hl; now left). rewrite (ce_ignore _ _ _ _ _ _ Cs y Ly). cbn [bind].
  destruct (A y) eqn:Ay; cbn [negb]; [eauto|]. destruct I as [-> |I]; [congruence|]. apply IH; [intros z Hz; apply Hl; now right|eauto].
Qed.
Lemma isomorphism_ok : (exists x, x < n /\ A x = true) ->
  exists r, isomorphism truediv fuel kind fmx fm s u = Ok r /\
    match r with
    | Some i => exists same, result_ok same i
    | None => forall same m f, accepts fmx m = true -> oriented_like same (mdet4 m) -> cell_map n s u A B g (gof same) m fm f -> False
    end.
Proof.
  intros (x & Lx & Ax). unfold isomorphism. destruct (closed_has_boundary n s (proj1 CS) (proj2 CS)) as [-> _]. destruct (closed_has_boundary n u (proj1 CU) (proj2 CU)) as [-> _]. cbn [bind eqb negb].
  assert (Es : half_edges (fT s) = seq 0 n) by (unfold half_edges; rewrite (wf_size n (fT s)) by apply CS; auto). assert (Eu : half_edges (fT u) = seq 0 n) by (unfold half_edges; rewrite (wf_size n (fT u)) by apply CU; auto).
  rewrite Es, Eu, Nat.eqb_refl. cbn [negb].
  assert (Hl : forall z, In z (seq 0 n) -> z < n) by (intros z Hz; apply in_seq in Hz; lia).
  destruct (first_half_edge_ok (seq 0 n) Hl) as (p & -> & Lp & Ap); [exists x; split; auto; apply in_seq; lia|]. cbn [bind].
  destruct (try_images_ok p (seq 0 n) Lp Ap Hl) as (r & -> & H). exists r. split; auto. destruct r as [i|]; auto.
  intros same m f Am Om Cm. apply (H same m f Am Om Cm). apply in_seq. destruct (Cm p Lp Ap). lia.
Qed.
End search.
End faces.
