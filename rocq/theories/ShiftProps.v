(** * Property C70: shifting the vertices of a surface *)
From Coq Require Import ZArith QArith Qreals Reals List Arith Bool Lia Lra Psatz Permutation.
From Verif Require Import Base HalfEdge HalfEdgeFacts Perm PermSpec PermFacts PermCycles PermLemmas IndexedSet Combinatorial CombinatorialSpec
  CombinatorialFacts CombinatorialFlip CombinatorialHistory CombinatorialOps CombinatorialProps Tracked ExactReal Vector PlaneSpec Plane VectorFacts VectorProps Arb ArbFacts Quadratic QuadraticSpec QuadraticFacts QuadraticProps
  FlatTri FlatSpec FlatFacts FlatProps FlatSum FlatLinear FlatOps FlatAngle FlatSector Collapse Shift ShiftSpec ShiftFacts ShiftRun ShiftInvariants ShiftAngle.
Import ListNotations.
Local Open Scope R_scope.

(** Vertices do not run into each other along an edge, whatever triangulation is used. *)
Definition no_collision {K : ExactReal} (n : nat) (s : flat K) (d : list (vec K)) : Prop := forall s' d', deforms n s d s' d' -> none_vanishes n s' d'.
(** The polynomials whose values are the areas of triangles at some time satisfy [P]. *)
Definition areas_satisfy {K : ExactReal} (n : nat) (s : flat K) (d : list (vec K)) (P : Quadratic.quad K -> Prop) : Prop :=
  forall s' d' h p, deforms n s d s' d' -> (h < n)%nat -> (forall t, at_ p t = pdet (moving s' d' t h) (moving s' d' t (fF s' h))) -> P p.

(** The result is the surface after a continuous deformation; there is no error. *)
Theorem C70_shift : forall (K : ExactReal) (o : solver K) approx ops quot P n (s : flat K) d fuel, sound o -> reliable o P -> approximates approx -> divides quot ->
  flat_surface n s -> closed_surface n s -> shift_of n s d -> no_collision n s d -> areas_satisfy n s d P ->
  match shift_add o approx ops quot fuel s d with
  | Ok u => exists d', deforms n s d u d' /\ done n d'
  | OutOfFuel => True
  | Throw | UB => False
  end.
Proof.
  intros K o approx ops quot P n s d fuel So Re Ap Dv S C Sh NC AP.
  assert (Q := shift_run o approx ops quot n P So Re Ap Dv fuel s d S C Sh). cbv beta delta [safe finished] in Q.
  apply Q. intros s' d' D. split; auto. intros h H. apply (AP s' d' h); auto. intros t. destruct (deforms_good n s d S C Sh s' d' D) as (S' & C' & Sh'). apply (at_corner n s' d' S' C' Sh' t h H).
Qed.
Print Assumptions C70_shift.

(** When all vertices move in parallel, an arithmetic that is not wrong is good enough. *)
Theorem C70_parallel : forall (K : ExactReal) (o : solver K) approx ops quot n (s : flat K) d w fuel, sound o -> approximates approx -> divides quot ->
  flat_surface n s -> closed_surface n s -> shift_of n s d -> no_collision n s d -> (forall h, (h < n)%nat -> exists k, dd d h = pscale k w) ->
  match shift_add o approx ops quot fuel s d with
  | Ok u => exists d', deforms n s d u d' /\ done n d'
  | OutOfFuel => True
  | Throw | UB => False
  end.
Proof.
  intros K o approx ops quot n s d w fuel So Ap Dv S C Sh NC Pa.
  assert (Q := shift_run o approx ops quot n falling So (falling_reliable o So) Ap Dv fuel s d S C Sh). cbv beta delta [safe finished] in Q.
  apply Q. intros s' d' D. split; auto. intros h H. destruct (deforms_good n s d S C Sh s' d' D) as (S' & C' & Sh'). apply (parallel_falling n s' d' h w S' C' Sh'); auto.
  exact (deforms_parallel n s d S C Sh w Pa s' d' D).
Qed.
Print Assumptions C70_parallel.

(** When no triangle degenerates, the shift is added to each half edge and the triangulation does not change. *)
Theorem C70_simple : forall (K : ExactReal) (o : solver K) approx ops quot n (s : flat K) d fuel, flat_surface n s -> closed_surface n s -> shift_of n s d ->
  (forall t e, 0 <= t <= 1 -> (e < n)%nat -> 0 < pdet (moving s d t e) (moving s d t (fF s e))) -> (0 < fuel)%nat ->
  exists u, shift_add o approx ops quot fuel s d = Ok u /\ flat_surface n u /\
    forall e, (e < n)%nat -> fF u e = fF s e /\ fV u e = fV s e /\ vv u e = padd (vv s e) (dd d e).
Proof.
  intros K o approx ops quot n s d fuel S C Sh Pu Hf. destruct fuel as [|k]; [lia|]. destruct (shift_simple o approx ops quot n s d k S C Sh Pu) as (u & E & Su & _ & M).
  exists u. split; auto. split; auto. intros e He. destruct (M e He) as (A & B & D & _). split; auto. split; auto. rewrite D. unfold moving. destruct (dd d e). unfold pscale. cbn [fst snd]. now rewrite !Rmult_1_l.
Qed.
Print Assumptions C70_simple.

(** The area after the deformation is what is expected from the vectors of any triangulation. *)
Theorem C70_area : forall (K : ExactReal) n (s : flat K) d u d', flat_surface n s -> closed_surface n s -> shift_of n s d -> deforms n s d u d' -> done n d' ->
  rsum (map (triangle_area2 u) (seq 0 n)) = rsum (map (fun h => pdet (padd (vv s h) (dd d h)) (padd (vv s (fF s h)) (dd d (fF s h)))) (seq 0 n)).
Proof.
  intros K n s d u d' S C Sh D Dd. destruct (deforms_good n s d S C Sh u d' D) as (Su & _). rewrite <- (done_area n u d') by auto. rewrite (deforms_area n s d S C Sh u d' D). f_equal. apply map_ext. intros h. unfold area_at, moving.
  destruct (dd d h), (dd d (fF s h)). unfold pscale. cbn [fst snd]. now rewrite !Rmult_1_l.
Qed.
Print Assumptions C70_area.

(** The angles at the vertices do not change. *)
Theorem C70_angles : forall (K : ExactReal) n (s : flat K) d u d', flat_surface n s -> closed_surface n s -> shift_of n s d -> deforms n s d u d' ->
  flat_surface n u /\ closed_surface n u /\ Permutation (map (angle u) (tverts (fT u))) (map (angle s) (tverts (fT s))).
Proof.
  intros K n s d u d' S C Sh D. destruct (deforms_good n s d S C Sh u d' D) as (Su & Cu & _). split; auto. split; auto. now apply (deforms_angles n s d S C Sh u d').
Qed.
Print Assumptions C70_angles.

(** An edge that shrinks to a point before the end is an error. *)
Theorem C70_rejected : forall (K : ExactReal) (o : solver K) approx ops quot n (s : flat K) d fuel h t u, flat_surface n s -> closed_surface n s -> shift_of n s d ->
  (h < n)%nat -> 0 < t < 1 -> padd (vv s h) (pscale t (dd d h)) = (0, 0) -> shift_add o approx ops quot fuel s d <> Ok u.
Proof.
  intros K o approx ops quot n s d fuel h t u S C Sh Hh Ht Z. destruct fuel as [|k]; [discriminate|]. cbn [shift_add].
  set (v := nth h (fvec s) vzero). set (x := nth h d vzero). change (vv s h) with (vden v) in Z. change (dd d h) with (vden x) in Z.
  assert (Nv : vden v <> (0, 0)). { change (vden v) with (vv s h). destruct (fs_flat n s S h Hh (C h Hh)) as [_ P]. intros Q. rewrite Q in P. unfold pdet in P; cbn in P. lra. }
  assert (Fc : forall hes coll, In h hes -> (forall g, In g hes -> (g < n)%nat) -> forall c, find_collapsing s d hes coll <> Ok c).
  { induction hes as [|g r IH]; intros coll I B c; [destruct I|]. cbn [find_collapsing]. rewrite (get_d n s d Sh), (get_v n s S) by auto with datatypes. cbn [bind].
    destruct (Nat.eq_dec g h) as [->|N].
    - fold v x. assert (Y : vnonzero x = true). { apply vnonzero_spec. intros Q. rewrite Q in Z. apply Nv. destruct (vden v). unfold padd, pscale in Z. cbn in Z. injection Z as Z1 Z2. f_equal; lra. }
      rewrite Y. destruct (ccw_spec v x) as (_ & Cl & _). rewrite (proj2 Cl). 2: { destruct (vden v), (vden x). unfold padd, pscale, pdet in *. cbn [fst snd] in *. injection Z as Z1 Z2. replace r0 with (- (t * r2)) by lra. replace r1 with (- (t * r3)) by lra. ring. }
      cbn [andb ccw_eqb]. destruct (orientation_spec v (vadd v x)) as (_ & _ & Op). rewrite (proj2 Op); [discriminate|]. rewrite vden_add. assert (Pv := pdot_pos _ Nv).
      destruct (vden v), (vden x). unfold padd, pscale, pdot in *. cbn [fst snd] in *. injection Z as Z1 Z2.
      apply (Rmult_lt_reg_l t); [lra|]. rewrite Rmult_0_r. replace (t * (r0 * (r0 + r2) + r1 * (r1 + r3))) with (r0 * (t * r0 + t * r2) + r1 * (t * r1 + t * r3)) by ring.
      replace (t * r2) with (- r0) by lra. replace (t * r3) with (- r1) by lra. replace (r0 * (t * r0 + - r0) + r1 * (t * r1 + - r1)) with (- ((1 - t) * (r0 * r0 + r1 * r1))) by ring.
      assert (0 < (1 - t) * (r0 * r0 + r1 * r1)) by (apply Rmult_lt_0_compat; lra). lra.
    - destruct I as [I|I]; [congruence|]. destruct (vnonzero _ && _); [|apply IH; auto with datatypes]. destruct (orientation _ _); try apply IH; auto with datatypes; discriminate. }
  assert (Sc : forall vs coll f, (forall w, In w vs -> In w (tverts (fT s))) -> (exists w, In w vs /\ scontains w h = true) -> forall r, scan o approx ops k s d vs coll f <> Ok r).
  { induction vs as [|w r IH]; intros coll f A (w' & I & Cw) y; [destruct I|]. cbn [scan]. destruct (vertex_orbit n s S w) as (l & -> & Pk & Ik); auto with datatypes. cbn [bind].
    destruct (find_collapsing s d _ coll) as [c| | |] eqn:E; try discriminate. cbn [bind]. destruct I as [->|I].
    - exfalso. revert E. apply Fc; [apply Ik; auto|]. intros g G. now apply Ik.
    - destruct (find_flip o approx ops k s d c _ f) as [f'| | |]; try discriminate. cbn [bind]. apply IH; eauto with datatypes. }
  destruct (vertex_of n s h S Hh) as (w & I & Cw). destruct (scan o approx ops k s d (tverts (fT s)) sempty_set None) as [r| | |] eqn:E; try discriminate.
  exfalso. revert E. apply Sc; eauto.
Qed.
Print Assumptions C70_rejected.

(** ** Examples *)
(** A torus with a marked point: the vertices are (0, 0) and (2, 1) in a square of side length 4. *)
Definition point_cycles : list (list nat) := [[0; 5; 2; 7; 1; 9; 3; 11]; [4; 6; 8; 10]]%nat.
Definition point_t : tri := Eval vm_compute in match make_from_cycles point_cycles [] with Ok t => t | _ => torus_t end.
Lemma point_wf : well_formed 12 point_t.
Proof. exact (proj1 (C07_construction_cycles point_cycles [] point_t eq_refl)). Qed.
Definition point_vectors : list (vec ExactQ) := [qv 4 0; qv 0 4; qv (-2) (-1); qv 2 (-1); qv 2 3; qv (-2) 3].
Definition point_s : flat ExactQ := mkFlat point_t
  [qv 4 0; qv (-4) 0; qv 0 4; qv 0 (-4); qv (-2) (-1); qv 2 1; qv 2 (-1); qv (-2) 1; qv 2 3; qv (-2) (-3); qv (-2) 3; qv 2 (-3)].
Ltac rational := unfold padd, pneg, pdet, vden, Q2R; cbn; split; [f_equal; lra|lra].
Lemma point_suitable : suitable 12 point_t point_vectors.
Proof. split; [reflexivity|]. intros e He. do 12 (destruct e as [|e]; [intros _; cbn; rational|]). lia. Qed.
Lemma point_flat : flat_surface 12 point_s /\ closed_surface 12 point_s.
Proof.
  destruct (proj1 (C19_constructor _ 12 point_t _ point_wf) point_suitable) as (s' & F' & S & _).
  assert (F : make_flat_list point_t point_vectors = Ok point_s) by reflexivity. replace s' with point_s in S by congruence. split; auto.
  intros e He. do 12 (destruct e as [|e]; [cbn; discriminate|]). lia.
Qed.
(** The point moves down to (2, -1). *)
Definition point_shift : list (vec ExactQ) := [qv 0 0; qv 0 0; qv 0 0; qv 0 0; qv 0 2; qv 0 (-2); qv 0 2; qv 0 (-2); qv 0 2; qv 0 (-2); qv 0 2; qv 0 (-2)].
Lemma point_shift_of : shift_of 12 point_s point_shift.
Proof.
  split; [reflexivity|]. split; intros e He; do 12 (destruct e as [|e]; [cbn; unfold dd, padd, pneg, vden, Q2R; cbn; f_equal; lra|]); lia.
Qed.
(** Vertices only move vertically, and vertices that move differently are never above each other. *)
Definition columns {K : ExactReal} (n : nat) (s : flat K) (d : list (vec K)) : Prop := exists (pi : nat -> Z) (r : R), forall h, (h < n)%nat ->
  (pi h = 0 \/ pi h = 1)%Z /\ pi (fF s h) = pi (neg h) /\ (exists m, fst (vv s h) = IZR (2 * (pi (neg h) - pi h) + 4 * m)) /\ dd d h = (0, r * IZR (pi (neg h) - pi h)).
Lemma columns_deform (K : ExactReal) n (s : flat K) d : flat_surface n s -> closed_surface n s -> shift_of n s d -> columns n s d -> no_collision n s d.
Proof.
  intros S C Sh Co. assert (A : forall s' d', deforms n s d s' d' -> columns n s' d').
  { intros s' d'. induction 1 as [|s1 d1 c s2 d2 D1 IH _ _ M|s1 d1 e s2 d2 D1 IH M]; auto.
    - destruct IH as (pi & r & Q). destruct M as (_ & _ & M). exists pi, ((1 - c) * r). intros h H. destruct (Q h H) as (Q1 & Q2 & (m & Q3) & Q4). destruct (M h H) as (-> & _ & Ev & ->).
      split; auto. split; auto. split.
      + exists m. rewrite Ev. unfold moving. rewrite Q4. rewrite <- Q3. unfold padd, pscale; cbn [fst snd]. ring.
      + rewrite Q4. unfold pscale; cbn [fst snd]. f_equal; ring.
    - destruct (deforms_good n s d S C Sh s1 d1 D1) as (S1 & C1 & Sh1). assert (D2 : deforms n s d s2 d2) by (eapply deforms_flip; eauto).
      destruct (deforms_good n s d S C Sh s2 d2 D2) as (S2 & C2 & Sh2).
      destruct IH as (pi & r & Q). destruct (flipped_six n s1 d1 e s2 d2 S1 M) as (a & b & c & f & Ea & Eb & Ee & Ec & Ef & En & F1 & F2 & F3 & F4 & F5 & F6 & ND & He & Ha & Hb & Hc & Hf & Hn & Oi).
      destruct M as (_ & _ & _ & _ & Ve & De & Vo). rewrite Ea, Eb, Ec in Ve, De.
      assert (Ne : e <> neg e) by (intros X; inversion ND as [|? ? N _]; apply N; rewrite <- X; cbn; tauto).
      set (pi' := fun h => if Nat.eq_dec h e then pi (neg c) else if Nat.eq_dec h (neg e) then pi b else pi h).
      assert (Pe : pi' e = pi (neg c)) by (unfold pi'; destruct (Nat.eq_dec e e); congruence).
      assert (Pn : pi' (neg e) = pi b) by (unfold pi'; destruct (Nat.eq_dec (neg e) e); [congruence|]; destruct (Nat.eq_dec (neg e) (neg e)); congruence).
      assert (Po : forall h, h <> e -> h <> neg e -> pi' h = pi h) by (intros h N1 N2; unfold pi'; destruct (Nat.eq_dec h e); [congruence|]; destruct (Nat.eq_dec h (neg e)); congruence).
      assert (Nc : forall h, h <> e -> h <> neg e -> neg h <> e /\ neg h <> neg e) by (intros h N1 N2; split; intros X; [apply N2|apply N1]; apply (f_equal neg) in X; rewrite !neg_neg in X; auto).
      assert (Pt : forall x, (x < n)%nat -> (pi (neg x) = 0 \/ pi (neg x) = 1)%Z) by (intros x X; apply Q, (neg_ltn n _ (fs_wf n s1 S1)); auto).
      assert (Dn : forall g, (g < n)%nat -> pi (neg (neg g)) = pi g) by (intros; now rewrite neg_neg).
      assert (Qb := proj1 (proj2 (Q b Hb))). rewrite Ee in Qb. assert (Qe := proj1 (proj2 (Q e He))). rewrite Ea in Qe. assert (Qa := proj1 (proj2 (Q a Ha))). rewrite Eb in Qa.
      assert (Qn := proj1 (proj2 (Q _ Hn))). rewrite Ec, neg_neg in Qn. assert (Qc := proj1 (proj2 (Q c Hc))). rewrite Ef in Qc. assert (Qf := proj1 (proj2 (Q f Hf))). rewrite En in Qf.
      assert (Xe : (exists m, fst (vv s2 e) = IZR (2 * (pi b - pi (neg c)) + 4 * m)) /\ dd d2 e = (0, r * IZR (pi b - pi (neg c)))).
      { destruct (Q b Hb) as (_ & _ & (m & B3) & B4). destruct (Q c Hc) as (_ & _ & (m' & C3) & C4). split.
        - exists (- m - m')%Z. rewrite Ve. unfold pneg, padd; cbn [fst snd]. rewrite B3, C3. rewrite <- plus_IZR, <- opp_IZR. f_equal. lia.
        - rewrite De, B4, C4. unfold pneg, padd; cbn [fst snd]. f_equal; [ring|]. rewrite !minus_IZR. replace (pi (neg b)) with (pi c) by congruence. ring. }
      exists pi', r. intros h H. destruct (Nat.eq_dec h e) as [->|N1]; [|destruct (Nat.eq_dec h (neg e)) as [->|N2]].
      + rewrite Pe, Pn, F5. split; auto. split; auto. apply Po; intros ->; repeat (apply NoDup_cons_iff in ND as [?N ND]); cbn in *; tauto.
      + rewrite Pn, neg_neg, Pe, F2. split; [apply Q; auto|]. split.
        * rewrite Po; [congruence| |]; intros ->; repeat (apply NoDup_cons_iff in ND as [?N ND]); cbn in *; tauto.
        * destruct Xe as ((m & X1) & X2). rewrite (fs_odd n s2 S2) by auto. destruct Sh2 as (_ & Sn & _). rewrite (Sn e He), X2. unfold pneg; cbn [fst snd]. split.
          -- exists (- m)%Z. rewrite X1, <- opp_IZR. f_equal. lia.
          -- f_equal; [ring|]. rewrite !minus_IZR. ring.
      + destruct (Nc h N1 N2) as [N3 N4]. rewrite !(Po h), !(Po (neg h)) by auto. destruct (Q h H) as (Q1 & Q2 & Q3 & Q4). destruct (Vo h H N1 N2) as [-> ->]. split; auto. split; auto.
        destruct (in_dec Nat.eq_dec h [e; a; b; neg e; c; f]) as [I|I].
        * destruct I as [I|[I|[I|[I|[I|[I|[]]]]]]]; subst h; try (exfalso; congruence).
          -- rewrite F1, Pn. congruence.
          -- rewrite F6, Po; [congruence| |]; intros ->; repeat (apply NoDup_cons_iff in ND as [?N ND]); cbn in *; tauto.
          -- rewrite F4, Pe. reflexivity.
          -- rewrite F3, Po; [congruence| |]; intros ->; repeat (apply NoDup_cons_iff in ND as [?N ND]); cbn in *; tauto.
        * destruct (Oi h H I) as [-> Nh]. rewrite Po; auto; intros X; apply Nh; rewrite X; cbn; tauto. }
  intros s' d' D t h T H Z. destruct (A s' d' D) as (pi & r & Q). destruct (deforms_good n s d S C Sh s' d' D) as (S' & C' & _).
  destruct (Q h H) as (Q1 & _ & (m & Q3) & Q4). assert (Q2 := proj1 (Q _ (neg_ltn n _ (fs_wf n s' S') h H))).
  unfold moving in Z. rewrite Q4 in Z. assert (Nv : vv s' h <> (0, 0)). { intros X. destruct (fs_flat n s' S' h H (C' h H)) as [_ P]. rewrite X in P. unfold pdet in P; cbn in P. lra. }
  destruct (vv s' h) as [x y]. unfold padd, pscale in Z; cbn [fst snd] in *. injection Z as Z1 Z2.
  assert (X0 : IZR (2 * (pi (neg h) - pi h) + 4 * m) = 0) by (rewrite <- Q3; lra). apply eq_IZR in X0. assert (E : (pi (neg h) - pi h = 0)%Z) by lia. rewrite E in Z2. apply Nv. f_equal; lra.
Qed.
Lemma point_safe : no_collision 12 point_s point_shift.
Proof.
  apply columns_deform; try apply point_flat; [apply point_shift_of|].
  exists (fun h => nth h [0; 0; 0; 0; 1; 0; 1; 0; 1; 0; 1; 0]%Z 0%Z), (-2). intros h H.
  assert (E : forall m, fst (vv point_s h) = IZR (2 * (nth (neg h) [0; 0; 0; 0; 1; 0; 1; 0; 1; 0; 1; 0]%Z 0%Z - nth h [0; 0; 0; 0; 1; 0; 1; 0; 1; 0; 1; 0]%Z 0%Z) + 4 * m) ->
    exists m, fst (vv point_s h) = IZR (2 * (nth (neg h) [0; 0; 0; 0; 1; 0; 1; 0; 1; 0; 1; 0]%Z 0%Z - nth h [0; 0; 0; 0; 1; 0; 1; 0; 1; 0; 1; 0]%Z 0%Z) + 4 * m)) by eauto.
  do 12 (destruct h as [|h]; [split; [cbn; auto|]; split; [reflexivity|]; split;
    [first [apply (E 0%Z); cbn; unfold Q2R; cbn; lra|apply (E 1%Z); cbn; unfold Q2R; cbn; lra|apply (E (-1)%Z); cbn; unfold Q2R; cbn; lra]|unfold dd, vden; cbn; unfold Q2R; cbn; f_equal; lra]|]). lia.
Qed.
(** Rational arithmetic. *)
Definition qsolver : solver ExactQ := mkSolver (fun (p : Quadratic.quad ExactQ) _ => Some (mkBall (- (qc p : Q) / (qb p : Q)) 0)) (fun _ _ => None) (fun _ _ => None) (fun _ _ => None).
Definition qexact (_ : Z) (x : ExactQ) : ball := mkBall x 0.
Definition qquot (x : ExactQ) (z : Z) : ExactQ := (x / inject_Z z)%Q.
Lemma within_exact x : within (Q2R x) (mkBall x 0).
Proof. unfold within, lo, hi; cbn [mid rad]. rewrite Q2R_minus, Q2R_plus. replace (Q2R 0) with 0 by (unfold Q2R; cbn; lra). lra. Qed.
Lemma qsolver_sound : sound qsolver.
Proof.
  intros p prec. split; [|split; cbn; auto]. intros _ B. unfold qsolver, linear_root; cbn [s_linear enclosed]. cbn [den ExactQ] in *.
  assert (Nz : ~ (qb p == 0)%Q) by (intros E; apply B; rewrite (Qeq_eqR _ _ E); unfold Q2R; cbn; lra). rewrite <- Q2R_opp, <- Q2R_div by auto. apply within_exact.
Qed.
Lemma qexact_approximates : approximates qexact.
Proof. intros prec x. apply within_exact. Qed.
Lemma IZR_Q2R z : Q2R (inject_Z z) = IZR z.
Proof. unfold Q2R; cbn. lra. Qed.
Lemma qquot_divides : divides qquot.
Proof.
  intros x z N. unfold qquot; cbn [den ExactQ]. assert (Nz : ~ (inject_Z z == 0)%Q) by (intros E; apply Qeq_eqR in E; rewrite IZR_Q2R in E; unfold Q2R in E; cbn in E; apply N, eq_IZR; lra).
  rewrite Q2R_div, IZR_Q2R by auto. field. now apply not_0_IZR.
Qed.
Definition showq (r : outcome (flat ExactQ)) : outcome (perm * list (Q * Q)) := do u <- r; Ok (tF (fT u), map (fun v : vec ExactQ => (Qred (vx v), Qred (vy v))) (fvec u)).
Example C70_parallel_ex : sound qsolver /\ approximates qexact /\ divides qquot /\ flat_surface 12 point_s /\ closed_surface 12 point_s /\ shift_of 12 point_s point_shift /\
  no_collision 12 point_s point_shift /\ (forall h, (h < 12)%nat -> exists k, dd point_shift h = pscale k (0, 1)) /\
  showq (shift_add qsolver qexact (fun _ => QArb) qquot 12 point_s point_shift) =
    Ok (mkPerm [4; 8; 9; 5; 11; 10; 2; 1; 7; 6; 3; 0]%nat [11; 7; 6; 10; 0; 3; 9; 8; 1; 2; 5; 4]%nat,
        [(0, 4); (0, -4); (0, 4); (0, -4); (-2, 1); (2, -1); (2, 1); (-2, -1); (2, 5); (-2, -5); (-2, 5); (2, -5)]%Q).
Proof.
  split; [apply qsolver_sound|]. split; [apply qexact_approximates|]. split; [apply qquot_divides|]. split; [apply point_flat|]. split; [apply point_flat|]. split; [apply point_shift_of|]. split; [apply point_safe|].
  split; [|vm_compute; reflexivity]. intros h _. exists (snd (dd point_shift h)). do 12 (destruct h as [|h]; [unfold dd, vden, pscale; cbn; unfold Q2R; cbn; f_equal; lra|]). unfold dd. rewrite nth_overflow by (cbn; lia). unfold vden, pscale; cbn. unfold Q2R; cbn. f_equal; lra.
Qed.
(** The hypotheses of the general theorem are satisfied as well. *)
Example C70_shift_ex : reliable qsolver falling /\ areas_satisfy 12 point_s point_shift falling.
Proof.
  split; [apply falling_reliable, qsolver_sound|]. intros s' d' h p D H E. destruct point_flat as [S C]. destruct (deforms_good 12 point_s point_shift S C point_shift_of s' d' D) as (S' & C' & Sh').
  assert (Pa := deforms_parallel 12 point_s point_shift S C point_shift_of (0, 1) (proj1 (proj2 (proj2 (proj2 (proj2 (proj2 (proj2 (proj2 C70_parallel_ex)))))))) s' d' D).
  destruct (parallel_falling 12 s' d' h (0, 1) S' C' Sh' Pa H) as (Fa & Fc).
  assert (Q : forall t, at_ p t = at_ (corner s' d' h) t) by (intros t; rewrite E; symmetry; apply (at_corner 12 s' d' S' C' Sh' t h H)).
  assert (Q0 := Q 0). assert (Q1 := Q 1). assert (Q2 := Q (-1)). unfold at_ in Q0, Q1, Q2. rewrite Fa in *. unfold falling. split; lra.
Qed.
(** A smaller shift needs no flip. *)
Definition small_shift : list (vec ExactQ) := [qv 0 0; qv 0 0; qv 0 0; qv 0 0; qv (-1) 0; qv 1 0; qv (-1) 0; qv 1 0; qv (-1) 0; qv 1 0; qv (-1) 0; qv 1 0].
Example C70_simple_ex : flat_surface 12 point_s /\ closed_surface 12 point_s /\ shift_of 12 point_s small_shift /\
  (forall t e, 0 <= t <= 1 -> (e < 12)%nat -> 0 < pdet (moving point_s small_shift t e) (moving point_s small_shift t (fF point_s e))) /\
  showq (shift_add qsolver qexact (fun _ => QArb) qquot 1 point_s small_shift) =
    Ok (tF point_t, [(4, 0); (-4, 0); (0, 4); (0, -4); (-3, -1); (3, 1); (1, -1); (-1, 1); (1, 3); (-1, -3); (-3, 3); (3, -3)]%Q).
Proof.
  split; [apply point_flat|]. split; [apply point_flat|]. split; [|split; [|vm_compute; reflexivity]].
  - split; [reflexivity|]. split; intros e He; do 12 (destruct e as [|e]; [cbn; unfold dd, padd, pneg, vden, Q2R; cbn; f_equal; lra|]); lia.
  - intros t e T He. do 12 (destruct e as [|e]; [cbn; unfold moving, dd, padd, pscale, pdet, vden, Q2R; cbn; lra|]). lia.
Qed.
Example C70_area_ex : exists u d', shift_add qsolver qexact (fun _ => QArb) qquot 12 point_s point_shift = Ok u /\ deforms 12 point_s point_shift u d' /\ done 12 d' /\
  map (angle point_s) (tverts (fT point_s)) = [Ok 1; Ok 1]%nat /\ map (angle u) (tverts (fT u)) = [Ok 1; Ok 1]%nat /\
  rsum (map (triangle_area2 u) (seq 0 12)) = 96.
Proof.
  destruct C70_parallel_ex as (So & Ap & Di & S & C & Sh & NC & Pa & _). assert (Q := C70_parallel ExactQ qsolver qexact (fun _ => QArb) qquot 12 point_s point_shift (0, 1) 12 So Ap Di S C Sh NC Pa).
  assert (A : (do u <- shift_add qsolver qexact (fun _ => QArb) qquot 12 point_s point_shift; Ok (map (angle u) (tverts (fT u)))) = Ok [Ok 1; Ok 1]%nat) by (vm_compute; reflexivity).
  destruct (shift_add qsolver qexact (fun _ => QArb) qquot 12 point_s point_shift) as [u| | |]; try contradiction; [|discriminate]. cbn [bind] in A. injection A as A.
  destruct Q as (d' & D & Dn). exists u, d'. split; auto. split; auto. split; auto. split; [vm_compute; reflexivity|]. split; auto.
  rewrite (C70_area ExactQ 12 point_s point_shift u d' S C Sh D Dn). cbn. unfold dd, vden, padd, pdet; cbn. unfold Q2R; cbn. lra.
Qed.
Definition fast_shift : list (vec ExactQ) := [qv 0 0; qv 0 0; qv 0 0; qv 0 0; qv 4 2; qv (-4) (-2); qv 4 2; qv (-4) (-2); qv 4 2; qv (-4) (-2); qv 4 2; qv (-4) (-2)].
Example C70_rejected_ex : flat_surface 12 point_s /\ closed_surface 12 point_s /\ shift_of 12 point_s fast_shift /\ padd (vv point_s 4) (pscale (/ 2) (dd fast_shift 4)) = (0, 0) /\
  showq (shift_add qsolver qexact (fun _ => QArb) qquot 12 point_s fast_shift) = Throw.
Proof.
  split; [apply point_flat|]. split; [apply point_flat|]. split; [|split; [|vm_compute; reflexivity]].
  - split; [reflexivity|]. split; intros e He; do 12 (destruct e as [|e]; [cbn; unfold dd, padd, pneg, vden, Q2R; cbn; f_equal; lra|]); lia.
  - unfold dd, padd, pscale, vden; cbn. unfold Q2R; cbn. f_equal; lra.
Qed.

(** ** Integers *)
(** For the types [long long] and [mpz_class], the partial shift is rounded; then the triangles do not close up anymore and there is an
    error (FT:228-230 with vector.cc:204-225). *)
Definition ipoint_s : flat ExactZ := mkFlat point_t
  [zv 4 0; zv (-4) 0; zv 0 4; zv 0 (-4); zv (-2) (-1); zv 2 1; zv 2 (-1); zv (-2) 1; zv 2 3; zv (-2) (-3); zv (-2) 3; zv 2 (-3)].
Definition ipoint_vectors : list (vec ExactZ) := [zv 4 0; zv 0 4; zv (-2) (-1); zv 2 (-1); zv 2 3; zv (-2) 3].
Lemma ipoint_flat : flat_surface 12 ipoint_s /\ closed_surface 12 ipoint_s.
Proof.
  assert (Su : suitable 12 point_t ipoint_vectors).
  { split; [reflexivity|]. intros e He. do 12 (destruct e as [|e]; [intros _; cbn; unfold padd, pneg, pdet, vden; cbn; split; [f_equal; lra|lra]|]). lia. }
  destruct (proj1 (C19_constructor _ 12 point_t _ point_wf) Su) as (s' & F' & S & _).
  assert (F : make_flat_list point_t ipoint_vectors = Ok ipoint_s) by reflexivity. replace s' with ipoint_s in S by congruence. split; auto.
  intros e He. do 12 (destruct e as [|e]; [cbn; discriminate|]). lia.
Qed.
Definition ishift : list (vec ExactZ) := [zv 0 2; zv 0 (-2); zv 0 0; zv 0 0; zv 0 2; zv 0 (-2); zv 0 4; zv 0 (-4); zv 0 4; zv 0 (-4); zv 0 2; zv 0 (-2)].
Lemma ishift_of : shift_of 12 ipoint_s ishift.
Proof.
  split; [reflexivity|]. split; intros e He; do 12 (destruct e as [|e]; [cbn; unfold dd, padd, pneg, vden; cbn; f_equal; lra|]); lia.
Qed.
Definition zsolver : solver ExactZ := mkSolver (fun (p : Quadratic.quad ExactZ) _ => Some (mkBall (- inject_Z (qc p) / inject_Z (qb p)) 0)) (fun _ _ => None) (fun _ _ => None) (fun _ _ => None).
Definition zexact (_ : Z) (x : ExactZ) : ball := mkBall (inject_Z x) 0.
(** Division as in C++. *)
Definition zquot (x : ExactZ) (z : Z) : ExactZ := Z.quot x z.
Lemma zsolver_sound : sound zsolver.
Proof.
  intros p prec. split; [|split; cbn; auto]. intros _ B. unfold zsolver, linear_root; cbn [s_linear enclosed]. cbn [den ExactZ] in *.
  assert (Nz : ~ (inject_Z (qb p) == 0)%Q) by (intros E; apply B; apply Qeq_eqR in E; rewrite IZR_Q2R in E; rewrite E; unfold Q2R; cbn; lra).
  rewrite <- !IZR_Q2R, <- Q2R_opp, <- Q2R_div by auto. apply within_exact.
Qed.
Lemma zexact_approximates : approximates zexact.
Proof. intros prec x. cbn [den ExactZ]. rewrite <- IZR_Q2R. apply within_exact. Qed.
Definition failed {A} (r : outcome A) : bool := match r with Throw => true | _ => false end.
Lemma failed_Throw {A} (r : outcome A) : failed r = true -> r = Throw.
Proof. destruct r; auto; discriminate. Qed.
Theorem C70_integers_refuted : exists n (s : flat ExactZ) d u d' fuel, sound zsolver /\ approximates zexact /\ flat_surface n s /\ closed_surface n s /\ shift_of n s d /\
  deforms n s d u d' /\ done n d' /\ shift_add zsolver zexact (fun _ => QArb) zquot fuel s d = Throw.
Proof.
  destruct ipoint_flat as [S C].
  assert (CF : can_flip 12 ipoint_s 0). { split; [lia|]. cbn. split; [discriminate|]. split; [discriminate|]. unfold pdet; cbn. lra. }
  assert (H0 : (0 < 12)%nat) by lia. destruct (fflip_Ok 12 ipoint_s 0 S H0 CF) as (s1 & E & S1 & _). destruct (update_remaining 12 ipoint_s s1 ishift 0 S C ishift_of H0 E) as (d1 & _ & M).
  assert (D1 : deforms 12 ipoint_s ishift s1 d1) by (eapply deforms_flip; [apply deforms_start|eauto]).
  destruct (deforms_good 12 ipoint_s ishift S C ishift_of s1 d1 D1) as (_ & C1 & Sh1).
  assert (Pu : positive_until 12 s1 d1 1).
  { destruct M as (_ & _ & _ & (G1 & G2 & G3 & G4 & G5 & G6 & O) & Ve & De & Vo). assert (Vn := fs_odd 12 s1 S1 0 H0). assert (Dn := proj1 (proj2 Sh1) 0%nat H0).
    assert (FF : forall e, (e < 12)%nat -> fF s1 e = nth e [4; 8; 9; 5; 11; 10; 2; 1; 7; 6; 3; 0]%nat 0%nat).
    { intros e He. do 12 (destruct e as [|e]; [first [exact G1|exact G2|exact G3|exact G4|exact G5|exact G6|refine (eq_trans (O _ He _) eq_refl); cbn; intuition discriminate]|]). lia. }
    assert (VV : forall e, (e < 12)%nat -> vv s1 e = nth e [(0, 4); (0, -4); (0, 4); (0, -4); (-2, -1); (2, 1); (2, -1); (-2, 1); (2, 3); (-2, -3); (-2, 3); (2, -3)] (0, 0)).
    { intros e He. destruct e as [|e]; [rewrite Ve; cbn; unfold pneg, padd; cbn; f_equal; lra|]. destruct e as [|e]; [change 1%nat with (neg 0); rewrite Vn, Ve; cbn; unfold pneg, padd; cbn; f_equal; lra|].
      rewrite (proj1 (Vo (Datatypes.S (Datatypes.S e)) He ltac:(discriminate) ltac:(cbn; discriminate))). do 10 (destruct e as [|e]; [reflexivity|]). lia. }
    assert (DV : forall e, (e < 12)%nat -> dd d1 e = nth e [(0, 0); (0, 0); (0, 0); (0, 0); (0, 2); (0, -2); (0, 4); (0, -4); (0, 4); (0, -4); (0, 2); (0, -2)] (0, 0)).
    { intros e He. destruct e as [|e]; [rewrite De; cbn; unfold dd, vden, pneg, padd; cbn; f_equal; lra|]. destruct e as [|e]; [change 1%nat with (neg 0); rewrite Dn, De; cbn; unfold dd, vden, pneg, padd; cbn; f_equal; lra|].
      rewrite (proj2 (Vo (Datatypes.S (Datatypes.S e)) He ltac:(discriminate) ltac:(cbn; discriminate))). do 10 (destruct e as [|e]; [reflexivity|]). lia. }
    intros t e T He. assert (He' := fF_lt 12 s1 e S1 He). unfold moving. rewrite !VV, !DV, FF by auto. clear - T He.
    do 12 (destruct e as [|e]; [cbn; unfold padd, pscale, pdet; cbn; lra|]). lia. }
  destruct (finish_moves 12 s1 d1 S1 C1 Sh1 Pu) as (u & _ & Mu).
  exists 12%nat, ipoint_s, ishift, u, (map (fun _ => vzero) (seq 0 12)), 12%nat.
  split; [apply zsolver_sound|]. split; [apply zexact_approximates|]. split; auto. split; auto. split; [apply ishift_of|].
  split; [|split; [|apply failed_Throw; vm_compute; reflexivity]].
  - eapply (deforms_move _ _ _ s1 d1 1); eauto. lra.
  - intros h H. unfold dd. rewrite nth_map_seq by auto. apply vden_zero.
Qed.
Print Assumptions C70_integers_refuted.
