(** * Shifting vertices with flips before an edge collapses *)
From Coq Require Import ZArith QArith Qreals Reals List Arith Bool Lia Lra Psatz Permutation.
From Verif Require Import Base HalfEdge HalfEdgeFacts Perm PermSpec PermFacts PermCycles PermLemmas IndexedSet IndexedSetFacts Combinatorial CombinatorialSpec
  CombinatorialFacts CombinatorialFlip CombinatorialHistory CombinatorialOps Tracked ExactReal Vector PlaneSpec Plane VectorFacts Arb ArbFacts Quadratic QuadraticSpec QuadraticFacts
  FlatTri FlatSpec FlatFacts FlatSum FlatLinear FlatOps FlatAngle FlatSector FlatDelaunay Collapse Shift ShiftSpec ShiftFacts ShiftRun
  CollapseSpec CollapseMotionSpec CollapseFacts CollapseRun CollapseVertices CollapseShift.
Import ListNotations.
Local Open Scope R_scope.

Section scan.
Context {K : ExactReal}.
Variable o : solver K.
Variable approx : Z -> K -> ball.
Variable ops : Z -> ArbOps.
Variables (n : nat) (s : flat K) (d : list (vec K)) (e : nat).
Variable Pq : Quadratic.quad K -> Prop.
Hypothesis So : sound o.
Hypothesis Rel : reliable o Pq.
Hypothesis Ap : approximates approx.
Hypothesis S : flat_surface n s.
Hypothesis C : closed_surface n s.
Hypothesis Sh : shift_of n s d.
Hypothesis He : (e < n)%nat.
Hypothesis Z : moving s d 1 e = (0, 0).
Hypothesis Ov : forall u h, 0 <= u <= 1 -> (h < n)%nat -> h <> e -> h <> neg e -> moving s d u h <> (0, 0).
Hypothesis Pe : forall u, 0 <= u < 1 -> 0 < pdet (moving s d u e) (moving s d u (fF s e)) /\ 0 < pdet (moving s d u (neg e)) (moving s d u (fF s (neg e))).
Hypothesis HP : forall h, (h < n)%nat -> Pq (corner s d h).
Local Notation mv := (moving s d).
Let t := fT s.
Let W : well_formed n t := fs_wf n s S.
Let Hn : (neg e < n)%nat := neg_ltn n t W e He.

Lemma Zn : mv 1 (neg e) = (0, 0).
Proof. rewrite (mv_neg n s d S Sh) by auto. rewrite Z. unfold pneg; cbn. f_equal; ring. Qed.

(** The half edges of the two triangles at [e]. *)
Definition at_edge (h : nat) : Prop := exists g, (g = e \/ g = neg e) /\ (h = g \/ h = fF s g \/ h = fF s (fF s g)).
Lemma at_edge_dec h : {at_edge h} + {~ at_edge h}.
Proof.
  destruct (in_dec Nat.eq_dec h [e; fF s e; fF s (fF s e); neg e; fF s (neg e); fF s (fF s (neg e))]) as [I|I]; [left|right].
  - destruct I as [<-|[<-|[<-|[<-|[<-|[<-|[]]]]]]]; [exists e|exists e|exists e|exists (neg e)|exists (neg e)|exists (neg e)]; tauto.
  - intros (g & [->| ->] & [->|[->| ->]]); apply I; cbn; tauto.
Qed.
Lemma at_edge_next h : (h < n)%nat -> at_edge h <-> at_edge (fF s h).
Proof.
  intros Hh. split; intros (g & Eg & Q); assert (Hg : (g < n)%nat) by (destruct Eg as [->| ->]; auto); exists g; split; auto.
  - destruct Q as [->|[->| ->]]; auto. rewrite (fF3 n s g S Hg). auto.
  - assert (I : forall a b, (a < n)%nat -> (b < n)%nat -> fF s a = fF s b -> a = b) by (intros a b Ha Hb E; rewrite <- (fF3 n s a S Ha), <- (fF3 n s b S Hb), E; reflexivity).
    assert (H1 := fF_lt n s g S Hg). assert (H2 := fF_lt n s _ S H1).
    destruct Q as [Q|[Q|Q]].
    + right. right. apply I; auto. now rewrite (fF3 n s g S Hg).
    + left. now apply I.
    + right. left. now apply I.
Qed.
Lemma at_edge_area h u : at_edge h -> 0 <= u < 1 -> 0 < area_at s d u h.
Proof.
  intros (g & Eg & Q) U. assert (Hg : (g < n)%nat) by (destruct Eg as [->| ->]; auto). assert (A : 0 < area_at s d u g) by (unfold area_at; destruct (Pe u U), Eg as [->| ->]; auto).
  assert (H1 := fF_lt n s g S Hg). destruct Q as [->|[->| ->]]; auto; [now rewrite (area_rotate n s d S C Sh)|]. now rewrite !(area_rotate n s d S C Sh).
Qed.
Lemma at_edge_zero h : at_edge h -> area_at s d 1 h = 0.
Proof.
  intros (g & Eg & Q). assert (Hg : (g < n)%nat) by (destruct Eg as [->| ->]; auto). assert (A : area_at s d 1 g = 0) by (unfold area_at; destruct Eg as [->| ->]; rewrite ?Z, ?Zn; unfold pdet; cbn; ring).
  assert (H1 := fF_lt n s g S Hg). destruct Q as [->|[->| ->]]; auto; [now rewrite (area_rotate n s d S C Sh)|]. now rewrite !(area_rotate n s d S C Sh).
Qed.
Lemma at_edge_critical h : (h < n)%nat -> at_edge h -> critical (corner s d h) 1.
Proof.
  intros H A. split; [lra|]. split; [rewrite (at_corner n s d S C Sh) by auto; now apply at_edge_zero|].
  intros u Hu. rewrite (at_corner n s d S C Sh) by auto. apply Rgt_not_eq. now apply at_edge_area.
Qed.
(** At the end of the motion, the two sides of a corner of these triangles are the same or one of them is a point. *)
Lemma at_edge_dot h : (h < n)%nat -> at_edge h -> 0 <= pdot (mv 1 h) (mv 1 (fV s h)).
Proof.
  intros H (g & Eg & Q). assert (Hg : (g < n)%nat) by (destruct Eg as [->| ->]; auto). assert (Zg : mv 1 g = (0, 0)) by (destruct Eg as [->| ->]; [exact Z|exact Zn]).
  assert (H1 := fF_lt n s g S Hg). assert (H2 := fF_lt n s _ S H1). assert (T := mv_sum n s d S C Sh 1 g Hg). rewrite Zg in T.
  rewrite (mv_V n s d S C Sh) by auto. destruct Q as [->|[->| ->]].
  - rewrite Zg. unfold pdot; cbn. lra.
  - rewrite (fF3 n s g S Hg), Zg. unfold pdot, pneg; cbn. lra.
  - rewrite (fF3 n s g S Hg). destruct (mv 1 (fF s g)) as [a b], (mv 1 (fF s (fF s g))) as [c f]. unfold padd, pdot, pneg in *; cbn [fst snd] in *. injection T as T1 T2.
    replace c with (- a) by lra. replace f with (- b) by lra. nra.
Qed.
Lemma at_edge_hits h : (h < n)%nat -> at_edge h -> ~ hits s d h.
Proof.
  intros H A (u & Cu & Q). assert (u = 1) by (eapply critical_unique; [exact Cu|now apply at_edge_critical]). subst u. assert (X := at_edge_dot h H A). lra.
Qed.
(** The sides of the other triangles do not shrink to a point. *)
Lemma other_sides u h : 0 <= u <= 1 -> (h < n)%nat -> ~ at_edge h -> mv u h <> (0, 0).
Proof. intros U H N. apply Ov; auto; intros ->; apply N; [exists e|exists (neg e)]; auto. Qed.
Lemma other_sides_V u h : 0 <= u <= 1 -> (h < n)%nat -> ~ at_edge h -> mv u (fV s h) <> (0, 0).
Proof.
  intros U H N. rewrite (mv_V n s d S C Sh) by auto. assert (H1 := fF_lt n s h S H). assert (H2 := fF_lt n s _ S H1).
  assert (Q : mv u (fF s (fF s h)) <> (0, 0)) by (apply other_sides; auto; rewrite <- !at_edge_next; auto). intros E. apply Q. destruct (mv u (fF s (fF s h))). unfold pneg in E; cbn in E. injection E as E1 E2. f_equal; lra.
Qed.

(** Corners of the other triangles. *)
Lemma other_interior fuel : forall prec h x, (h < n)%nat -> ~ at_edge h -> critical (corner s d h) x ->
  safe (fun b => b = true <-> pdot (mv x h) (mv x (fV s h)) < 0)
    (vertex_hits_interior o approx ops fuel prec (corner s d h) (nth h (fvec s) vzero) (nth (fV s h) (fvec s) vzero) (nth h d vzero) (nth (fV s h) d vzero)).
Proof.
  induction fuel as [|k IH]; intros prec h x H N Ct; [exact I|].
  assert (A := root_critical o So (Datatypes.S k) (corner s d h) prec x Ct). assert (E := proj1 Rel (Datatypes.S k) (corner s d h) prec).
  cbn [vertex_hits_interior].
  change (match k with
          | O => root o 1 (corner s d h) prec
          | Datatypes.S _ => root o (Datatypes.S k) (corner s d h) prec end) with (root o (Datatypes.S k) (corner s d h) prec).
  destruct (root o (Datatypes.S k) (corner s d h) prec) as [[[b|]|]| | |]; cbn [bind]; cbn in A; auto; [|now contradiction A].
  assert (B : within x b) by (apply (E (Some b) x); auto).
  assert (X := aorientation_sound (ops arb_precision_fast)).
  specialize (X (at_time approx ops prec b (nth h (fvec s) vzero) (nth h d vzero)) (at_time approx ops prec b (nth (fV s h) (fvec s) vzero) (nth (fV s h) d vzero)) (mv x h) (mv x (fV s h))).
  destruct (aorientation _ _ _) as [r|]; [|now apply IH].
  specialize (X r (at_time_within approx ops Ap prec x b _ _ B) (at_time_within approx ops Ap prec x b _ _ B) eq_refl).
  assert (Nd : pdot (mv x h) (mv x (fV s h)) <> 0).
  { intros Q. destruct Ct as (T & Zt & _). rewrite (at_corner n s d S C Sh) in Zt by auto. unfold area_at in Zt.
    assert (N1 := other_sides x h T H N). assert (N2 := other_sides_V x h T H N). assert (HV := mv_V n s d S C Sh x h H). assert (Su := mv_sum n s d S C Sh x h H).
    destruct (mv x h) as [a1 a2], (mv x (fV s h)) as [b1 b2], (mv x (fF s h)) as [c1 c2], (mv x (fF s (fF s h))) as [f1 f2].
    assert (P1 := pdot_pos _ N1). assert (P2 := pdot_pos _ N2). clear - Q Zt HV Su P1 P2. unfold pdot, pdet, padd, pneg in *; cbn [fst snd] in *. injection HV as HV1 HV2. injection Su as Su1 Su2.
    assert (E1 : c1 = b1 - a1) by lra. assert (E2 : c2 = b2 - a2) by lra. subst c1 c2. assert (D : a1 * b2 - a2 * b1 = 0) by lra.
    assert (X : (a1 * a1 + a2 * a2) * (b1 * b1 + b2 * b2) = (a1 * b1 + a2 * b2) * (a1 * b1 + a2 * b2) + (a1 * b2 - a2 * b1) * (a1 * b2 - a2 * b1)) by ring.
    rewrite Q, D in X. assert (Y := Rmult_lt_0_compat _ _ P1 P2). lra. }
  destruct r; cbn; auto; split; auto; try discriminate; lra.
Qed.
Lemma opposite_interior fuel : forall prec h, (h < n)%nat -> at_edge h -> h <> e -> h <> neg e -> fV s h <> e -> fV s h <> neg e ->
  safe (fun b => b = false)
    (vertex_hits_interior o approx ops fuel prec (corner s d h) (nth h (fvec s) vzero) (nth (fV s h) (fvec s) vzero) (nth h d vzero) (nth (fV s h) d vzero)).
Proof.
  intros prec h H A N1 N2 N3 N4. revert prec. assert (Ct := at_edge_critical h H A). assert (HV := fV_lt n s h S H).
  assert (Pd : 0 < pdot (mv 1 h) (mv 1 (fV s h))).
  { assert (Eq : mv 1 h = mv 1 (fV s h)).
    { destruct A as (g & Eg & Q). assert (Hg : (g < n)%nat) by (destruct Eg as [->| ->]; auto). assert (Zg : mv 1 g = (0, 0)) by (destruct Eg as [->| ->]; [exact Z|exact Zn]).
      assert (T := mv_sum n s d S C Sh 1 g Hg). rewrite Zg in T. rewrite (mv_V n s d S C Sh) by auto. assert (H1 := fF_lt n s g S Hg).
      destruct Q as [->|[->| ->]].
      - destruct Eg as [->| ->]; congruence.
      - exfalso. assert (Vx : fV s (fF s g) = neg g). { assert (X := V_x n t g W C Hg). exact X. } destruct Eg as [->| ->]; [now apply N4|apply N3; now rewrite Vx, neg_neg].
      - rewrite (fF3 n s g S Hg). destruct (mv 1 (fF s g)) as [a b], (mv 1 (fF s (fF s g))) as [c f]. unfold padd, pneg in *; cbn [fst snd] in *. injection T as T1 T2. f_equal; lra. }
    rewrite <- Eq. apply pdot_pos. apply Ov; auto; lra. }
  induction fuel as [|k IH]; intros prec; [exact I|].
  assert (A' := root_critical o So (Datatypes.S k) (corner s d h) prec 1 Ct). assert (E := proj1 Rel (Datatypes.S k) (corner s d h) prec).
  cbn [vertex_hits_interior].
  change (match k with
          | O => root o 1 (corner s d h) prec
          | Datatypes.S _ => root o (Datatypes.S k) (corner s d h) prec end) with (root o (Datatypes.S k) (corner s d h) prec).
  destruct (root o (Datatypes.S k) (corner s d h) prec) as [[[b|]|]| | |]; cbn [bind]; cbn in A'; auto; [|now contradiction A'].
  assert (B : within 1 b) by (apply (E (Some b) 1); auto).
  assert (X := aorientation_sound (ops arb_precision_fast)).
  specialize (X (at_time approx ops prec b (nth h (fvec s) vzero) (nth h d vzero)) (at_time approx ops prec b (nth (fV s h) (fvec s) vzero) (nth (fV s h) d vzero)) (mv 1 h) (mv 1 (fV s h))).
  destruct (aorientation _ _ _) as [r|]; [|now apply IH].
  specialize (X r (at_time_within approx ops Ap prec 1 b _ _ B) (at_time_within approx ops Ap prec 1 b _ _ B) eq_refl).
  destruct r; cbn; auto; lra.
Qed.
Lemma collapsing_some hes : (forall h, In h hes -> (h < n)%nat) -> forall coll, exists coll', find_collapsing s d hes coll = Ok coll' /\ forall i, mem coll' i = found_edge e coll (at_e e hes) i.
Proof.
  induction hes as [|h r IH]; intros H coll.
  { exists coll. split; auto. intros i. unfold found_edge. cbn. now rewrite andb_false_r, orb_false_r. }
  assert (Hh : (h < n)%nat) by auto with datatypes. cbn [find_collapsing]. rewrite (get_d n s d Sh), (get_v n s S) by auto. cbn [bind].
  set (v := nth h (fvec s) vzero) in *. set (x := nth h d vzero) in *.
  assert (Nv : vden v <> (0, 0)). { destruct (fs_flat n s S h Hh (C h Hh)) as [_ Q]. exact (pdet_nonzero _ _ Q). }
  unfold at_e. cbn [existsb]. fold (at_e e r). destruct (Nat.eqb_spec (h / 2) (e / 2)) as [E|E].
  - assert (Zh : padd (vden v) (vden x) = (0, 0)).
    { assert (Q : mv 1 h = (0, 0)). { apply half_eq in E as [->| ->]; auto. rewrite (mv_neg n s d S Sh) by auto. rewrite Z. unfold pneg; cbn. f_equal; ring. }
      unfold moving in Q. change (vv s h) with (vden v) in Q. change (dd d h) with (vden x) in Q. destruct (vden v), (vden x). unfold padd, pscale in *. cbn [fst snd] in *. injection Q as Q1 Q2. f_equal; lra. }
    assert (Y : vnonzero x = true). { apply vnonzero_spec. intros Q. rewrite Q in Zh. apply Nv. destruct (vden v). unfold padd in Zh. cbn in Zh. injection Zh as Z1 Z2. f_equal; lra. }
    rewrite Y. destruct (ccw_spec v x) as (_ & Cl & _). rewrite (proj2 Cl). 2: { destruct (vden v), (vden x). unfold padd, pdet in *. cbn [fst snd] in *. injection Zh as Z1 Z2. replace r2 with (- r0) by lra. replace r3 with (- r1) by lra. ring. }
    cbn [andb ccw_eqb]. destruct (orientation_spec v (vadd v x)) as (_ & Or & _). rewrite (proj2 Or). 2: { rewrite vden_add, Zh. unfold pdot; cbn. ring. }
    destruct (IH ltac:(auto with datatypes) (sinsert coll (h / 2))) as (c' & E' & M). exists c'. split; auto. intros i. rewrite M. unfold found_edge. rewrite mem_insert, E. cbn [orb]. rewrite andb_true_r. destruct (i =? e / 2)%nat, (mem coll i), (at_e e r); reflexivity.
  - destruct (IH ltac:(auto with datatypes) coll) as (c' & E' & M). exists c'. split; auto. rewrite E'.
    destruct (vnonzero _ && _) eqn:Q; auto. apply andb_true_iff in Q as [_ Q].
    destruct (ccw_spec v x) as (_ & Cl & _). assert (X : pdet (vden v) (vden x) = 0) by (apply Cl; destruct (ccw v x); auto; discriminate).
    destruct (orientation_spec v (vadd v x)) as (_ & O1 & O2). rewrite vden_add in O1, O2.
    assert (F : ~ pdot (vden v) (padd (vden v) (vden x)) <= 0).
    { intros Q'. destruct (parallel_vanishes _ _ Nv X Q') as (u & U & Zu). assert (U' : 0 <= u <= 1) by lra. assert (N1 : h <> e) by (intros ->; now apply E). assert (N2 : h <> neg e) by (intros ->; apply E, neg_div2). now apply (Ov u h U' Hh N1 N2). }
    destruct (orientation v (vadd v x)); try reflexivity; exfalso; apply F; try (rewrite (proj1 O1 eq_refl); lra); assert (Q2 := proj1 O2 eq_refl); lra.
Qed.


Definition found2 (seen : nat -> Prop) (f : option (flip_record (K := K))) : Prop :=
  found n s d seen f /\ forall hes p, f = Some (hes, p) -> forall x, In x hes -> ~ at_edge x.
Lemma found2_more (seen : nat -> Prop) h f : found2 seen f -> ~ hits s d h -> found2 (fun x => seen x \/ x = h) f.
Proof. intros (F & G) N. split; auto. now apply found_more. Qed.
Lemma found2_ext (A B : nat -> Prop) f : (forall x, B x -> A x) -> found2 A f -> found2 B f.
Proof. intros E (F & G). split; auto. now apply (found_ext n s d A B). Qed.

Lemma step_found fuel seen coll h f : (h < n)%nat -> (h / 2 = e / 2 \/ fV s h / 2 = e / 2 -> mem coll (e / 2) = true)%nat -> (forall i, mem coll i = true -> i = e / 2)%nat -> found2 seen f ->
  safe (found2 (fun x => seen x \/ x = h)) (find_flip_step o approx ops fuel s d coll h (fV s h) f).
Proof.
  intros H Mc Oc F. assert (HV := fV_lt n s h S H). unfold find_flip_step. rewrite !(get_v n s S), !(get_d n s d Sh) by auto. cbn [bind]. fold (ShiftFacts.corner s d h).
  destruct (qpositive (corner s d h)) eqn:E.
  { cbn. apply found2_more; auto. intros (x & (T & Zx & _) & _). assert (Q := proj1 (qpositive_spec (corner s d h)) E x T). lra. }
  assert (N : exists x, critical (corner s d h) x).
  { assert (Q : ~ forall x, 0 <= x <= 1 -> 0 < at_ (corner s d h) x) by (intros Q; apply qpositive_spec in Q; congruence).
    destruct (classic_time (fun x => 0 < at_ (corner s d h) x)) as [X|(x & T & X)]; [contradiction|].
    destruct (critical_exists n s d S C Sh h x H T) as (u & _ & U); [|eauto]. rewrite <- (at_corner n s d S C Sh x h H). lra. }
  destruct N as (x & Ct). destruct (scontains coll (h / 2) || scontains coll (fV s h / 2)) eqn:B.
  { cbn. apply found2_more; auto. apply at_edge_hits; auto. rewrite !contains_mem in B. apply orb_true_iff in B as [B|B]; apply Oc in B; apply half_eq in B.
    - destruct B as [->| ->]; [exists e|exists (neg e)]; auto.
    - assert (X : neg (fF s (fF s h)) = fV s h). { symmetry. exact (V_e n t h W C H). }
      destruct B as [B|B]; rewrite B in X.
      + apply at_edge_next; auto. apply at_edge_next; [now apply (fF_lt n s)|]. exists (neg e). split; auto. left. now rewrite <- X, neg_neg.
      + apply at_edge_next; auto. apply at_edge_next; [now apply (fF_lt n s)|]. exists e. split; auto. left. now apply neg_inj. }
  rewrite !contains_mem in B. apply orb_false_iff in B as (B1 & B2).
  assert (h1 : (h / 2 <> e / 2)%nat) by (intros Q; rewrite Q, Mc in B1 by auto; discriminate).
  assert (h2 : (fV s h / 2 <> e / 2)%nat) by (intros Q; rewrite Q, Mc in B2 by auto; discriminate).
  eapply (safe_bind (fun b => b = true <-> pdot (mv x h) (mv x (fV s h)) < 0)).
  { destruct (at_edge_dec h) as [A|A]; [|now apply other_interior]. eapply safe_weaken; [apply opposite_interior; auto; intros Q; try (apply h1; rewrite Q); try (apply h2; rewrite Q); auto using neg_div2|].
    intros b ->. split; [discriminate|]. intros Q. exfalso. apply (at_edge_hits h H A). exists x. auto. }
  intros b Bb. destruct b; cbn [negb].
  2: { cbn. apply found2_more; auto. intros (u & Cu & X). assert (u = x) by (eapply critical_unique; eauto). subst u. apply Bb in X. discriminate. }
  assert (Hh : hits s d h) by (exists x; split; auto; now apply Bb). clear Bb.
  eapply (safe_bind (fun q : list halfedge * Quadratic.quad K => (exists g, (g < n)%nat /\ snd q = corner s d g /\ hits s d g) /\ (forall x, In x (fst q) -> (x < n)%nat /\ ~ at_edge x) /\
    forall h' t u, seen h' \/ h' = h -> hits s d h' -> critical (snd q) t -> critical (corner s d h') u -> t <= u)).
  - destruct f as [[hes p]|].
    + destruct F as (((g & G & -> & Hg) & B & X) & Ne). destruct Hg as (u & Cu & Hu). assert (B' : forall y, In y hes -> (y < n)%nat /\ ~ at_edge y) by (intros y I; split; auto; now apply (Ne hes (corner s d g))).
      eapply safe_bind; [apply (qless_safe o n s d Pq So Rel HP fuel h g x u); auto|]. intros lt L. destruct lt; cbn.
      * split; [exists h; auto|]. split; [intros y []|]. assert (L' := proj1 L eq_refl). intros h' a c [Q| ->] Hq Ca Cc.
        -- assert (u <= c) by (eapply X; eauto). assert (a = x) by (eapply critical_unique; eauto). lra.
        -- assert (a = c) by (eapply critical_unique; eauto). lra.
      * split; [exists g; split; auto; split; auto; exists u; auto|]. split; auto. intros h' a c [Q| ->] Hq Ca Cc; [eapply X; eauto|].
        assert (a = u) by (eapply critical_unique; eauto). assert (c = x) by (eapply critical_unique; eauto). subst.
        apply Rnot_lt_le. intros Q. apply L in Q. discriminate.
    + destruct F as (F & _). cbn. split; [exists h; auto|]. split; [intros y []|]. intros h' a c [Q| ->] Hq Ca Cc; [exfalso; eapply F; eauto|].
      assert (a = c) by (eapply critical_unique; eauto). lra.
  - intros [hes p]. cbn [fst snd]. intros ((g & G & -> & Hg) & B & X). pose proof Hg as (u & Cu & Hu).
    eapply safe_bind; [apply (qless_safe o n s d Pq So Rel HP fuel g h u x); auto|]. intros gt _.
    assert (Y : forall hes, (forall x, In x hes -> (x < n)%nat /\ ~ at_edge x) -> found2 (fun x => seen x \/ x = h) (Some (hes, corner s d g))).
    { intros l Q. split; [split; [|split]; eauto; intros y I; now apply Q|]. intros l' p' E' y I. injection E' as <- _. now apply Q. }
    destruct gt; [cbn; now apply Y|]. rewrite (next_Ok n) by (auto; apply S). cbn. apply Y. intros y Q. apply in_app_or in Q as [Q|[<-|[]]]; auto.
    split; [apply (fF_lt n s h S H)|]. change (~ at_edge (fF s h)). rewrite <- at_edge_next by auto. intros A. now apply (at_edge_hits h H A).
Qed.

Lemma steps_found fuel coll hes : (forall i, mem coll i = true -> i = e / 2)%nat -> (forall h, In h hes -> (h / 2 = e / 2 \/ fV s h / 2 = e / 2 -> mem coll (e / 2) = true)%nat) ->
  forall seen f, (forall h, In h hes -> (h < n)%nat) -> found2 seen f ->
  safe (found2 (fun x => seen x \/ In x hes)) (find_flip o approx ops fuel s d coll (map (fun h => (h, fV s h)) hes) f).
Proof.
  intros Oc. induction hes as [|h r IH]; intros Mc seen f H F; cbn [map find_flip].
  - cbn. eapply found2_ext; [|exact F]. intros x [X|[]]; auto.
  - eapply safe_bind; [apply (step_found fuel seen coll h f); [auto with datatypes|apply Mc; now left|exact Oc|exact F]|]. intros g G.
    assert (Mr : forall h, In h r -> (h / 2 = e / 2 \/ fV s h / 2 = e / 2 -> mem coll (e / 2) = true)%nat) by (intros h' I'; apply Mc; now right).
    eapply safe_weaken; [apply (IH Mr (fun x => seen x \/ x = h) g); auto with datatypes|].
    intros q Q. eapply found2_ext; [|exact Q]. cbn. intros x [X|[X|X]]; auto.
Qed.

Lemma scan_some fuel vs : (forall v, In v vs -> In v (tverts (fT s))) -> forall coll seen f, (forall i, mem coll i = true -> i = e / 2)%nat -> found2 seen f ->
  safe (fun r => found2 (fun x => seen x \/ exists v, In v vs /\ (x < n)%nat /\ scontains v x = true) (snd r) /\
      (forall i, mem (fst r) i = true -> i = e / 2)%nat /\ (forall v, In v vs -> scontains v e = true -> mem (fst r) (e / 2) = true) /\ (mem coll (e / 2) = true -> mem (fst r) (e / 2) = true))
    (scan o approx ops fuel s d vs coll f).
Proof.
  induction vs as [|v r IH]; intros H coll seen f Mc F; cbn [scan].
  { cbn. split; [eapply found2_ext; [|exact F]; intros x [X|(v & [] & _)]; auto|]. repeat (split; auto). }
  destruct (vertex_orbit n s S v) as (k & -> & Pk & Ik); auto with datatypes. cbn [bind].
  assert (Hk : forall h, In h (orbit_list (fV s) (sbegin v) k) -> (h < n)%nat) by (intros h Q; now apply Ik).
  destruct (collapsing_some _ Hk coll) as (coll' & -> & Mc'). cbn [bind]. rewrite consecutive_orbit by auto.
  assert (At : forall h, In h (orbit_list (fV s) (sbegin v) k) -> (h / 2 = e / 2)%nat -> mem coll' (e / 2) = true).
  { intros h I E. rewrite Mc'. unfold found_edge. rewrite Nat.eqb_refl. assert (Q : at_e e (orbit_list (fV s) (sbegin v) k) = true) by (apply existsb_exists; exists h; split; auto; now apply Nat.eqb_eq). rewrite Q. apply orb_true_r. }
  assert (Mc2 : forall i, mem coll' i = true -> (i = e / 2)%nat).
  { intros i Mi. rewrite Mc' in Mi. unfold found_edge in Mi. apply orb_true_iff in Mi as [Mi|Mi]; [now apply Mc|]. apply andb_prop in Mi as (Mi & _). now apply Nat.eqb_eq. }
  eapply safe_bind.
  - apply (steps_found fuel coll' (orbit_list (fV s) (sbegin v) k) Mc2) with (seen := seen); auto. intros h I [E|E]; [now apply (At h)|]. apply (At (fV s h)); auto.
    assert (Iv : In v (tverts (fT s))) by auto with datatypes. apply Ik in I as (Hh & Cv). apply Ik. split; [now apply (fV_lt n s h S)|]. rewrite (vertex_next n s v h S Iv Hh). exact Cv.
  - intros g G. eapply safe_weaken; [apply (IH ltac:(auto with datatypes) coll' (fun x => seen x \/ In x (orbit_list (fV s) (sbegin v) k)) g); auto|].
    intros (c & f') (A1 & A2 & A3 & A4). cbn [fst snd] in *. split; [|split; [|split]]; auto.
    + eapply found2_ext; [|exact A1]. cbn. intros x [X|(v' & [<-|Iv] & X)]; auto; [left; right; now apply Ik|right; eauto].
    + intros v' [<-|I'] Ce; [|now apply (A3 v')]. apply A4. apply (At e); auto. apply Ik. auto.
    + intros Q. apply A4. rewrite Mc'. unfold found_edge. now rewrite Q.
Qed.
Lemma scan_edge fuel : safe (fun r => found2 (fun h => (h < n)%nat) (snd r) /\ (forall i, mem (fst r) i = true <-> i = e / 2)%nat) (scan o approx ops fuel s d (tverts (fT s)) sempty_set None).
Proof.
  eapply safe_weaken; [apply (scan_some fuel (tverts (fT s)) ltac:(auto) sempty_set (fun _ => False) None); [|split; [cbn; intros h []|discriminate]]|].
  - intros i Q. unfold mem, sempty_set in Q. destruct i; discriminate.
  - intros r (R1 & R2 & R3 & _). split.
    + eapply found2_ext; [|exact R1]. cbn. intros x X. right. destruct (vertex_of n s x S X) as (v & Iv & Cv). eauto.
    + intros i. split; [apply R2|]. intros ->. destruct (vertex_of n s e S He) as (v & Iv & Cv). now apply (R3 v).
Qed.

(** A corner of another triangle that degenerates. *)
Lemma other_hits h x : (h < n)%nat -> ~ at_edge h -> critical (corner s d h) x -> exists g, (g < n)%nat /\ critical (corner s d g) x /\ hits s d g.
Proof.
  intros H N Ct. pose proof Ct as (T & Zx & _). rewrite (at_corner n s d S C Sh) in Zx by auto. assert (H1 := fF_lt n s h S H). assert (H2 := fF_lt n s _ S H1).
  assert (N1 : ~ at_edge (fF s h)) by (rewrite <- at_edge_next; auto). assert (N2 : ~ at_edge (fF s (fF s h))) by (rewrite <- at_edge_next; auto).
  destruct (collinear_opposite _ _ _ (mv_sum n s d S C Sh x h H) (other_sides x h T H N) (other_sides x _ T H1 N1) (other_sides x _ T H2 N2) Zx) as [X|[X|X]].
  - exists h. split; auto. split; auto. exists x. split; auto. now rewrite (mv_V n s d S C Sh).
  - exists (fF s h). split; auto. assert (Q : critical (corner s d (fF s h)) x) by (apply (critical_same n s d S C Sh h); auto; intros; symmetry; now apply (area_rotate n s d S C Sh)).
    split; auto. exists x. split; auto. rewrite (mv_V n s d S C Sh), (fF3 n s h S H) by auto. auto.
  - exists (fF s (fF s h)). split; auto.
    assert (Q : critical (corner s d (fF s (fF s h))) x) by (apply (critical_same n s d S C Sh h); auto; intros; rewrite !(area_rotate n s d S C Sh); auto).
    split; auto. exists x. split; auto. rewrite (mv_V n s d S C Sh), (fF3 n s h S H) by auto. auto.
Qed.
End scan.

Section run.
Context {K : ExactReal}.
Variable o : solver K.
Variable approx : Z -> K -> ball.
Variable ops : Z -> ArbOps.
Variable quot : K -> Z -> K.
Variable n : nat.
Implicit Types (s u : flat K) (d : list (vec K)).
Variable P : Quadratic.quad K -> Prop.
Hypothesis So : sound o.
Hypothesis Rel : reliable o P.
Hypothesis Ap : approximates approx.
Hypothesis Di : divides quot.

Variable e : nat.
Definition collapse_fine s d : Prop := forall s' d', deforms_without n e s d s' d' -> ends_in_point n s' d' e /\ forall h, (h < n)%nat -> P (corner s' d' h).
Definition collapse_finished s d u : Prop := exists s' d', deforms_without n e s d s' d' /\ ends_in_point n s' d' e /\ collapsed_to n s' d' e u.

Lemma without_trans s d s1 d1 : deforms_without n e s d s1 d1 -> forall s2 d2, deforms_without n e s1 d1 s2 d2 -> deforms_without n e s d s2 d2.
Proof. intros A. induction 1; auto; [eapply without_move; eauto|eapply without_flip; eauto]. Qed.
Lemma without_deforms s d s' d' : deforms_without n e s d s' d' -> deforms n s d s' d'.
Proof. induction 1; [apply deforms_start|eapply deforms_move; eauto|eapply deforms_flip; eauto]. Qed.

Lemma collapse_shift_run fuel : forall s d, flat_surface n s -> closed_surface n s -> shift_of n s d -> collapse_fine s d ->
  safe (collapse_finished s d) (shift_add o approx ops quot fuel s d).
Proof.
  induction fuel as [|k IH]; intros s d S C Sh Fi; [exact I|]. destruct (Fi s d (without_start n e s d)) as [En HP]. pose proof En as (He & Ev & Fe & Ze & Ov & Pe). cbn [shift_add].
  eapply safe_bind; [apply (scan_edge o approx ops n s d e P So Rel Ap S C Sh He Ze Ov Pe HP)|]. intros [coll f]. cbn [fst snd]. intros ((F & Ne) & Mc). destruct f as [[hes p]|].
  2: { assert (Pr : forall r h, 0 <= r <= 1 -> (h < n)%nat -> ~ vanishes (fT s) e h -> 0 < pdet (moving s d r h) (moving s d r (fF s h))).
       { intros r h Hr Hh Nh. assert (A : ~ at_edge s e h). { intros (g & [->| ->] & Q); apply Nh; unfold vanishes, side_x, side_p, side_c, side_q; cbn [In]; unfold fF in Q; destruct Q as [->|[->| ->]]; auto 8. }
         apply Rnot_le_lt. intros Q. destruct (critical_exists n s d S C Sh h r Hh) as (x & _ & Cx); [lra|exact Q|].
         destruct (other_hits n s d e S C Sh He Ov h x Hh A Cx) as (g & Hg & _ & G). now apply (F g). }
       assert (Pu := fun h => Pr 1 h ltac:(lra)).
       assert (E2 : (e = 2 * (e / 2))%nat) by (apply Nat.even_spec in Ev as (m & ->); now rewrite div2_even).
       destruct (finish_collapse n s d e S C Sh He Fe E2 Ze Pu coll Mc) as (u & label & -> & R1 & R2 & R3 & R4).
       cbn. exists s, d. split; [apply without_start|]. split; auto. split; auto. split; auto. split; auto. exists label. auto. }
  assert (Ne' : forall x, In x hes -> x <> e /\ x <> neg e) by (intros x I; specialize (Ne hes p eq_refl x I); split; intros ->; apply Ne; [exists e|exists (neg e)]; auto). clear Ne.
  destruct F as ((g & Hg & -> & G) & Hhes & Min). destruct G as (t & Ct & Ht).
  eapply (safe_bind (fun r => r <> None /\ forall b, r = Some b -> enclosed t b)).
  { apply safe_and; [apply (root_critical o So k (corner s d g) arb_precision_fast t Ct)|]. intros r Er b ->. exact (proj1 Rel k _ _ b t (HP g Hg) Er Ct). }
  intros r (R1 & R2). destruct r as [b|]; [|now contradiction R1]. specialize (R2 b eq_refl).
  eapply safe_bind; [apply (earlier_safe k t b R2 2)|]. intros q Hq. cbv beta in Hq.
  set (c := / IZR (Z.pos q)) in *. assert (Pq : 0 < IZR (Z.pos q)) by (apply IZR_lt; lia). assert (C0 : 0 < c) by (now apply Rinv_0_lt_compat).
  assert (T := proj1 Ct).
  assert (Eseq : half_edges (fT s) = seq 0 n) by (unfold half_edges; now rewrite (wf_size n _ (fs_wf n s S))). rewrite Eseq.
  rewrite (omap_map _ (fun he => mkVec (quot (vx (nth he d vzero)) (Z.pos q)) (quot (vy (nth he d vzero)) (Z.pos q)))).
  2: { intros h I. apply in_seq in I. rewrite (get_d n s d Sh) by lia. reflexivity. }
  cbn [bind]. set (d1 := map _ (seq 0 n)).
  assert (E1 : forall h, (h < n)%nat -> dd d1 h = pscale c (dd d h)).
  { intros h H. unfold d1. rewrite (dd_map n) by auto. unfold dd, vden, pscale; cbn [vx vy fst snd].
    assert (X : forall x, den (quot x (Z.pos q)) = c * den x).
    { intros x. rewrite <- (Di x (Z.pos q)) by discriminate. unfold c. field. lra. }
    now rewrite !X. }
  assert (L1 : length d1 = n) by (unfold d1; now rewrite map_length, seq_length).
  assert (Sh1 : shift_of n s d1) by (apply (shift_scaled n s s d d1 c); auto).
  assert (Mv : forall x h, (h < n)%nat -> moving s d1 x h = moving s d (x * c) h).
  { intros x h H. unfold moving. rewrite E1 by auto. f_equal. unfold pscale; cbn. f_equal; ring. }
  assert (Puc : positive_until n s d c).
  { intros x a X Ha. apply Rnot_le_lt. intros Q. destruct (at_edge_dec s e a) as [A|A].
    - assert (0 < area_at s d x a) by (apply (at_edge_area n s d e S C Sh He Pe); auto; lra). unfold area_at in *. lra.
    - destruct (critical_exists n s d S C Sh a x Ha) as (y & Y & Cy); [lra|exact Q|].
      destruct (other_hits n s d e S C Sh He Ov a y Ha A Cy) as (g' & Hg' & Cg' & G'). assert (t <= y) by (eapply Min; eauto). lra. }
  assert (Pu1 : positive_until n s d1 1).
  { intros x a X Ha. rewrite !Mv by (auto; now apply (fF_lt n s)). apply Puc; auto. split; [apply Rmult_le_pos; lra|].
    replace c with (1 * c) at 2 by ring. apply Rmult_le_compat_r; lra. }
  clear He Ev Fe Ze Ov Pe En Mc.
  destruct k as [|k]; [exact I|]. destruct (shift_simple o approx ops quot n s d1 k S C Sh1 Pu1) as (s1 & -> & M1 & _ & M). cbn [bind].
  destruct (fclone_Ok n s1 M1) as (s2 & -> & S2 & F2 & V2). cbn [bind].
  assert (E2seq : half_edges (fT s2) = seq 0 n) by (unfold half_edges; now rewrite (wf_size n _ (fs_wf n s2 S2))). rewrite E2seq.
  rewrite (omap_map _ (fun he => vsub (nth he d vzero) (nth he d1 vzero))).
  2: { intros h I. apply in_seq in I. rewrite (get_d n s d Sh), (get_d n s d1 Sh1) by lia. reflexivity. }
  cbn [bind]. set (d2 := map _ (seq 0 n)).
  assert (E2 : forall h, (h < n)%nat -> dd d2 h = pscale (1 - c) (dd d h)).
  { intros h H. unfold d2. rewrite (dd_map n) by auto. rewrite vden_sub. change (padd (dd d h) (pneg (dd d1 h)) = pscale (1 - c) (dd d h)).
    rewrite E1 by auto. unfold padd, pneg, pscale; cbn. f_equal; ring. }
  assert (EF : forall e, (e < n)%nat -> fF s2 e = fF s e) by (intros a Ha; rewrite (proj1 (F2 a Ha)); apply (M a Ha)).
  assert (L2 : length d2 = n) by (unfold d2; now rewrite map_length, seq_length).
  assert (Sh2 : shift_of n s2 d2) by (apply (shift_scaled n s s2 d d2 (1 - c)); auto).
  assert (C2 : closed_surface n s2) by (eapply closed_same; eauto).
  assert (D2 : deforms_without n e s d s2 d2).
  { eapply without_move; [apply without_start| |exact Puc|]; [lra|]. split; auto. split; auto. intros a Ha. split; auto.
    destruct (M a Ha) as (_ & M3 & M4 & _). split; [unfold fV; rewrite (proj2 (F2 a Ha)); exact M3|]. split; auto. rewrite V2, M4, Mv by auto. f_equal. ring. }
  clearbody d2. clear - IH S2 C2 Sh2 D2 Fi Hhes Ne'.
  assert (Go : forall s3 d3, flat_surface n s3 -> closed_surface n s3 -> shift_of n s3 d3 -> deforms_without n e s d s3 d3 ->
    safe (collapse_finished s d) (shift_add o approx ops quot (Datatypes.S k) s3 d3)).
  { intros s3 d3 A1 A2 A3 A4. eapply safe_weaken; [apply IH; auto|].
    - intros s' d' Q. apply Fi. eapply without_trans; eauto.
    - intros u (s' & d' & Q1 & Q2 & Q3). exists s', d'. split; auto. eapply without_trans; eauto. }
  induction hes as [|h r IHr]; cbn [flip_first]; [now apply Go|].
  assert (Hh : (h < n)%nat) by auto with datatypes. destruct (convex_strict n s2 h S2 Hh) as (b & -> & B). cbn [bind].
  destruct b; [|apply IHr; auto with datatypes]. destruct (fflip s2 h) as [s3 x] eqn:E.
  assert (X : x = Ok tt).
  { destruct (can_flip_dec n s2 h S2 Hh) as [Q|Q].
    - destruct (fflip_Ok n s2 h S2 Hh Q) as (s' & E' & _). congruence.
    - exfalso. apply Q. apply (can_flip_iff n s2 h S2 Hh). split; [|now apply B]. apply (nonboundary_flippable n s2 h S2 Hh); apply C2; auto. now apply (neg_ltn n _ (fs_wf n s2 S2)). }
  subst x. destruct (update_remaining n s2 s3 d2 h S2 C2 Sh2 Hh E) as (d3 & -> & Fl). cbn [bind].
  pose proof Fl as (_ & S3 & Sh3 & _). apply Go; auto; [now apply (closed_flip n s2 h s3)|]. destruct (Ne' h (or_introl eq_refl)). eapply without_flip; eauto.
Qed.
End run.
