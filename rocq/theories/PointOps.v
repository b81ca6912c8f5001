(** * The operations on points *)
From Coq Require Import ZArith Reals List Arith Bool Lia Lra Psatz Relations.
From Verif Require Import Base HalfEdge HalfEdgeFacts Perm PermSpec PermFacts PermCycles PermLemmas
  IndexedSet IndexedSetSpec IndexedSetFacts Combinatorial CombinatorialSpec CombinatorialFacts CombinatorialFlip
  CombinatorialHistory CombinatorialOps ExactReal Vector PlaneSpec Plane VectorFacts FlatTri FlatSpec FlatFacts FlatDelaunay
  Point PointSpec PointFacts.
Import ListNotations.
Local Open Scope nat_scope.

Lemma case_c a b c : (0 <= a -> 0 <= b -> 0 <= c -> 0 < a + b + c -> ~ (0 < a /\ 0 < b /\ 0 < c) ->
  (c <> 0 \/ a = 0) -> (a <> 0 \/ b = 0) -> b = 0 /\ 0 < c)%R.
Proof.
  intros A B C T N [X|X] [Y|Y]; lra.
Qed.

Section points.
Context {K : ExactReal}.
Variables (n : nat) (s : flat K).
Hypothesis S0 : flat_surface n s.
Hypothesis Cl : closed_surface n s.
Implicit Types (p q : point K) (h f : nat).
Let W : well_formed n (fT s) := fs_wf n s S0.
Notation F := (fF s).
Notation sp := (same_point n s).
Local Notation F_lt := (F_lt n s S0).
Local Notation FFF := (FFF n s S0).
Local Notation neg_lt := (neg_lt n s S0).
Local Notation F_ne := (F_ne n s Cl).
Local Notation FF_ne := (FF_ne n s S0 Cl).
Local Notation FF_F := (FF_F n s S0 Cl).
Local Notation F_neg := (F_neg n s S0 Cl).
Local Notation next_ok := (next_ok n s S0).
Local Notation prev_ok := (prev_ok n s S0).
Local Notation face_ok := (face_ok n s S0).
Local Notation source_ok := (source_ok n s S0).

Lemma rotated_0 p : rotated s p (pface p) = Ok (pa p, pb p, pc p).
Proof. unfold rotated. now rewrite Nat.eqb_refl. Qed.
Lemma rotated_1 p : pface p < n -> rotated s p (F (pface p)) = Ok (pb p, pc p, pa p).
Proof.
  intros H. unfold rotated. pose proof (F_ne _ H). destruct (Nat.eqb_spec (F (pface p)) (pface p)); [congruence|].
  rewrite next_ok by auto. cbn [bind]. now rewrite Nat.eqb_refl.
Qed.
Lemma rotated_2 p : pface p < n -> rotated s p (F (F (pface p))) = Ok (pc p, pa p, pb p).
Proof.
  intros H. unfold rotated. pose proof (FF_ne _ H). pose proof (FF_F _ H). destruct (Nat.eqb_spec (F (F (pface p))) (pface p)); [congruence|].
  rewrite next_ok by auto. cbn [bind]. destruct (Nat.eqb_spec (F (F (pface p))) (F (pface p))); congruence.
Qed.

Definition rot1 p : point K := mkPoint (F (pface p)) (pb p) (pc p) (pa p).
Definition rot2 p : point K := mkPoint (F (F (pface p))) (pc p) (pa p) (pb p).
Definition turned p q : Prop := q = p \/ q = rot1 p \/ q = rot2 p.

Definition pweights p : Prop := weights (den (pa p), den (pb p), den (pc p)).

Lemma turned_sp p q : pface p < n -> pweights p -> turned p q -> sp (location p) (location q).
Proof.
  intros H Q [->|[->| ->]]; unfold location, rot1, rot2; cbn [pface pa pb pc]; [apply sp_refl|now apply sp_rot|now apply sp_rot2].
Qed.
Lemma turned_face p q : turned p q -> pface q = pface p \/ pface q = F (pface p) \/ pface q = F (F (pface p)).
Proof. intros [->|[->| ->]]; cbn; auto. Qed.

Lemma loop_step k p : pface p < n -> nz (pc p) || negb (nz (pa p)) = true -> normalize_loop (S k) s p = normalize_loop k s (rot1 p).
Proof. intros H E. cbn [normalize_loop]. rewrite E, next_ok by auto. cbn [bind]. rewrite rotated_1 by auto. reflexivity. Qed.
Lemma loop_stop k p : nz (pc p) || negb (nz (pa p)) = false -> normalize_loop (S k) s p = Ok p.
Proof. intros E. cbn [normalize_loop]. now rewrite E. Qed.

Lemma normalize_ok p : pface p < n -> pweights p -> exists q, normalize s p = Ok q /\ normal n q /\ turned p q.
Proof.
  intros H (A & B & C & T). unfold normalize.
  destruct (reqb_reflect (pa p + pb p + pc p)%X (rofZ 0)) as [E|_]; [rewrite !den_add, den_ofZ in E; lra|].
  assert (Xa : (pa p <? rofZ 0)%X = false) by (apply not_true_is_false; rewrite ltb0_spec; lra).
  assert (Xb : (pb p <? rofZ 0)%X = false) by (apply not_true_is_false; rewrite ltb0_spec; lra).
  assert (Xc : (pc p <? rofZ 0)%X = false) by (apply not_true_is_false; rewrite ltb0_spec; lra).
  assert (Xs : (pa p + pb p + pc p <? rofZ 0)%X = false) by (apply not_true_is_false; rewrite ltb0_spec, !den_add; lra).
  rewrite Xa, Xb, Xc, Xs. cbn [Datatypes.orb].
  destruct ((0 <? pa p)%X && (0 <? pb p)%X && (0 <? pc p)%X) eqn:I.
  - apply andb_true_iff in I as [I Ic]. apply andb_true_iff in I as [Ia Ib]. apply lt0b_spec in Ia, Ib, Ic.
    exists p. split; auto. split; [|now left]. unfold normal. split; [exact H|]. lra.
  - assert (N : ~ (0 < den (pa p) /\ 0 < den (pb p) /\ 0 < den (pc p))%R).
    { intros (P1 & P2 & P3). apply lt0b_spec in P1, P2, P3. rewrite P1, P2, P3 in I. discriminate. }
    assert (H1 := F_lt _ H). assert (H2 := F_lt _ H1).
    destruct (nz (pc p) || negb (nz (pa p))) eqn:E0.
    2:{ rewrite loop_stop by auto. exists p. split; auto. split; [|now left].
        apply orb_false_iff in E0 as [E1 E2]. apply nz_false in E1. apply negb_false_iff in E2. apply nz_spec in E2.
        unfold normal. split; [exact H|]. lra. }
    rewrite loop_step by auto.
    destruct (nz (pc (rot1 p)) || negb (nz (pa (rot1 p)))) eqn:E1.
    2:{ rewrite loop_stop by auto. exists (rot1 p). split; auto. split; [|now right; left].
        cbn [rot1 pa pc] in E1. apply orb_false_iff in E1 as [E1 E2]. apply nz_false in E1. apply negb_false_iff in E2. apply nz_spec in E2.
        unfold normal, rot1. cbn [pa pb pc pface]. split; [exact H1|]. lra. }
    rewrite loop_step by auto. cbn [rot1 pface pa pb pc]. change (rot1 (mkPoint _ _ _ _)) with (rot2 p).
    rewrite loop_stop. { exists (rot2 p). split; auto. split; [|now right; right]. cbn [rot1 pa pc] in E1.
      unfold normal, rot2. cbn [pa pb pc pface]. split; [exact H2|].
      apply orb_true_iff in E0, E1. rewrite negb_true_iff in E0, E1. rewrite nz_spec, nz_false in E0, E1.
      destruct (case_c _ _ _ A B C T N E0 E1). lra. }
    cbn [rot2 pa pc]. cbn [rot1 pa pc] in E1. apply orb_true_iff in E0, E1. rewrite negb_true_iff in E0, E1. rewrite nz_spec, nz_false in E0, E1.
    apply orb_false_iff. rewrite nz_false, negb_false_iff, nz_spec. destruct (case_c _ _ _ A B C T N E0 E1). split; [auto|]. cbn [rot1 pa pb pc]. lra.
Qed.
Lemma normalize_throw p : ~ pweights p -> normalize s p = Throw.
Proof.
  intros N. unfold normalize. destruct (reqb_reflect (pa p + pb p + pc p)%X (rofZ 0)) as [E|E]; auto.
  destruct ((pa p <? 0)%X || (pb p <? 0)%X || (pc p <? 0)%X) eqn:X; auto. exfalso. apply N.
  apply orb_false_iff in X as [X Xc]. apply orb_false_iff in X as [Xa Xb].
  apply not_true_iff_false in Xa, Xb, Xc. rewrite ltb0_spec in Xa, Xb, Xc. rewrite !den_add, den_ofZ in E. unfold pweights, weights. lra.
Qed.
Lemma normal_weights p : normal n p -> pweights p.
Proof. unfold normal, pweights, weights. intros. lra. Qed.
(** Nothing to do for a point that is normalized. *)
Lemma normalize_normal p : normal n p -> normalize s p = Ok p.
Proof.
  intros N. destruct (normalize_ok p (proj1 N) (normal_weights p N)) as (q & E & N' & T). rewrite E. f_equal.
  destruct T as [->|T]; auto. exfalso.
  unfold normalize in E. unfold normal in N, N'.
  destruct (reqb_reflect (pa p + pb p + pc p)%X (rofZ 0)) as [X|_]; [discriminate|].
  assert (Xa : (pa p <? rofZ 0)%X = false) by (apply not_true_is_false; rewrite ltb0_spec; lra).
  assert (Xb : (pb p <? rofZ 0)%X = false) by (apply not_true_is_false; rewrite ltb0_spec; lra).
  assert (Xc : (pc p <? rofZ 0)%X = false) by (apply not_true_is_false; rewrite ltb0_spec; lra).
  assert (Xs : (pa p + pb p + pc p <? rofZ 0)%X = false) by (apply not_true_is_false; rewrite ltb0_spec, !den_add; lra).
  rewrite Xa, Xb, Xc, Xs in E. cbn [Datatypes.orb] in E.
  assert (X : q = p).
  { destruct ((0 <? pa p)%X && (0 <? pb p)%X && (0 <? pc p)%X) eqn:I; [congruence|].
    rewrite loop_stop in E; [congruence|]. apply orb_false_iff. rewrite nz_false, negb_false_iff, nz_spec. split; [|intros Z0; lra].
    destruct (Req_EM_T (den (pc p)) 0) as [|Nc]; auto. exfalso.
    assert (C0 : (0 < den (pc p))%R) by lra. assert (B0 : (0 < den (pb p))%R) by now apply N. destruct N as (_ & A0 & _).
    apply lt0b_spec in A0, B0, C0. rewrite A0, B0, C0 in I. discriminate. }
  subst q. destruct T as [T|T]; apply (f_equal pface) in T; cbn in T; symmetry in T; [now apply (F_ne (pface p))|now apply (FF_ne (pface p))].
Qed.

(** ** Sides *)
Lemma existsb_face f h : existsb (Nat.eqb h) [f; F f; F (F f)] = true <-> h = f \/ h = F f \/ h = F (F f).
Proof. cbn [existsb]. rewrite !orb_true_iff, !Nat.eqb_eq. intuition congruence. Qed.

Lemma same_source x y v w : x < n -> y < n -> vertex_source (fT s) x = Ok v -> vertex_source (fT s) y = Ok w ->
  vertex_eqb v w = true <-> same_vertex (fT s) x y.
Proof. intros. eapply vertex_eqb_spec; eauto. Qed.

Lemma sv_refl h : same_vertex (fT s) h h.
Proof. now exists 0. Qed.
Lemma sv_F h : h < n -> same_vertex (fT s) (F h) (neg h).
Proof. intros H. exists 1. apply (nV_F n s S0 Cl). auto. Qed.

(** What [vertex] returns. *)
Lemma vertex_cases p : normal n p ->
  (den (pb p) = 0%R /\ den (pc p) = 0%R /\ exists v, point_vertex s p = Ok (Some v) /\ vertex_source (fT s) (pface p) = Ok v) \/
  ((0 < den (pb p))%R /\ point_vertex s p = Ok None).
Proof.
  intros (H & A & B & C & D). unfold point_vertex. destruct (nz (pb p)) eqn:Eb.
  - right. apply nz_spec in Eb. cbn [Datatypes.orb]. split; [lra|auto].
  - apply nz_false in Eb. destruct (nz (pc p)) eqn:Ec.
    + apply nz_spec in Ec. lra.
    + apply nz_false in Ec. left. cbn [Datatypes.orb]. destruct (source_ok _ H) as (v & E & _). rewrite E. cbn [bind]. eauto 6.
Qed.

(** [on]: the point is on the side. *)
Lemma on_ok p side : normal n p -> side < n -> exists b, point_on s p (edge_of side) = Ok b /\
  (b = true <-> (den (pb p) = 0%R /\ (same_vertex (fT s) (pface p) side \/ same_vertex (fT s) (pface p) (neg side))) \/
               ((0 < den (pb p))%R /\ den (pc p) = 0%R /\ (pface p = side \/ pface p = neg side))).
Proof.
  intros N Hs. pose proof N as (H & A & B & C & D). unfold point_on.
  destruct (vertex_cases p N) as [(Eb & Ec & v & E & V)|(Pb & E)]; rewrite E; cbn [bind].
  - assert (X : edge_of side = side \/ edge_of side = neg side) by apply edge_of_cases. unfold positive, negative.
    assert (He : edge_of side < n) by (destruct X as [->| ->]; auto using neg_lt). assert (Hn := neg_lt _ He).
    destruct (source_ok _ He) as (v1 & E1 & _). destruct (source_ok _ Hn) as (v2 & E2 & _). rewrite E1. cbn [bind].
    pose proof (same_source _ _ v v1 H He V E1) as Q1. pose proof (same_source _ _ v v2 H Hn V E2) as Q2.
    assert (Q : forall b, (b = true <-> same_vertex (fT s) (pface p) (edge_of side) \/ same_vertex (fT s) (pface p) (neg (edge_of side))) ->
      (b = true <-> den (pb p) = 0%R /\ (same_vertex (fT s) (pface p) side \/ same_vertex (fT s) (pface p) (neg side)) \/
       (0 < den (pb p))%R /\ den (pc p) = 0%R /\ (pface p = side \/ pface p = neg side))).
    { intros b ->. destruct X as [->| ->]; rewrite ?neg_neg; split; [intros I; left; tauto| |intros I; left; tauto|];
        (intros [(_ & I)|(I & _)]; [tauto|lra]). }
    destruct (vertex_eqb v v1).
    + exists true. split; auto. apply Q. tauto.
    + rewrite E2. cbn [bind]. eexists. split; [reflexivity|]. apply Q. rewrite Q2. assert (~ same_vertex (fT s) (pface p) (edge_of side)) by (intros I; apply Q1 in I; discriminate). tauto.
  - eexists. split; [reflexivity|]. unfold point_edge. destruct (nz (pc p)) eqn:Ec.
    + apply nz_spec in Ec. split; [discriminate|]. intros [(Z0 & _)|(_ & Z0 & _)]; lra.
    + apply nz_false in Ec. rewrite Nat.eqb_eq, edge_of_eq. split; [tauto|]. intros [(Z0 & _)|Z0]; [lra|tauto].
Qed.

(** The point is at a corner of the triangle or on one of its sides. *)
Definition touches p f : Prop :=
  (pface p = f \/ pface p = F f \/ pface p = F (F f)) \/
  (den (pb p) = 0%R /\ (same_vertex (fT s) (pface p) f \/ same_vertex (fT s) (pface p) (F f) \/ same_vertex (fT s) (pface p) (F (F f)))) \/
  ((0 < den (pb p))%R /\ den (pc p) = 0%R /\ (pface p = neg f \/ pface p = neg (F f) \/ pface p = neg (F (F f)))).

Lemma in_ok p f : normal n p -> f < n -> exists b, point_in s p f = Ok b /\ (b = true <-> touches p f).
Proof.
  intros N Hf. assert (H1 := F_lt _ Hf). assert (H2 := F_lt _ H1).
  pose proof N as (Hp & A & B & C & D).
  unfold point_in. rewrite face_ok by auto. cbn [bind].
  assert (SV : forall x, x < n -> same_vertex (fT s) (pface p) (neg x) <-> same_vertex (fT s) (pface p) (F x)).
  { intros x Hx. assert (X := sv_F x Hx). split; intros Y.
    - eapply same_vertex_trans; [exact Y|]. eapply same_vertex_sym; [exact W| |exact X]. now apply F_lt.
    - eapply same_vertex_trans; [exact Y|exact X]. }
  pose proof (SV _ Hf) as V0. pose proof (SV _ H1) as V1. pose proof (SV _ H2) as V2. rewrite FFF in V2 by auto. clear SV.
  destruct (existsb (Nat.eqb (pface p)) [f; F f; F (F f)]) eqn:X.
  - apply existsb_face in X. exists true. split; auto. unfold touches. tauto.
  - assert (X' : ~ (pface p = f \/ pface p = F f \/ pface p = F (F f))) by (rewrite <- existsb_face, X; discriminate). clear X.
    cbn [point_on_any]. unfold touches.
    destruct (on_ok p f N Hf) as (b0 & E0 & B0). destruct (on_ok p _ N H1) as (b1 & E1 & B1). destruct (on_ok p _ N H2) as (b2 & E2 & B2).
    rewrite V0 in B0. rewrite V1 in B1. rewrite V2 in B2.
    rewrite E0. cbn [bind]. destruct b0; [|rewrite E1; cbn [bind]; destruct b1; [|rewrite E2; cbn [bind]; destruct b2]].
    + exists true. split; auto. split; [intros _|auto]. destruct (proj1 B0 eq_refl); tauto.
    + exists true. split; auto. split; [intros _|auto]. destruct (proj1 B1 eq_refl); tauto.
    + exists true. split; auto. split; [intros _|auto]. destruct (proj1 B2 eq_refl); tauto.
    + exists false. split; auto. split; [discriminate|]. intros Q. exfalso.
      assert (~ false = true) as Y by discriminate. rewrite B0 in Y. assert (~ false = true) as Y1 by discriminate. rewrite B1 in Y1.
      assert (~ false = true) as Y2 by discriminate. rewrite B2 in Y2. clear B0 B1 B2 E0 E1 E2. tauto.
Qed.
End points.
