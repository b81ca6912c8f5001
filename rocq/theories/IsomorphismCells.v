(** * The cells of the Delaunay decomposition *)
From Coq Require Import ZArith Reals List Arith Bool Lia Lra.
From Verif Require Import Base HalfEdge HalfEdgeFacts Perm PermSpec PermFacts PermCycles IndexedSet Combinatorial CombinatorialSpec CombinatorialFacts CombinatorialOps
  ExactReal Vector PlaneSpec Plane VectorFacts FlatTri FlatSpec FlatFacts FlatSum FlatLinear FlatDelaunay FlatAngle Deform DeformSpec Equivalence EquivalenceSpec EquivalenceFacts EquivalenceCode Isomorphism IsomorphismSpec IsomorphismFacts IsomorphismFaces.
Import ListNotations.
Local Open Scope nat_scope.

(** ** Points on a circle through the origin *)
Definition on_circle (o p : pt) : Prop := (pdot p p = 2 * pdot o p)%R.
Lemma circle_trans o p q r : on_circle o p -> on_circle o q -> on_circle o r -> (0 < pdet q p)%R -> (0 < pdet r q)%R -> (0 < pdet r p)%R.
Proof.
  destruct o as [o1 o2], p as [p1 p2], q as [q1 q2], r as [r1 r2]. unfold on_circle, pdet, pdot. cbn [fst snd]. intros P Q R D1 D2.
  assert (Sq : (0 < q1 * q1 + q2 * q2)%R).
  { destruct (Req_dec q1 0) as [-> |N]; [|pose proof (Rsqr_pos_lt q1 N); pose proof (Rle_0_sqr q2); unfold Rsqr in *; lra].
    destruct (Req_dec q2 0) as [-> |N]; [exfalso; lra|]. pose proof (Rsqr_pos_lt q2 N). unfold Rsqr in *. lra. }
  assert (Sp : (0 < p1 * p1 + p2 * p2)%R).
  { destruct (Req_dec p1 0) as [-> |N]; [|pose proof (Rsqr_pos_lt p1 N); pose proof (Rle_0_sqr p2); unfold Rsqr in *; lra].
    destruct (Req_dec p2 0) as [-> |N]; [exfalso; lra|]. pose proof (Rsqr_pos_lt p2 N). unfold Rsqr in *. lra. }
  assert (Sr : (0 < r1 * r1 + r2 * r2)%R).
  { destruct (Req_dec r1 0) as [-> |N]; [|pose proof (Rsqr_pos_lt r1 N); pose proof (Rle_0_sqr r2); unfold Rsqr in *; lra].
    destruct (Req_dec r2 0) as [-> |N]; [exfalso; lra|]. pose proof (Rsqr_pos_lt r2 N). unfold Rsqr in *. lra. }
  assert (E : ((r1 * p2 - r2 * p1) * (q1 * q1 + q2 * q2) = (q1 * p2 - q2 * p1) * (r1 * r1 + r2 * r2) + (r1 * q2 - r2 * q1) * (p1 * p1 + p2 * p2))%R).
  { rewrite P, Q, R. ring. }
  assert (X1 := Rmult_lt_0_compat _ _ D1 Sr). assert (X2 := Rmult_lt_0_compat _ _ D2 Sp).
  apply (Rmult_lt_reg_r (q1 * q1 + q2 * q2)); auto. rewrite E. lra.
Qed.
Lemma circle_unique o o' p q : on_circle o p -> on_circle o q -> on_circle o' p -> on_circle o' q -> (pdet p q <> 0)%R -> o = o'.
Proof.
  destruct o as [o1 o2], o' as [u1 u2], p as [p1 p2], q as [q1 q2]. unfold on_circle, pdet, pdot. cbn [fst snd]. intros A B C D N.
  assert (E1 : ((o1 - u1) * p1 + (o2 - u2) * p2 = 0)%R) by lra. assert (E2 : ((o1 - u1) * q1 + (o2 - u2) * q2 = 0)%R) by lra.
  f_equal.
  - apply Rminus_diag_uniq. apply (Rmult_eq_reg_r (p1 * q2 - p2 * q1)); auto. rewrite Rmult_0_l. replace ((o1 - u1) * (p1 * q2 - p2 * q1))%R with (((o1 - u1) * p1 + (o2 - u2) * p2) * q2 - ((o1 - u1) * q1 + (o2 - u2) * q2) * p2)%R by ring. rewrite E1, E2. ring.
  - apply Rminus_diag_uniq. apply (Rmult_eq_reg_r (p1 * q2 - p2 * q1)); auto. rewrite Rmult_0_l. replace ((o2 - u2) * (p1 * q2 - p2 * q1))%R with (((o1 - u1) * q1 + (o2 - u2) * q2) * p1 - ((o1 - u1) * p1 + (o2 - u2) * p2) * q1)%R by ring. rewrite E1, E2. ring.
Qed.

(** ** Looking for the next half edge *)
Fixpoint seek (act : nat -> bool) (step : nat -> nat) (k e : nat) : nat :=
  match k with O => e | S k => if act (step e) then step e else seek act step k (step e) end.
Lemma seek_spec act step k : forall e i, 0 < i <= k -> act (Nat.iter i step e) = true ->
  exists j, 0 < j <= i /\ seek act step k e = Nat.iter j step e /\ act (Nat.iter j step e) = true /\ forall l, 0 < l < j -> act (Nat.iter l step e) = false.
Proof.
  induction k as [|k IH]; intros e i Hi A; [lia|]. cbn [seek]. destruct (act (step e)) eqn:E.
  - exists 1. cbn [Nat.iter]. repeat split; auto; try lia.
  - destruct i as [|i]; [lia|]. destruct i as [|i]; [cbn in A; congruence|]. rewrite iter_S' in A. destruct (IH (step e) (Datatypes.S i)) as (j & J1 & J2 & J3 & J4); [lia|auto|].
    exists (Datatypes.S j). rewrite iter_S'. split; [lia|]. split; auto. split; auto. intros l Hl. destruct l as [|l]; [lia|]. rewrite iter_S'. destruct l as [|l]; [exact E|]. apply J4. lia.
Qed.
Lemma seek_unique act step k e i j : 0 < i -> 0 < j <= k -> act (Nat.iter i step e) = true -> (forall l, 0 < l < i -> act (Nat.iter l step e) = false) -> 
  act (Nat.iter j step e) = true -> seek act step k e = Nat.iter i step e.
Proof.
  intros Hi Hj Ai Li Aj. destruct (seek_spec act step k e j Hj Aj) as (j' & J1 & J2 & J3 & J4). rewrite J2. destruct (lt_eq_lt_dec i j') as [[L| ->]|L]; auto.
  - specialize (J4 i). rewrite J4 in Ai by lia. discriminate.
  - specialize (Li j'). rewrite Li in J3 by lia. discriminate.
Qed.

Section cells.
Context {K : ExactReal}.
Variables (n : nat) (s : flat K).
Hypothesis CS : closed_flat n s.

Notation rV := (pV (fT s)).
Definition ambs (x : nat) : bool := match delaunay_edge s (edge_of x) with Ok AMBIGUOUS => true | _ => false end.
Definition acts (x : nat) : bool := negb (ambs x).

Lemma S0 : flat_surface n s. Proof. apply CS. Qed.
Lemma W0 : well_formed n (fT s). Proof. apply (fs_wf n s S0). Qed.
Lemma Ng x : x < n -> neg x < n. Proof. apply (neg_ltn n _ W0). Qed.
Lemma Lf x : x < n -> fF s x < n. Proof. apply (fF_lt n s x S0). Qed.
Lemma Lv x : x < n -> fV s x < n. Proof. apply (fV_lt n s x S0). Qed.
Lemma Lr x : x < n -> rV x < n. Proof. apply (pV_lt n _ W0). Qed.
Lemma vr x : x < n -> fV s (rV x) = x. Proof. intros H. apply (nV_pV n _ W0 x H). Qed.
Lemma rv x : x < n -> rV (fV s x) = x. Proof. intros H. destruct (bijV n s S0) as [B1 B2]. now apply B1. Qed.
Lemma cl x : x < n -> fF s x <> x. Proof. apply (proj2 CS). Qed.
Lemma inn x : x < n -> inner n s x. Proof. intros H. split; auto. split; [now apply cl|apply cl; now apply Ng]. Qed.
Lemma iterv k x : x < n -> Nat.iter k (fV s) x < n. Proof. intros H. induction k; cbn; auto. now apply Lv. Qed.
Lemma iterr k x : x < n -> Nat.iter k rV x < n. Proof. intros H. induction k; cbn; auto. now apply Lr. Qed.
Lemma rV_fF x : x < n -> rV x = fF s (neg x). Proof. apply (pV_closed n s x CS). Qed.
Lemma cdet x : x < n -> (0 < pdet (vv s x) (vv s (fV s x)))%R. Proof. intros H. apply (corner_det n s x S0 H). now apply cl. Qed.
Lemma cdet' x : x < n -> (0 < pdet (vv s (rV x)) (vv s x))%R. Proof. intros H. rewrite <- (vr x H) at 2. apply cdet. now apply Lr. Qed.

Lemma delaunay_ok x : x < n -> exists r, delaunay_edge s (edge_of x) = Ok r /\ ambs x = match r with AMBIGUOUS => true | _ => false end.
Proof. intros H. destruct (delaunay_oriented n s x S0 (inn x H)) as (r & E & _). exists r. split; auto. unfold ambs. rewrite E. now destruct r. Qed.
Lemma ambs_dl x : x < n -> ambs x = true <-> dl s x = 0%R.
Proof.
  intros H. destruct (delaunay_oriented n s x S0 (inn x H)) as (r & E & V). unfold ambs. rewrite E. split.
  - destruct r; try discriminate. auto.
  - intros Z. destruct r; cbn [verdict] in V; auto; lra.
Qed.
Lemma ambs_neg x : x < n -> ambs (neg x) = ambs x.
Proof. intros H. apply eq_true_iff_eq. rewrite !ambs_dl by auto using Ng. now rewrite (dl_neg n s x S0 (inn x H)). Qed.
Lemma acts_neg x : x < n -> acts (neg x) = acts x. Proof. intros H. unfold acts. now rewrite ambs_neg. Qed.

(** The centre of the circle around the triangle at [x]. *)
Definition centre (x : nat) (o : pt) : Prop := on_circle o (vv s x) /\ on_circle o (vv s (fV s x)).
Lemma vV x : x < n -> vv s (fV s x) = padd (vv s x) (vv s (fF s x)).
Proof.
  intros H. rewrite (vv_fV n s x S0 H (cl x H)). destruct (fs_flat n s S0 x H (cl x H)) as [Z _]. revert Z.
  destruct (vv s x) as [a b], (vv s (fF s x)) as [c d], (vv s (fF s (fF s x))) as [e f]. unfold padd, pneg. cbn. intros Z. injection Z as Z1 Z2. f_equal; lra.
Qed.
Lemma dist_circle o p : dist2 p o = dist2 (0, 0)%R o <-> on_circle o p.
Proof. destruct o, p. unfold dist2, on_circle, pdot, padd, pneg. cbn [fst snd]. split; intros; lra. Qed.
Lemma centre_circumscribed x o r2 : x < n -> circumscribed s x o r2 <-> centre x o /\ r2 = dist2 (0, 0)%R o.
Proof.
  intros H. unfold circumscribed, centre. rewrite (vV x H), <- !dist_circle. split.
  - intros (<- & A & B). auto.
  - intros ([A B] & ->). auto.
Qed.
Lemma centre_exists x : x < n -> exists o, centre x o.
Proof. intros H. destruct (circle_exists n s x S0 H (cl x H)) as (o & r2 & C). apply (centre_circumscribed x o r2 H) in C. exists o. apply C. Qed.
Lemma centre_amb x o : x < n -> centre x o -> (ambs x = true <-> on_circle o (vv s (rV x))).
Proof.
  intros H C. rewrite (ambs_dl x H). destruct (circle_dl n s x o (dist2 (0, 0)%R o) S0 (inn x H)) as (k & P & E); [now apply centre_circumscribed|].
  rewrite (rV_fF x H), <- dist_circle. fold (opposite_corner s x). split; intros Z.
  - rewrite Z in E. symmetry in E. apply Rmult_integral in E. destruct E; lra.
  - rewrite E, Z. ring.
Qed.
Lemma cocircular_amb x : x < n -> cocircular s x <-> ambs x = true.
Proof.
  intros H. split.
  - intros (o & r2 & C & E). apply (centre_circumscribed x o r2 H) in C as [C ->]. apply (centre_amb x o H C). rewrite (rV_fF x H). now apply dist_circle.
  - intros A. destruct (centre_exists x H) as (o & C). exists o, (dist2 (0, 0)%R o). split; [now apply centre_circumscribed|]. apply dist_circle. unfold opposite_corner. rewrite <- (rV_fF x H). now apply (centre_amb x o H C).
Qed.
Lemma side_act x : side n s x <-> x < n /\ acts x = true.
Proof. unfold side, acts. split; intros [H A]; split; auto; rewrite (cocircular_amb x H) in *; destruct (ambs x); cbn in *; congruence. Qed.
(** The circle stays the same when turning over a half edge that is not a side. *)
Lemma centre_right x o : x < n -> ambs x = true -> centre x o -> centre (rV x) o.
Proof. intros H A C. split; [now apply (centre_amb x o H C)|]. rewrite (vr x H). apply C. Qed.
Lemma centre_left x o : x < n -> ambs x = true -> centre (rV x) o -> centre x o.
Proof.
  intros H A C. destruct (centre_exists x H) as (o' & C'). assert (C2 := centre_right x o' H A C'). destruct C as [C1 C3], C2 as [C4 C5].
  rewrite (circle_unique o o' _ _ C1 C3 C4 C5); auto. assert (P := cdet (rV x) (Lr x H)). lra.
Qed.
(** Turning left. *)
Lemma left_chain x k : x < n -> (forall j, 0 < j < k -> ambs (Nat.iter j (fV s) x) = true) -> 0 < k -> (0 < pdet (vv s x) (vv s (Nat.iter k (fV s) x)))%R.
Proof.
  intros H A Hk. destruct (centre_exists x H) as (o & C).
  assert (G : forall j, j < k -> centre (Nat.iter j (fV s) x) o).
  { induction j as [|j IH]; intros Hj; [exact C|]. rewrite iter_S. apply centre_left; [apply Lv; now apply iterv|apply (A (Datatypes.S j)); lia|]. rewrite rv by now apply iterv. apply IH. lia. }
  clear A. induction k as [|k IH]; [lia|]. destruct k as [|k]; [cbn [Nat.iter nat_rect]; now apply cdet|].
  assert (P : (0 < pdet (vv s x) (vv s (Nat.iter (Datatypes.S k) (fV s) x)))%R) by (apply IH; [lia|intros; apply G; lia]).
  destruct (G (Datatypes.S k)) as [G1 G2]; [lia|]. rewrite (iter_S _ (Datatypes.S k)). assert (Q := cdet _ (iterv (Datatypes.S k) x H)). destruct C as [C1 _].
  assert (T := circle_trans o (vv s (fV s (Nat.iter (Datatypes.S k) (fV s) x))) (vv s (Nat.iter (Datatypes.S k) (fV s) x)) (vv s x) G2 G1 C1 Q P). exact T.
Qed.
Lemma iter_right k x : x < n -> Nat.iter k rV (Nat.iter k (fV s) x) = x.
Proof. intros H. induction k as [|k IH]; auto. rewrite (iter_S' rV), (iter_S (fV s)), rv by now apply iterv. exact IH. Qed.
Lemma iter_right_sub j k x : x < n -> j <= k -> Nat.iter j rV (Nat.iter k (fV s) x) = Nat.iter (k - j) (fV s) x.
Proof. intros H L. remember (k - j) as i eqn:Ei. replace k with (j + i) by lia. rewrite iter_add. apply iter_right. now apply iterv. Qed.
Lemma iter_left k x : x < n -> Nat.iter k (fV s) (Nat.iter k rV x) = x.
Proof. intros H. induction k as [|k IH]; auto. rewrite (iter_S' (fV s)), (iter_S rV), vr by now apply iterr. exact IH. Qed.
Lemma iter_left_sub j k x : x < n -> j <= k -> Nat.iter j (fV s) (Nat.iter k rV x) = Nat.iter (k - j) rV x.
Proof. intros H L. remember (k - j) as i eqn:Ei. replace k with (j + i) by lia. rewrite iter_add. apply iter_left. now apply iterr. Qed.
Lemma right_chain x k : x < n -> (forall j, 0 < j < k -> ambs (Nat.iter j rV x) = true) -> 0 < k -> (0 < pdet (vv s (Nat.iter k rV x)) (vv s x))%R.
Proof.
  intros H A Hk. rewrite <- (iter_left k x H) at 2. apply left_chain; auto; [now apply iterr|]. intros j Hj. rewrite iter_left_sub by lia. apply A. lia.
Qed.
(** There is a side at every vertex. *)
Lemma pdet_self p : pdet p p = 0%R. Proof. unfold pdet. ring. Qed.
Lemma first_false (p : nat -> bool) k : (exists j, 0 < j < k /\ p j = false) \/ forall j, 0 < j < k -> p j = true.
Proof.
  induction k as [|k IH]; [right; lia|]. destruct IH as [(j & L & E)|IH]; [left; exists j; split; auto; lia|].
  destruct k as [|k]; [right; lia|]. destruct (p (Datatypes.S k)) eqn:E; [|left; exists (Datatypes.S k); split; auto; lia].
  right. intros j Hj. destruct (Nat.eq_dec j (Datatypes.S k)) as [-> |]; auto. apply IH. lia.
Qed.
Lemma left_side x : x < n -> exists j, 0 < j <= n /\ acts (Nat.iter j (fV s) x) = true.
Proof.
  intros H. destruct (exists_return n (fV s) rV x (bijV n s S0) H) as (k & [K1 K2] & E).
  destruct (first_false (fun j => ambs (Nat.iter j (fV s) x)) k) as [(j & L & F)|A].
  - exists j. split; [lia|]. unfold acts. now rewrite F.
  - exfalso. assert (P := left_chain x k H A K1). rewrite E, pdet_self in P. lra.
Qed.
Lemma right_side x : x < n -> exists j, 0 < j <= n /\ acts (Nat.iter j rV x) = true.
Proof.
  intros H. assert (B : bijection n rV (fV s)) by (destruct (bijV n s S0) as [B1 B2]; split; auto).
  destruct (exists_return n rV (fV s) x B H) as (k & [K1 K2] & E).
  destruct (first_false (fun j => ambs (Nat.iter j rV x)) k) as [(j & L & F)|A].
  - exists j. split; [lia|]. unfold acts. now rewrite F.
  - exfalso. assert (P := right_chain x k H A K1). rewrite E, pdet_self in P. lra.
Qed.

(** The next sides. *)
Definition left_of (x : nat) : nat := seek acts (fV s) n x.
Definition right_of (x : nat) : nat := seek acts rV n x.
Definition nextc (x : nat) : nat := right_of (neg x).
Definition prevc (x : nat) : nat := left_of (neg x).

Lemma left_of_spec x : x < n -> exists j, 0 < j <= n /\ left_of x = Nat.iter j (fV s) x /\ acts (left_of x) = true /\ forall l, 0 < l < j -> ambs (Nat.iter l (fV s) x) = true.
Proof.
  intros H. destruct (left_side x H) as (i & Hi & A). destruct (seek_spec acts (fV s) n x i Hi A) as (j & J1 & J2 & J3 & J4). exists j. split; [lia|]. split; auto. unfold left_of. rewrite J2. split; auto.
  intros l Hl. specialize (J4 l Hl). unfold acts in J4. now apply negb_false_iff in J4.
Qed.
Lemma right_of_spec x : x < n -> exists j, 0 < j <= n /\ right_of x = Nat.iter j rV x /\ acts (right_of x) = true /\ forall l, 0 < l < j -> ambs (Nat.iter l rV x) = true.
Proof.
  intros H. destruct (right_side x H) as (i & Hi & A). destruct (seek_spec acts rV n x i Hi A) as (j & J1 & J2 & J3 & J4). exists j. split; [lia|]. split; auto. unfold right_of. rewrite J2. split; auto.
  intros l Hl. specialize (J4 l Hl). unfold acts in J4. now apply negb_false_iff in J4.
Qed.
Lemma left_of_unique x i : x < n -> 0 < i -> acts (Nat.iter i (fV s) x) = true -> (forall l, 0 < l < i -> ambs (Nat.iter l (fV s) x) = true) -> left_of x = Nat.iter i (fV s) x.
Proof. intros H Hi A L. destruct (left_side x H) as (j & Hj & B). apply (seek_unique acts (fV s) n x i j); auto. intros l Hl. unfold acts. now rewrite L. Qed.
Lemma right_of_unique x i : x < n -> 0 < i -> acts (Nat.iter i rV x) = true -> (forall l, 0 < l < i -> ambs (Nat.iter l rV x) = true) -> right_of x = Nat.iter i rV x.
Proof. intros H Hi A L. destruct (right_side x H) as (j & Hj & B). apply (seek_unique acts rV n x i j); auto. intros l Hl. unfold acts. now rewrite L. Qed.
Lemma left_of_lt x : x < n -> left_of x < n. Proof. intros H. destruct (left_of_spec x H) as (j & _ & -> & _). now apply iterv. Qed.
Lemma right_of_lt x : x < n -> right_of x < n. Proof. intros H. destruct (right_of_spec x H) as (j & _ & -> & _). now apply iterr. Qed.
Lemma left_of_act x : x < n -> acts (left_of x) = true. Proof. intros H. destruct (left_of_spec x H) as (j & _ & _ & A & _). exact A. Qed.
Lemma right_of_act x : x < n -> acts (right_of x) = true. Proof. intros H. destruct (right_of_spec x H) as (j & _ & _ & A & _). exact A. Qed.
Lemma right_left x : x < n -> acts x = true -> right_of (left_of x) = x.
Proof.
  intros H A. destruct (left_of_spec x H) as (j & J1 & -> & _ & J4). rewrite (right_of_unique _ j); [apply iter_right; auto|now apply iterv|lia|now rewrite iter_right|].
  intros l Hl. rewrite iter_right_sub by lia. apply J4. lia.
Qed.
Lemma left_right x : x < n -> acts x = true -> left_of (right_of x) = x.
Proof.
  intros H A. destruct (right_of_spec x H) as (j & J1 & -> & _ & J4). rewrite (left_of_unique _ j); [apply iter_left; auto|now apply iterr|lia|now rewrite iter_left|].
  intros l Hl. rewrite iter_left_sub by lia. apply J4. lia.
Qed.
Lemma left_of_det x : x < n -> (0 < pdet (vv s x) (vv s (left_of x)))%R.
Proof. intros H. destruct (left_of_spec x H) as (j & J1 & -> & _ & J4). apply left_chain; auto. lia. Qed.
Lemma right_of_det x : x < n -> (0 < pdet (vv s (right_of x)) (vv s x))%R.
Proof. intros H. destruct (right_of_spec x H) as (j & J1 & -> & _ & J4). apply right_chain; auto. lia. Qed.
Lemma next_side_nextc x y : next_side n s x y <-> x < n /\ acts x = true /\ y = nextc x.
Proof.
  unfold next_side. rewrite !side_act. split.
  - intros ([Hx Ax] & [Hy Ay] & k & K1 & E & L). split; auto. split; auto. unfold nextc. symmetry. rewrite <- E. rewrite (right_of_unique _ k); [now apply iter_right|now apply iterv|auto|now rewrite iter_right|].
    intros l Hl. rewrite iter_right_sub by lia. apply cocircular_amb; [now apply iterv|]. apply L. lia.
  - intros (Hx & Ax & ->). assert (Hn := Ng x Hx). split; auto. unfold nextc. split; [split; [now apply right_of_lt|now apply right_of_act]|]. destruct (right_of_spec (neg x) Hn) as (j & J1 & -> & _ & J4). exists j. split; [lia|]. split; [now apply iter_left|].
    intros l Hl. rewrite iter_left_sub by lia. apply cocircular_amb; [now apply iterr|]. apply J4. lia.
Qed.
(** ** The loops *)
Lemma turn_ok (step : nat -> outcome nat) (f : nat -> nat) k : (forall x, x < n -> step x = Ok (f x) /\ f x < n) -> forall fuel e i, e < n -> 0 < i <= k -> k < fuel -> acts (Nat.iter i f e) = true ->
  turn_ignoring fuel DELAUNAY_CELLS s step e = Ok (seek acts f k e).
Proof.
  intros Hs. induction k as [|k IH]; intros fuel e i He Hi Hf A; [lia|]. destruct fuel as [|fuel]; [lia|]. cbn [turn_ignoring seek]. destruct (Hs e He) as [E L]. rewrite E. cbn [bind ignore].
  destruct (delaunay_ok (f e) L) as (r & -> & B). cbn [bind]. rewrite <- B. unfold acts at 1. destruct (ambs (f e)) eqn:F; cbn [negb]; auto.
  destruct i as [|i]; [lia|]. destruct i as [|i]; [unfold acts in A; cbn [Nat.iter nat_rect] in A; rewrite F in A; discriminate|]. rewrite iter_S' in A. apply (IH fuel (f e) (Datatypes.S i)); auto; lia.
Qed.
Lemma nextc_ok fuel x : n < fuel -> x < n -> next_in_cell fuel DELAUNAY_CELLS s x = Ok (nextc x).
Proof.
  intros F H. unfold next_in_cell. assert (Hn := Ng x H). destruct (right_side (neg x) Hn) as (i & Hi & A). apply (turn_ok _ rV n) with (i := i); auto.
  intros y Hy. split; [apply (prevV_Ok n); auto; apply W0|now apply Lr].
Qed.
Lemma prevc_ok fuel x : n < fuel -> x < n -> next_in_image_cell fuel DELAUNAY_CELLS false s x = Ok (prevc x).
Proof.
  intros F H. unfold next_in_image_cell. assert (Hn := Ng x H). destruct (left_side (neg x) Hn) as (i & Hi & A). apply (turn_ok _ (fV s) n) with (i := i); auto.
  intros y Hy. split; [apply (nextV_Ok n); auto; apply W0|now apply Lv].
Qed.

(** ** Connectedness *)
(** The cotangent of the angle opposite of [x]. *)
Definition cot (x : nat) : R := (- pdot (vv s (fF s x)) (vv s (fF s (fF s x))) / pdet (vv s (fF s x)) (vv s (fF s (fF s x))))%R.
Definition rank (x : nat) : nat := length (filter (fun y => if Rlt_dec (cot x) (cot y) then true else false) (seq 0 n)).
Lemma rank_lt x y : y < n -> (cot x < cot y)%R -> rank y < rank x.
Proof.
  intros Hy L. unfold rank.
  assert (G : forall l, length (filter (fun z => if Rlt_dec (cot y) (cot z) then true else false) l) + (if in_dec Nat.eq_dec y l then 1 else 0) <= length (filter (fun z => if Rlt_dec (cot x) (cot z) then true else false) l)).
  { induction l as [|a l IH]; [cbn; lia|]. cbn [filter]. destruct (Nat.eq_dec a y) as [-> |N].
    - destruct (Rlt_dec (cot y) (cot y)); [lra|]. destruct (Rlt_dec (cot x) (cot y)); [|contradiction]. cbn [length]. destruct (in_dec Nat.eq_dec y (y :: l)); destruct (in_dec Nat.eq_dec y l); lia.
    - assert (X : (if in_dec Nat.eq_dec y (a :: l) then 1 else 0) = (if in_dec Nat.eq_dec y l then 1 else 0)). { destruct (in_dec Nat.eq_dec y (a :: l)) as [I|I], (in_dec Nat.eq_dec y l) as [J|J]; auto; exfalso; [destruct I; [congruence|auto]|apply I; now right]. }
      rewrite X. destruct (Rlt_dec (cot y) (cot a)); destruct (Rlt_dec (cot x) (cot a)); cbn [length]; try lia; lra. }
  specialize (G (seq 0 n)). destruct (in_dec Nat.eq_dec y (seq 0 n)) as [I|I]; [lia|]. exfalso. apply I. apply in_seq. lia.
Qed.
Lemma pdot_pos p : p <> (0, 0)%R -> (0 < pdot p p)%R.
Proof.
  destruct p as [a b]. unfold pdot. cbn. intros N. destruct (Req_dec a 0) as [-> |A]; [|pose proof (Rsqr_pos_lt a A); pose proof (Rle_0_sqr b); unfold Rsqr in *; lra].
  destruct (Req_dec b 0) as [-> |B]; [now exfalso|]. pose proof (Rsqr_pos_lt b B). unfold Rsqr in *. lra.
Qed.
Lemma cot_sum (A B C : pt) : padd (padd A B) C = (0, 0)%R -> (0 < pdet A B)%R -> (0 < - pdot B C / pdet B C + - pdot C A / pdet C A)%R.
Proof.
  intros Z D. assert (NC : C <> (0, 0)%R). { intros ->. destruct A as [a b], B as [c d]. unfold padd, pdet in *. cbn in *. injection Z as Z1 Z2. assert (c = (- a)%R) by lra. assert (d = (- b)%R) by lra. subst. lra. }
  apply pdot_pos in NC. destruct A as [a b], B as [c d], C as [e f]. unfold padd, pdet, pdot in *. cbn [fst snd] in *. injection Z as Z1 Z2. assert (e = (- a - c)%R) by lra. assert (f = (- b - d)%R) by lra. subst e f.
  set (G := (a * d - b * c)%R) in *. replace (c * (- b - d) - d * (- a - c))%R with G by (unfold G; ring). replace ((- a - c) * b - (- b - d) * a)%R with G by (unfold G; ring).
  match goal with |- (0 < ?X)%R => replace X with (((- a - c) * (- a - c) + (- b - d) * (- b - d)) / G)%R by (field; lra) end. apply Rdiv_lt_0_compat; auto.
Qed.
Lemma cot_triangle x : x < n -> (0 < cot x + cot (fF s x))%R /\ (0 < cot x + cot (fF s (fF s x)))%R.
Proof.
  intros H. assert (F3 := fF3 n s x S0 H).
  assert (G : forall y, y < n -> (0 < cot y + cot (fF s y))%R).
  { intros y Hy. destruct (fs_flat n s S0 y Hy (cl y Hy)) as [Z D]. unfold cot. rewrite (fF3 n s y S0 Hy). now apply cot_sum. }
  split; [now apply G|]. assert (X := G (fF s (fF s x)) (Lf _ (Lf x H))). rewrite F3 in X. lra.
Qed.
Lemma cot_amb x : x < n -> ambs x = true -> (cot x + cot (neg x) = 0)%R.
Proof.
  intros H A. apply (ambs_dl x H) in A. destruct (quad n s x S0 (inn x H)) as (Q1 & Q2 & _ & P1 & P2). unfold dl, cot in *. rewrite Q1, Q2.
  revert A P1 P2. generalize (vv s x) (vv s (fF s (fF s x))) (vv s (fF s (neg x))). intros [a b] [c d] [e f]. unfold incirc, psub, padd, pneg, pdot, pdet. cbn [fst snd]. intros A P1 P2.
  match goal with |- (?N1 / ?D1 + ?N2 / ?D2)%R = 0%R => replace (N1 / D1 + N2 / D2)%R with ((N1 * D2 + N2 * D1) / (D1 * D2))%R end.
  - match type of A with ?L = _ => match goal with |- (?N / _)%R = _ => replace N with (- L)%R by ring; rewrite A end end. unfold Rdiv. ring.
  - field. split; intros Z; [assert (X : (e * b - f * a = 0)%R) by lra|assert (X : (a * - d - b * - c = 0)%R) by lra]; lra.
Qed.
(** Going around a circle increases the cotangent. *)
Lemma cot_across x : x < n -> ambs x = true -> (cot x < cot (fF s (neg x)))%R /\ (cot x < cot (fF s (fF s (neg x))))%R.
Proof. intros H A. destruct (cot_triangle (neg x) (Ng x H)) as [C1 C2]. assert (E := cot_amb x H A). lra. Qed.

Definition firstc (x : nat) : nat := if acts x then x else right_of x.
Lemma firstc_right x : x < n -> firstc (rV x) = right_of x.
Proof.
  intros H. destruct (right_of_spec x H) as (j & J1 & E & A & J4). unfold firstc. destruct j as [|j]; [lia|]. destruct j as [|j].
  - cbn in E. rewrite <- E, A. reflexivity.
  - assert (B : ambs (rV x) = true) by (apply (J4 1); lia). unfold acts at 1. rewrite B. cbn [negb]. rewrite E, iter_S'. apply right_of_unique; [now apply Lr|lia|rewrite <- iter_S', <- E; auto|].
    intros l Hl. rewrite <- iter_S'. apply J4. lia.
Qed.
Lemma firstc_amb x : x < n -> ambs x = true -> firstc x = firstc (rV x).
Proof. intros H A. rewrite (firstc_right x H). unfold firstc, acts. now rewrite A. Qed.
Lemma firstc_act x : acts x = true -> firstc x = x. Proof. unfold firstc. now intros ->. Qed.
Lemma neg_rV x : x < n -> rV (neg x) = fF s x. Proof. intros H. rewrite rV_fF by now apply Ng. now rewrite neg_neg. Qed.

Section connected.
Variable P : nat -> Prop.
Hypothesis HP : forall x, x < n -> acts x = true -> P x -> P (neg x) /\ P (nextc x).
Lemma first_face : forall k x, rank x < k -> x < n -> P (firstc x) -> P (firstc (fF s x)).
Proof.
  induction k as [|k IH]; intros x R H Px; [lia|]. destruct (ambs x) eqn:A.
  - destruct (cot_across x H A) as [C1 C2]. assert (Hn := Ng x H). assert (H1 := Lf _ Hn). assert (H2 := Lf _ H1). assert (R1 := rank_lt _ _ H1 C1). assert (R2 := rank_lt _ _ H2 C2).
    rewrite (firstc_amb x H A), (rV_fF x H) in Px. apply IH in Px; auto; [|lia]. apply IH in Px; auto; [|lia]. rewrite (fF3 n s _ S0 Hn) in Px.
    rewrite (firstc_amb (neg x) Hn) in Px by now rewrite ambs_neg. now rewrite neg_rV in Px.
  - assert (Ax : acts x = true) by (unfold acts; now rewrite A). rewrite (firstc_act x Ax) in Px. destruct (HP x H Ax Px) as [_ Q]. unfold nextc in Q. rewrite <- firstc_right, neg_rV in Q by auto using Ng. exact Q.
Qed.
Lemma first_neg x : x < n -> P (firstc x) -> P (firstc (neg x)).
Proof.
  intros H Px. destruct (ambs x) eqn:A.
  - rewrite (firstc_amb (neg x)) by (auto using Ng; now rewrite ambs_neg). rewrite neg_rV by auto. apply (first_face (Datatypes.S (rank x))); auto.
  - assert (Ax : acts x = true) by (unfold acts; now rewrite A). rewrite (firstc_act x Ax) in Px. rewrite firstc_act by now rewrite acts_neg. now apply HP.
Qed.
Lemma cells_connected : connected n s -> (exists x, (x < n /\ acts x = true) /\ P x) -> forall x, x < n /\ acts x = true -> P x.
Proof.
  intros C (x & [Hx Ax] & Px) y [Hy Ay]. rewrite <- (firstc_act y Ay). apply (C (fun z => P (firstc z))); auto.
  - exists x. split; auto. now rewrite firstc_act.
  - intros z Hz Pz. split; [now apply first_neg|]. apply (first_face (Datatypes.S (rank z))); auto.
Qed.
End connected.

(** The next sides form a permutation. *)
Lemma left_bijection : bijection n (fun x => if acts x then left_of x else x) (fun x => if acts x then right_of x else x).
Proof.
  split; intros x H; destruct (acts x) eqn:A; rewrite ?A; auto.
  - split; [now apply left_of_lt|]. rewrite left_of_act by auto. now apply right_left.
  - split; [now apply right_of_lt|]. rewrite right_of_act by auto. now apply left_right.
Qed.
Lemma delaunay_cells fuel : n < fuel -> connected n s -> cells fuel DELAUNAY_CELLS n s acts nextc prevc.
Proof.
  intros F C.
  constructor.
  - intros x H. cbn [ignore]. destruct (delaunay_ok x H) as (r & -> & B). cbn [bind]. unfold acts. rewrite negb_involutive, B. reflexivity.
  - intros x H A. now rewrite acts_neg.
  - intros x H A. split; [apply right_of_lt; now apply Ng|]. split; [apply right_of_act; now apply Ng|]. now apply nextc_ok.
  - intros x H A. split; [apply left_of_lt; now apply Ng|]. split; [apply left_of_act; now apply Ng|]. now apply prevc_ok.
  - intros x H A. assert (Hn := Ng x H). assert (P := right_of_det _ Hn). assert (Q := left_of_det _ Hn). unfold nextc, prevc. rewrite (fs_odd n s S0 x H) in P, Q. unfold pdet, pneg in *. cbn [fst snd] in *. lra.
  - intros P Hx Hc x Hy. apply (cells_connected P); auto.
  - intros P Hx Hc x Hy. apply (cells_connected P); auto. intros y H A Py. split; [now apply (Hc y (conj H A))|].
    (* turning left until we come back *)
    assert (Hn := Ng y H). assert (An : acts (neg y) = true) by now rewrite acts_neg. destruct (exists_return n _ _ (neg y) left_bijection Hn) as (k & [K1 _] & E).
    assert (G : forall j, let z := Nat.iter j (fun x => if acts x then left_of x else x) (neg y) in (z < n /\ acts z = true) /\ (0 < j -> P (neg z) /\ P z) /\ P (neg z)).
    { induction j as [|j IH]; [cbn [Nat.iter nat_rect]; rewrite neg_neg; split; auto; split; auto; lia|]. cbv zeta in *. rewrite iter_S. destruct IH as ([Z1 Z2] & _ & Z4). rewrite Z2. set (z := Nat.iter j _ (neg y)) in *. clearbody z.
      assert (B := Ng z Z1). assert (A' : acts (neg z) = true) by now rewrite acts_neg.
      destruct (Hc (neg z) (conj B A') Z4) as [_ Q]. unfold prevc in Q. rewrite neg_neg in Q. split; [split; [now apply left_of_lt|now apply left_of_act]|].
      destruct (Hc (left_of z)) as [Q1 _]; [split; [now apply left_of_lt|now apply left_of_act]|auto|]. auto. }
    destruct k as [|k]; [lia|]. rewrite iter_S in E. specialize (G k). cbv zeta in G. destruct G as ([Z1 Z2] & Z3 & _). rewrite Z2 in E. set (z := Nat.iter k _ (neg y)) in *.
    unfold nextc. rewrite <- E, right_left by auto. destruct k as [|k]; [|apply Z3; lia]. unfold z. cbn [Nat.iter nat_rect]. now apply (Hc y (conj H A)).
Qed.
End cells.
