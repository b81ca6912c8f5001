(** * How the search descends: the geometry of a step *)
From Coq Require Import ZArith Reals List Arith Bool Lia Lra Psatz.
From Verif Require Import Base HalfEdge HalfEdgeFacts Combinatorial CombinatorialSpec CombinatorialFacts CombinatorialHistory ExactReal Vector PlaneSpec Plane VectorFacts
  FlatTri FlatSpec FlatFacts FlatSum Chain ChainSpec Saddle SaddleSpec Search SearchSpec PointFacts.
Import ListNotations.
Local Open Scope R_scope.

(** ** Directions in a half plane *)
Lemma hp_id (e u v w : pt) : pdet u v * pdet w e + pdet v w * pdet u e = pdet u w * pdet v e.
Proof. unfold pdet. ring. Qed.
Lemma hp_le e u v w : 0 < pdet u e -> 0 < pdet v e -> 0 < pdet w e -> 0 <= pdet u v -> 0 <= pdet v w -> 0 <= pdet u w.
Proof.
  intros U V W A B. pose proof (hp_id e u v w) as I. destruct (Rle_lt_dec 0 (pdet u w)) as [|N]; auto. exfalso.
  assert (pdet u w * pdet v e < 0) by nra. assert (0 <= pdet u v * pdet w e) by nra. assert (0 <= pdet v w * pdet u e) by nra. lra.
Qed.
Lemma hp_lt_le e u v w : 0 < pdet u e -> 0 < pdet v e -> 0 < pdet w e -> 0 < pdet u v -> 0 <= pdet v w -> 0 < pdet u w.
Proof.
  intros U V W A B. pose proof (hp_id e u v w) as I. destruct (Rlt_le_dec 0 (pdet u w)) as [|N]; auto. exfalso.
  assert (pdet u w * pdet v e <= 0) by nra. assert (0 < pdet u v * pdet w e) by nra. assert (0 <= pdet v w * pdet u e) by nra. lra.
Qed.
Lemma hp_le_lt e u v w : 0 < pdet u e -> 0 < pdet v e -> 0 < pdet w e -> 0 <= pdet u v -> 0 < pdet v w -> 0 < pdet u w.
Proof.
  intros U V W A B. pose proof (hp_id e u v w) as I. destruct (Rlt_le_dec 0 (pdet u w)) as [|N]; auto. exfalso.
  assert (pdet u w * pdet v e <= 0) by nra. assert (0 <= pdet u v * pdet w e) by nra. assert (0 < pdet v w * pdet u e) by nra. lra.
Qed.
Lemma pdet_swap u v : pdet u v = - pdet v u.
Proof. unfold pdet. ring. Qed.
Lemma pdet_nonzero_l u v : pdet u v <> 0 -> u <> (0, 0).
Proof. intros H ->. apply H. unfold pdet; cbn; ring. Qed.
Lemma pdet_nonzero_r u v : pdet u v <> 0 -> v <> (0, 0).
Proof. intros H ->. apply H. unfold pdet; cbn; ring. Qed.
Lemma same_dir_det u v : same_direction u v -> pdet u v = 0.
Proof. intros (r & _ & ->). unfold pdet, pscale; cbn. ring. Qed.
(** In a half plane, directions are the same when the determinant vanishes. *)
Lemma hp_same e u v : 0 < pdet u e -> 0 < pdet v e -> pdet u v = 0 -> same_direction u v.
Proof.
  intros U V Z. exists (pdet v e / pdet u e). split; [now apply Rdiv_lt_0_compat|].
  destruct u as [a b], v as [c d], e as [x y]. unfold pdet, pscale in *; cbn [fst snd] in *.
  apply pt_eq; cbn [fst snd]; apply (Rmult_eq_reg_r (a * y - b * x)); try lra.
  - replace ((c * y - d * x) / (a * y - b * x) * a * (a * y - b * x)) with (a * c * y - a * d * x) by (field; lra). replace (a * d) with (b * c) by lra. ring.
  - replace ((c * y - d * x) / (a * y - b * x) * b * (a * y - b * x)) with (b * c * y - b * d * x) by (field; lra). replace (b * c) with (a * d) by lra. ring.
Qed.
Lemma same_dir_half e u v : same_direction u v -> 0 < pdet u e -> 0 < pdet v e.
Proof. intros (r & H & ->) U. replace (pdet (pscale r u) e) with (r * pdet u e) by (unfold pdet, pscale; cbn; ring). nra. Qed.

(** The closed cone between two directions. *)
Definition cone (p q d : pt) : Prop := 0 <= pdet p d /\ 0 <= pdet d q /\ d <> (0, 0).
Lemma cone_half p e d : 0 < pdet p (padd p e) -> cone p (padd p e) d -> 0 < pdet d e.
Proof.
  intros D (A & B & N). assert (E : pdet d e = pdet d (padd p e) + pdet p d) by (unfold pdet, padd; cbn; ring).
  destruct (Rle_lt_or_eq_dec _ _ A) as [A'|A']; [lra|]. destruct (Rle_lt_or_eq_dec _ _ B) as [B'|B']; [lra|]. exfalso. apply N.
  destruct d as [x y], p as [a b], e as [u v]. unfold pdet, padd in *; cbn [fst snd] in *. 
  assert (X : x * (a * (b + v) - b * (a + u)) = 0) by (replace (x * (a * (b + v) - b * (a + u))) with (a * (x * (b + v) - y * (a + u)) + (a + u) * (a * y - b * x)) by ring; rewrite <- A', <- B'; ring).
  assert (Y : y * (a * (b + v) - b * (a + u)) = 0) by (replace (y * (a * (b + v) - b * (a + u))) with (b * (x * (b + v) - y * (a + u)) + (b + v) * (a * y - b * x)) by ring; rewrite <- A', <- B'; ring).
  apply pt_eq; cbn [fst snd]; [destruct (Rmult_integral _ _ X); lra|destruct (Rmult_integral _ _ Y); lra].
Qed.

(** ** The directions that are searched *)
(** Strictly between [d0] and [d1], and also in the direction of [d0] if [vec] is set. *)
Definition inside (vec : bool) (d0 d1 v : pt) : Prop := (0 < pdet d0 v /\ 0 < pdet v d1) \/ (vec = true /\ same_direction d0 v).

Section node.
Context {K : ExactReal} (n : nat) (s : flat K).
Hypothesis S0 : flat_surface n s.

(** The search is about to cross [h] that starts at [p] in the directions from [d0] to [d1]. *)
Definition node_ok (vec : bool) (p : pt) (h : nat) (d0 d1 : pt) : Prop :=
  let q := padd p (vv s h) in
  0 < pdet p q /\ cone p q d0 /\ cone p q d1 /\ 0 <= pdet d0 d1 /\ 0 < pdet d0 q /\ (vec = true -> 0 < pdet p d0).

Lemma hits_inv p h v t : hits s p h v t <-> fF s (neg h) <> neg h /\ crosses s p h v /\
  ((v = padd p (vv s (fF s (neg h))) /\ t = fF s (fF s (neg h))) \/ hits s p (fF s (neg h)) v t \/ hits s (padd p (vv s (fF s (neg h)))) (fF s (fF s (neg h))) v t).
Proof.
  split.
  - intros H. destruct H; split; auto.
  - intros (N & C & [(-> & ->)|[H|H]]); [now apply hits_vertex|now apply hits_right|now apply hits_left].
Qed.
Lemma hits_crosses p h v t : hits s p h v t -> crosses s p h v.
Proof. intros H. apply hits_inv in H. tauto. Qed.

Lemma inside_cone vec p h d0 d1 v : node_ok vec p h d0 d1 -> inside vec d0 d1 v -> crosses s p h v.
Proof.
  intros (D & C0 & C1 & O & B0' & V) [[A B]|[E F]]; unfold crosses; set (q := padd p (vv s h)) in *.
  - assert (Pd : 0 < pdet d0 d1).
    { destruct (Rle_lt_or_eq_dec _ _ O) as [|Z]; auto. exfalso. pose proof (cone_half _ _ _ D C0) as H0. pose proof (cone_half _ _ _ D C1) as H1.
      destruct (hp_same _ _ _ H0 H1 (eq_sym Z)) as (r & Hr & ->). replace (pdet v (pscale r d0)) with (- (r * pdet d0 v)) in B by (unfold pdet, pscale; cbn; ring). nra. }
    destruct C0 as (A0 & B0 & N0), C1 as (A1 & B1 & N1). 
    pose proof (cone_half p (vv s h) d0 D (conj A0 (conj B0 N0))) as H0. pose proof (cone_half p (vv s h) d1 D (conj A1 (conj B1 N1))) as H1.
    assert (Hp : 0 < pdet p (vv s h)) by (replace (pdet p (vv s h)) with (pdet p q) by (unfold q, pdet, padd; cbn; ring); auto).
    assert (Hq : 0 < pdet q (vv s h)) by (replace (pdet q (vv s h)) with (pdet p q) by (unfold q, pdet, padd; cbn; ring); auto).
    assert (A1' : 0 < pdet p d1) by (apply (hp_le_lt (vv s h) p d0 d1); auto).
    assert (E1 : pdet p v * pdet d0 d1 = pdet v d1 * pdet p d0 + pdet d0 v * pdet p d1) by (unfold pdet; ring).
    assert (E2 : pdet v q * pdet d0 d1 = pdet v d1 * pdet d0 q + pdet d0 v * pdet d1 q) by (unfold pdet; ring).
    split; nra.
  - pose proof (V E) as Vp. destruct F as (r & Hr & ->). replace (pdet p (pscale r d0)) with (r * pdet p d0) by (unfold pdet, pscale; cbn; ring).
    replace (pdet (pscale r d0) q) with (r * pdet d0 q) by (unfold pdet, pscale; cbn; ring). split; nra.
Qed.

Section step.
Variables (vec : bool) (p : pt) (h : nat) (d0 d1 : pt).
Hypothesis Hh : (h < n)%nat.
Hypothesis Nb : fF s (neg h) <> neg h.
Hypothesis Node : node_ok vec p h d0 d1.
Let e := vv s h.
Let q := padd p e.
Let a := vv s (fF s (neg h)).
Let b := vv s (fF s (fF s (neg h))).
Let w := padd p a.

Lemma across : padd w b = q /\ 0 < pdet a e.
Proof.
  assert (Hn : (neg h < n)%nat) by (apply (neg_ltn n (fT s)); auto; apply S0).
  destruct (fs_flat n s S0 (neg h) Hn Nb) as [Z D]. rewrite (fs_odd n s S0 h Hh) in Z, D. fold a in Z, D. fold b in Z. fold e in Z, D. split.
  - unfold w, q. destruct e, a, b, p. unfold padd, pneg in *; cbn [fst snd] in *. injection Z as Z1 Z2. apply pt_eq; cbn [fst snd]; lra.
  - unfold pdet, pneg in *; cbn [fst snd] in *. lra.
Qed.
Let D0 : 0 < pdet p q := proj1 Node.
Lemma hp_p : 0 < pdet p e.
Proof. replace (pdet p e) with (pdet p q) by (unfold q, pdet, padd; cbn; ring). exact D0. Qed.
Lemma hp_q : 0 < pdet q e.
Proof. replace (pdet q e) with (pdet p q) by (unfold q, pdet, padd; cbn; ring). exact D0. Qed.
Lemma hp_w : pdet p q < pdet w e.
Proof. replace (pdet w e) with (pdet p q + pdet a e) by (unfold w, q, pdet, padd; cbn; ring). pose proof (proj2 across). lra. Qed.
Lemma hp_w0 : 0 < pdet w e.
Proof. pose proof hp_w. pose proof D0. lra. Qed.
Lemma hp_d0 : 0 < pdet d0 e.
Proof. apply (cone_half p e d0 D0). apply Node. Qed.
Lemma hp_d1 : 0 < pdet d1 e.
Proof. apply (cone_half p e d1 D0). apply Node. Qed.
Lemma cone_hp d : cone p q d -> 0 < pdet d e.
Proof. apply (cone_half p e d D0). Qed.
Lemma w_nonzero : w <> (0, 0).
Proof. apply (pdet_nonzero_l _ e). pose proof hp_w0. lra. Qed.
Let HP := hp_p.
Let HQ := hp_q.
Let HW := hp_w0.
Let H0 := hp_d0.
Let H1 := hp_d1.


Lemma cone_of d : 0 < pdet d e -> 0 <= pdet p d -> 0 <= pdet d q -> cone p q d.
Proof. intros H A B. repeat split; auto. apply (pdet_nonzero_l _ e). lra. Qed.

(** The vertex is on the clockwise side. *)
Lemma step_clockwise : pdet d0 w < 0 \/ (pdet d0 w = 0 /\ vec = false) ->
  node_ok vec w (fF s (fF s (neg h))) d0 d1 /\
  (forall d, cone w q d -> 0 <= pdet d0 d -> 0 <= pdet d d1 -> cone p q d) /\
  forall v t, inside vec d0 d1 v -> (hits s p h v t <-> hits s w (fF s (fF s (neg h))) v t).
Proof.
  intros C. pose proof Node as (Dq & C0 & C1 & O & B0' & V). destruct across as [Ew Aw]. assert (Lw : 0 <= pdet w d0) by (rewrite pdet_swap; lra).
  destruct C0 as (A0 & B0 & N0). destruct C1 as (A1 & B1 & N1). fold e in B0, B1, B0'. fold q in B0, B1, B0'.
  assert (Wq : 0 < pdet w q) by (apply (hp_le_lt e w d0 q); auto).
  assert (Hd : forall d, cone w q d -> 0 < pdet d e).
  { intros d Cd. assert (Cd' : cone w (padd w b) d) by (rewrite Ew; auto). destruct Cd as (X & Y & Z). 
    assert (I : pdet d e * pdet w q = pdet w d * pdet q e + pdet d q * pdet w e) by (unfold pdet; ring).
    destruct (Rle_lt_or_eq_dec _ _ X) as [X'|X']; [nra|]. destruct (Rle_lt_or_eq_dec _ _ Y) as [Y'|Y']; [nra|]. exfalso. pose proof (cone_half w b d) as Hb.
    rewrite Ew in Hb. specialize (Hb Wq (conj X (conj Y Z))). assert (pdet d b = pdet d q - pdet d w) by (rewrite <- Ew; unfold pdet, padd; cbn; ring).
    rewrite (pdet_swap d w) in H. lra. }
  split; [|split].
  - unfold node_ok. fold b. rewrite Ew. repeat apply conj; auto.
    + apply (hp_le e w d0 d1); auto.
    + intros E. destruct C as [C|[_ C]]; [rewrite pdet_swap; lra|congruence].
  - intros d Cd L0 L1. pose proof (Hd d Cd) as Ld. destruct Cd as (X & Y & Z). repeat split; auto. apply (hp_le e p d0 d); auto.
  - intros v t I. pose proof (inside_cone vec p h d0 d1 v Node I) as Cr. assert (Hv : 0 < pdet v e).
    { apply cone_hp. destruct Cr as [Cp Cq]. apply cone_of; try (fold e in Cq; fold q in Cq); try lra. replace (pdet v e) with (pdet v q + pdet p v) by (unfold q, pdet, padd; cbn; ring). lra. }
    assert (L : 0 <= pdet d0 v) by (destruct I as [[I _]|[_ I]]; [lra|rewrite (same_dir_det _ _ I); lra]).
    assert (Lv : 0 <= pdet w v) by (apply (hp_le e w d0 v); auto).
    rewrite hits_inv. split.
    + intros (_ & _ & [[Ev _]|[R|Rl]]); auto; exfalso.
      * fold a in Ev; fold w in Ev; rewrite Ev in I. destruct I as [[I _]|[E I]]; [destruct C; lra|]. rewrite (same_dir_det _ _ I) in C. destruct C as [C|[_ C]]; [lra|congruence].
      * apply hits_crosses in R. destruct R as [_ R]. fold a in R. fold w in R. rewrite pdet_swap in R. lra.
    + intros R. split; auto. 
Qed.

(** The vertex is on the counterclockwise side. *)
Lemma right_cone d : 0 < pdet p w -> cone p w d -> 0 < pdet d e.
Proof.
  intros Wp Cd. pose proof (cone_half p a d) as Hb. fold w in Hb. specialize (Hb Wp Cd). destruct Cd as (X & Y & Z).
  assert (I : pdet d e * pdet p w = pdet p d * pdet w e + pdet d w * pdet p e) by (unfold pdet; ring).
  destruct (Rle_lt_or_eq_dec _ _ X) as [X'|X']; [nra|]. destruct (Rle_lt_or_eq_dec _ _ Y) as [Y'|Y']; [nra|]. exfalso.
  assert (pdet d a = pdet d w - pdet d p) by (unfold w, pdet, padd; cbn; ring). rewrite (pdet_swap d p) in H. lra.
Qed.
Lemma left_cone d : 0 < pdet w q -> cone w q d -> 0 < pdet d e.
Proof.
  intros Wq Cd. destruct across as [Ew Aw]. pose proof (cone_half w b d) as Hb. rewrite Ew in Hb. specialize (Hb Wq Cd). destruct Cd as (X & Y & Z).
  assert (I : pdet d e * pdet w q = pdet w d * pdet q e + pdet d q * pdet w e) by (unfold pdet; ring).
  destruct (Rle_lt_or_eq_dec _ _ X) as [X'|X']; [nra|]. destruct (Rle_lt_or_eq_dec _ _ Y) as [Y'|Y']; [nra|]. exfalso.
  assert (pdet d b = pdet d q - pdet d w) by (rewrite <- Ew; unfold pdet, padd; cbn; ring). rewrite (pdet_swap d w) in H. lra.
Qed.
Lemma crosses_hp v : crosses s p h v -> 0 < pdet v e.
Proof. intros [A B]. fold e in B. replace (pdet v e) with (pdet v (padd p e) + pdet p v) by (unfold pdet, padd; cbn; ring). lra. Qed.

Lemma step_counterclockwise : 0 < pdet d0 w -> 0 <= pdet d1 w ->
  node_ok vec p (fF s (neg h)) d0 d1 /\
  (forall d, cone p w d -> 0 <= pdet d0 d -> 0 <= pdet d d1 -> cone p q d) /\
  forall v t, inside vec d0 d1 v -> (hits s p h v t <-> hits s p (fF s (neg h)) v t).
Proof.
  intros C C'. pose proof Node as (Dq & C0 & C1 & O & B0' & V).
  destruct C0 as (A0 & B0 & N0). destruct C1 as (A1 & B1 & N1). fold e in B0, B1, B0'. fold q in B0, B1, B0'.
  assert (Wp : 0 < pdet p w) by (apply (hp_le_lt e p d0 w); auto).
  split; [|split].
  - unfold node_ok. fold a. fold w. repeat apply conj; auto; lra.
  - intros d Cd L0 L1. pose proof (right_cone d Wp Cd) as Ld. destruct Cd as (X & Y & Z). repeat split; auto. apply (hp_le e d d1 q); auto.
  - intros v t I. pose proof (inside_cone vec p h d0 d1 v Node I) as Cr. assert (Hv := crosses_hp v Cr).
    assert (Lv : 0 < pdet v w).
    { destruct I as [[_ I]|[_ I]]; [apply (hp_lt_le e v d1 w); auto|]. apply (hp_le_lt e v d0 w); auto. rewrite pdet_swap, (same_dir_det _ _ I). lra. }
    rewrite hits_inv. split.
    + intros (_ & _ & [[Ev _]|[R|Rl]]); auto; exfalso.
      * fold a in Ev; fold w in Ev. rewrite Ev in Lv. unfold pdet in Lv. lra.
      * apply hits_crosses in Rl. destruct Rl as [R _]. fold a in R. fold w in R. rewrite pdet_swap in R. lra.
    + intros R. split; auto.
Qed.

(** The vertex is in the sector. *)
Lemma step_second : 0 <= pdet d0 w -> pdet d1 w <= 0 -> 0 < pdet w q ->
  node_ok false w (fF s (fF s (neg h))) w d1 /\ forall d, cone w q d -> 0 <= pdet w d -> 0 <= pdet d d1 -> cone p q d /\ 0 <= pdet d0 d /\ 0 <= pdet d d1.
Proof.
  intros C C' Wq. pose proof Node as (Dq & C0 & C1 & O & B0' & V). destruct across as [Ew Aw].
  destruct C0 as (A0 & B0 & N0). destruct C1 as (A1 & B1 & N1). fold e in B0, B1, B0'. fold q in B0, B1, B0'.
  assert (L1 : 0 <= pdet w d1) by (rewrite pdet_swap; lra). assert (Lp : 0 <= pdet p w) by (apply (hp_le e p d0 w); auto). assert (Z : pdet w w = 0) by (unfold pdet; ring).
  split.
  - unfold node_ok. fold b. rewrite Ew. repeat apply conj; auto; try lra; try (apply w_nonzero); discriminate.
  - intros d Cd L L'. pose proof (left_cone d Wq Cd) as Ld. destruct Cd as (X & Y & Zd). repeat split; auto; [apply (hp_le e p w d); auto|apply (hp_le e d0 w d); auto].
Qed.
Lemma step_found : 0 < pdet d0 w -> pdet d1 w < 0 ->
  node_ok vec p (fF s (neg h)) d0 w /\ node_ok false w (fF s (fF s (neg h))) w d1 /\
  (forall d, cone p w d -> 0 <= pdet d0 d -> 0 <= pdet d w -> cone p q d /\ 0 <= pdet d0 d /\ 0 <= pdet d d1) /\
  (forall d, cone w q d -> 0 <= pdet w d -> 0 <= pdet d d1 -> cone p q d /\ 0 <= pdet d0 d /\ 0 <= pdet d d1) /\
  inside vec d0 d1 w /\
  forall v t, (hits s p h v t /\ inside vec d0 d1 v <-> (v = w /\ t = fF s (fF s (neg h))) \/ (hits s p (fF s (neg h)) v t /\ inside vec d0 w v) \/
    (hits s w (fF s (fF s (neg h))) v t /\ inside false w d1 v)).
Proof.
  intros C C'. pose proof Node as Node'. pose proof Node as (Dq & C0 & C1 & O & B0' & V).
  destruct C0 as (A0 & B0 & N0). destruct C1 as (A1 & B1 & N1). fold e in B0, B1, B0'. fold q in B0, B1, B0'.
  assert (C1' : 0 < pdet w d1) by (rewrite pdet_swap; lra).
  assert (Wp : 0 < pdet p w) by (apply (hp_le_lt e p d0 w); auto). assert (Wq : 0 < pdet w q) by (apply (hp_lt_le e w d1 q); auto).
  assert (Z : pdet w w = 0) by (unfold pdet; ring). assert (Iw : inside vec d0 d1 w) by (left; auto).
  destruct (step_second (Rlt_le _ _ C) (Rlt_le _ _ C') Wq) as [N2 Co2].
  assert (Nr : node_ok vec p (fF s (neg h)) d0 w). { unfold node_ok. fold a. fold w. repeat apply conj; auto; try lra; apply w_nonzero. }
  split; [exact Nr|split; [exact N2|split; [|split; [exact Co2|split; [exact Iw|]]]]].
  - intros d Cd L0 L1. pose proof (right_cone d Wp Cd) as Ld. destruct Cd as (X & Y & Zd). repeat split; auto; [apply (hp_le e d w q); auto; lra|apply (hp_le e d w d1); auto; lra].
  - intros v t. split.
    + intros [H I]. pose proof (inside_cone vec p h d0 d1 v Node' I) as Cr. assert (Hv := crosses_hp v Cr). apply hits_inv in H. destruct H as (_ & _ & [H|[H|H]]); auto; right.
      * left. split; auto. apply hits_crosses in H. destruct H as [_ H]. fold a in H. fold w in H. destruct I as [[I J]|I]; [left; split; auto|right; auto].
      * right. split; auto. pose proof (hits_crosses _ _ _ _ H) as [R _]. fold a in R. fold w in R. left. split; auto. destruct I as [[_ I]|[_ I]]; auto.
        exfalso. assert (Hx : 0 < pdet w d0). { apply (hp_lt_le e w v d0); auto. rewrite pdet_swap, (same_dir_det _ _ I). lra. } rewrite pdet_swap in Hx. lra.
    + intros [[-> ->]|[[H I]|[H I]]].
      * split; auto. apply hits_inv. split; auto. split; [now apply (inside_cone vec p h d0 d1)|]. left. auto.
      * assert (Hv : 0 < pdet v e).
        { pose proof (hits_crosses _ _ _ _ H) as [X Y]. fold a in Y. fold w in Y. apply (right_cone v Wp). repeat split; try lra. apply (pdet_nonzero_l _ w). lra. }
        assert (I' : inside vec d0 d1 v). { destruct I as [[I J]|I]; [left; split; auto|right; auto]. apply (hp_lt_le e v w d1); auto. lra. }
        split; auto. apply hits_inv. split; auto. split; [now apply (inside_cone vec p h d0 d1)|]. auto.
      * assert (Hv : 0 < pdet v e).
        { pose proof (hits_crosses _ _ _ _ H) as [X Y]. fold b in Y. rewrite (proj1 across) in Y. apply (left_cone v Wq). repeat split; try lra. apply (pdet_nonzero_l _ q). lra. }
        assert (I' : inside vec d0 d1 v). { destruct I as [[I J]|[I _]]; [|discriminate]. left; split; auto. apply (hp_lt_le e d0 w v); auto. lra. }
        split; auto. apply hits_inv. split; auto. split; [now apply (inside_cone vec p h d0 d1)|]. auto.
Qed.


(** The vertex is in the direction where the sector begins. *)
Lemma step_first : vec = true -> pdet d0 w = 0 ->
  0 < pdet p w /\ node_ok false w (fF s (fF s (neg h))) w d1 /\
  (forall d, cone w q d -> 0 <= pdet w d -> 0 <= pdet d d1 -> cone p q d /\ 0 <= pdet d0 d /\ 0 <= pdet d d1) /\
  inside vec d0 d1 w /\
  forall v t, (hits s p h v t /\ inside vec d0 d1 v <-> (v = w /\ t = fF s (fF s (neg h))) \/ (hits s w (fF s (fF s (neg h))) v t /\ inside false w d1 v)).
Proof.
  intros E Zw. pose proof Node as Node'. pose proof Node as (Dq & C0 & C1 & O & B0' & V). specialize (V E).
  destruct C0 as (A0 & B0 & N0). destruct C1 as (A1 & B1 & N1). fold e in B0, B1, B0'. fold q in B0, B1, B0'.
  assert (Sd : same_direction d0 w) by (apply (hp_same e); auto). assert (Zw' : pdet w d0 = 0) by (rewrite pdet_swap; lra).
  assert (Wp : 0 < pdet p w) by (apply (hp_lt_le e p d0 w); auto; lra). assert (Wq : 0 < pdet w q) by (apply (hp_le_lt e w d0 q); auto; lra).
  assert (Lw : 0 <= pdet w d1) by (apply (hp_le e w d0 d1); auto; lra). assert (Z : pdet w w = 0) by (unfold pdet; ring). assert (Iw : inside vec d0 d1 w) by (right; auto).
  assert (L1 : pdet d1 w <= 0) by (rewrite pdet_swap; lra). assert (L0 : 0 <= pdet d0 w) by lra.
  destruct (step_second L0 L1 Wq) as [N2 Co2].
  split; [exact Wp|split; [exact N2|split; [exact Co2|split; [exact Iw|]]]].
  intros v t. split.
  - intros [H I]. pose proof (inside_cone vec p h d0 d1 v Node' I) as Cr. assert (Hv := crosses_hp v Cr). apply hits_inv in H. destruct H as (_ & _ & [H|[H|H]]); auto.
    + exfalso. apply hits_crosses in H. destruct H as [_ H]. fold a in H. fold w in H. assert (Hx : 0 < pdet v d0) by (apply (hp_lt_le e v w d0); auto; lra).
      rewrite pdet_swap in Hx. destruct I as [[I _]|[_ I]]; [lra|]. rewrite (same_dir_det _ _ I) in Hx. lra.
    + right. split; auto. pose proof (hits_crosses _ _ _ _ H) as [R _]. fold a in R. fold w in R. left. split; auto. destruct I as [[_ I]|[_ I]]; auto.
      exfalso. assert (Hx : 0 < pdet w d0). { apply (hp_lt_le e w v d0); auto. rewrite pdet_swap, (same_dir_det _ _ I). lra. } lra.
  - intros [[-> ->]|[H I]].
    + split; auto. apply hits_inv. split; auto. split; [now apply (inside_cone vec p h d0 d1)|]. left. auto.
    + assert (Hv : 0 < pdet v e).
      { pose proof (hits_crosses _ _ _ _ H) as [X Y]. fold b in Y. rewrite (proj1 across) in Y. apply (left_cone v Wq). repeat split; try lra. apply (pdet_nonzero_l _ q). lra. }
      assert (I' : inside vec d0 d1 v). { destruct I as [[I J]|[I _]]; [|discriminate]. left; split; auto. apply (hp_le_lt e d0 w v); auto. }
      split; auto. apply hits_inv. split; auto. split; [now apply (inside_cone vec p h d0 d1)|]. auto.
Qed.
End step.

(** All directions are the direction of the end of the edge. *)
Definition node_end (p : pt) (h : nat) (d0 d1 : pt) : Prop :=
  let q := padd p (vv s h) in 0 < pdet p q /\ same_direction q d0 /\ same_direction q d1.
(** The edge is in the only direction. *)
Definition node_flat (p : pt) (h : nat) (d0 d1 : pt) : Prop :=
  same_direction d0 p /\ same_direction d0 d1 /\ exists k, 0 < k /\ vv s h = pscale (- k) d0.
Lemma same_dir_trans u v w : same_direction u v -> same_direction v w -> same_direction u w.
Proof. intros (r & Hr & ->) (r' & Hr' & ->). exists (r' * r). split; [nra|]. unfold pscale; cbn. f_equal; ring. Qed.
Lemma same_dir_sym u v : same_direction u v -> same_direction v u.
Proof. intros (r & Hr & ->). exists (/ r). split; [now apply Rinv_0_lt_compat|]. destruct u. unfold pscale; cbn. apply pt_eq; cbn [fst snd]; field; lra. Qed.
Lemma same_dir_pos u v w : same_direction u v -> (0 < pdet u w <-> 0 < pdet v w) /\ (0 < pdet w u <-> 0 < pdet w v).
Proof.
  intros (r & Hr & ->). replace (pdet (pscale r u) w) with (r * pdet u w) by (unfold pdet, pscale; cbn; ring). replace (pdet w (pscale r u)) with (r * pdet w u) by (unfold pdet, pscale; cbn; ring).
  split; split; intros; nra.
Qed.
Lemma inside_empty d0 d1 v : same_direction d0 d1 -> ~ inside false d0 d1 v.
Proof. intros S [[A B]|[A _]]; [|discriminate]. apply (same_dir_pos d0 d1 v S) in B. rewrite pdet_swap in B. lra. Qed.

(** If there is only one direction, it is on one of these. *)
Lemma across' p h : (h < n)%nat -> fF s (neg h) <> neg h ->
  padd (padd p (vv s (fF s (neg h)))) (vv s (fF s (fF s (neg h)))) = padd p (vv s h) /\ 0 < pdet (vv s (fF s (neg h))) (vv s h).
Proof.
  intros Hh Nb. assert (Hn : (neg h < n)%nat) by (apply (neg_ltn n (fT s)); auto; apply S0).
  destruct (fs_flat n s S0 (neg h) Hn Nb) as [Z D]. rewrite (fs_odd n s S0 h Hh) in Z, D.
  set (e := vv s h) in *. set (a := vv s (fF s (neg h))) in *. set (b := vv s (fF s (fF s (neg h)))) in *. split.
  - destruct e, a, b, p. unfold padd, pneg in *; cbn [fst snd] in *. injection Z as Z1 Z2. apply pt_eq; cbn [fst snd]; lra.
  - unfold pdet, pneg in *; cbn [fst snd] in *. lra.
Qed.
Lemma step_end p h d0 d1 : (h < n)%nat -> fF s (neg h) <> neg h -> node_end p h d0 d1 ->
  let w := padd p (vv s (fF s (neg h))) in
  (0 < pdet d0 w -> 0 <= pdet d1 w /\ node_ok false p (fF s (neg h)) d0 d1) /\
  (pdet d0 w = 0 -> node_flat w (fF s (fF s (neg h))) d0 d1) /\
  (pdet d0 w < 0 -> node_end w (fF s (fF s (neg h))) d0 d1).
Proof.
  intros Hh Nb (D & S1 & S2) w. destruct (across' p h Hh Nb) as [Ew Aw]. fold w in Ew. set (e := vv s h) in *. set (q := padd p e) in *. set (a := vv s (fF s (neg h))) in *. set (b := vv s (fF s (fF s (neg h)))) in *.
  assert (HP : 0 < pdet p e) by (replace (pdet p e) with (pdet p q) by (unfold q, pdet, padd; cbn; ring); auto).
  assert (HQ : 0 < pdet q e) by (replace (pdet q e) with (pdet p q) by (unfold q, pdet, padd; cbn; ring); auto).
  assert (HW : pdet q e < pdet w e) by (replace (pdet w e) with (pdet q e + pdet a e) by (unfold w, q, pdet, padd; cbn; ring); lra).
  assert (H0 := same_dir_half e q d0 S1 HQ). assert (H1 := same_dir_half e q d1 S2 HQ). assert (S3 : same_direction d0 d1) by (apply (same_dir_trans d0 q d1); auto; now apply same_dir_sym).
  assert (Pd : 0 < pdet p d0) by (apply (same_dir_pos q d0 p S1); auto). assert (Pd1 : 0 < pdet p d1) by (apply (same_dir_pos q d1 p S2); auto).
  assert (N0 : d0 <> (0, 0)) by (apply (pdet_nonzero_l _ e); lra). assert (N1 : d1 <> (0, 0)) by (apply (pdet_nonzero_l _ e); lra).
  split; [|split].
  - intros C. assert (C1 : 0 < pdet d1 w) by (apply (same_dir_pos d0 d1 w S3); auto). split; [lra|]. unfold node_ok. fold a. fold w.
    assert (0 < pdet p w) by (apply (hp_lt_le e p d0 w); auto; lra). repeat apply conj; auto; try lra; rewrite (same_dir_det _ _ S3); lra.
  - intros C. assert (Sw : same_direction d0 w) by (apply (hp_same e); auto; lra). repeat split; auto. fold b.
    destruct S1 as (r & Hr & E0). destruct Sw as (r' & Hr' & E1). exists (r' - / r). assert (Hw : pdet w e = r' * r * pdet q e) by (rewrite E1, E0; unfold pdet, pscale; cbn; ring).
    assert (G : 1 < r' * r) by nra. split.
    + apply (Rmult_lt_reg_r r); auto. rewrite Rmult_minus_distr_r, Rinv_l by lra. lra.
    + assert (Eq : q = pscale (/ r) d0) by (rewrite E0; clear - Hr; clearbody q; destruct q; unfold pscale; cbn; apply pt_eq; cbn [fst snd]; field; lra).
      assert (Eb : b = padd q (pneg w)) by (rewrite <- Ew; clear; clearbody b w; unfold padd, pneg; cbn; apply pt_eq; cbn [fst snd]; ring).
      rewrite Eb, Eq, E1. destruct d0. unfold padd, pneg, pscale; cbn. apply pt_eq; cbn [fst snd]; ring.
  - intros C. unfold node_end. fold b. rewrite Ew. repeat split; auto. apply (same_dir_pos q d0 w S1). rewrite pdet_swap. lra.
Qed.
Lemma step_flat p h d0 d1 : (h < n)%nat -> fF s (neg h) <> neg h -> node_flat p h d0 d1 -> d0 <> (0, 0) ->
  let w := padd p (vv s (fF s (neg h))) in 0 < pdet d0 w /\ 0 <= pdet d1 w /\ node_ok false p (fF s (neg h)) d0 d1.
Proof.
  intros Hh Nb (Sp & S1 & k & Hk & Ek) N0 w. destruct (across' p h Hh Nb) as [Ew Aw]. fold w in Ew. set (a := vv s (fF s (neg h))) in *. rewrite Ek in Aw.
  assert (A : 0 < pdet d0 a) by (replace (pdet a (pscale (- k) d0)) with (k * pdet d0 a) in Aw by (unfold pdet, pscale; cbn; ring); nra).
  assert (C : 0 < pdet d0 w) by (replace (pdet d0 w) with (pdet d0 p + pdet d0 a) by (unfold w, pdet, padd; cbn; ring); rewrite (same_dir_det _ _ Sp); lra).
  assert (C1 : 0 < pdet d1 w) by (apply (same_dir_pos d0 d1 w S1); auto). split; auto. split; [lra|]. unfold node_ok. fold a. fold w.
  assert (Z : pdet p d0 = 0) by (apply same_dir_det; now apply same_dir_sym). assert (Z1 : pdet p d1 = 0) by (apply same_dir_det; apply (same_dir_trans p d0 d1); auto; now apply same_dir_sym).
  repeat apply conj; auto; try lra; try discriminate; [apply (same_dir_pos d0 p w Sp); auto|apply (pdet_nonzero_l _ w); lra|rewrite (same_dir_det _ _ S1); lra].
Qed.

(** ** Everything that is found is behind the edge *)
Lemma hits_beyond p h v t : hits s p h v t -> (h < n)%nat -> 0 < pdet p (padd p (vv s h)) -> pdet p (padd p (vv s h)) < pdet v (vv s h).
Proof.
  induction 1 as [p h Nb C|p h v t Nb C H IH|p h v t Nb C H IH]; intros Hh D; destruct (across' p h Hh Nb) as [Ew Aw];
    set (e := vv s h) in *; set (q := padd p e) in *; set (a := vv s (fF s (neg h))) in *; set (w := padd p a) in *; set (b := vv s (fF s (fF s (neg h)))) in *.
  - replace (pdet w e) with (pdet p q + pdet a e) by (unfold w, q, pdet, padd; cbn; ring). lra.
  - assert (Hn : (neg h < n)%nat) by (apply (neg_ltn n (fT s)); auto; apply S0).
    pose proof (hits_crosses _ _ _ _ H) as [X Y]. fold a in Y. fold w in Y. destruct C as [C1 C2].
    assert (HP : pdet p e = pdet p q) by (unfold q, pdet, padd; cbn; ring). assert (HW : pdet w e = pdet p q + pdet a e) by (unfold w, q, pdet, padd; cbn; ring).
    assert (HV : 0 < pdet v e) by (replace (pdet v e) with (pdet v q + pdet p v) by (unfold q, pdet, padd; cbn; ring); fold e in C2; fold q in C2; lra).
    assert (Wp : 0 < pdet p w) by (apply (hp_lt_le e p v w); auto; lra).
    specialize (IH (fF_lt n s _ S0 Hn) Wp). fold a in IH. fold w in IH.
    assert (I : pdet v e * pdet p w = pdet p v * pdet w e + pdet v w * pdet p e) by (unfold pdet; ring).
    assert (J : pdet v a = pdet p v + pdet v w) by (unfold w, pdet, padd; cbn; ring). rewrite HW, HP in I. 
    assert (pdet v e * pdet p w > pdet p q * pdet p w) by nra. nra.
  - assert (Hn : (neg h < n)%nat) by (apply (neg_ltn n (fT s)); auto; apply S0).
    pose proof (hits_crosses _ _ _ _ H) as [X Y]. fold b in Y. rewrite Ew in Y. destruct C as [C1 C2].
    assert (HQ : pdet q e = pdet p q) by (unfold q, pdet, padd; cbn; ring). assert (HW : pdet w e = pdet p q + pdet a e) by (unfold w, q, pdet, padd; cbn; ring).
    assert (HV : 0 < pdet v e) by (replace (pdet v e) with (pdet v q + pdet p v) by (unfold q, pdet, padd; cbn; ring); lra).
    assert (Wq : 0 < pdet w q) by (apply (hp_lt_le e w v q); auto; lra).
    fold b in IH. rewrite Ew in IH. specialize (IH (fF_lt n s _ S0 (fF_lt n s _ S0 Hn)) Wq).
    assert (I : pdet v e * pdet w q = pdet w v * pdet q e + pdet v q * pdet w e) by (unfold pdet; ring).
    assert (J : pdet v b = pdet w v + pdet v q) by (rewrite <- Ew; unfold pdet, padd; cbn; ring). rewrite HW, HQ in I.
    assert (pdet v e * pdet w q > pdet p q * pdet w q) by nra. nra.
Qed.
(** ... and if all of the edge is outside a circle, then so is what is found. *)
Lemma outside_hits p h v t R2 : hits s p h v t -> (h < n)%nat -> 0 < pdet p (padd p (vv s h)) ->
  (forall x, 0 <= x <= 1 -> R2 < pdot (padd p (pscale x (vv s h))) (padd p (pscale x (vv s h)))) -> R2 < pdot v v.
Proof.
  intros H Hh D Out. pose proof (hits_beyond _ _ _ _ H Hh D) as B. pose proof (hits_crosses _ _ _ _ H) as [C1 C2]. set (e := vv s h) in *. set (q := padd p e) in *.
  assert (E : pdet v e = pdet p v + pdet v q) by (unfold q, pdet, padd; cbn; ring). set (x := pdet p v / pdet v e).
  assert (P : 0 < pdet v e) by lra. assert (Hx : 0 <= x <= 1).
  { unfold x. split; [apply Rlt_le, Rdiv_lt_0_compat; lra|]. apply (Rmult_le_reg_r (pdet v e)); auto. unfold Rdiv. rewrite Rmult_assoc, Rinv_l by lra. lra. }
  specialize (Out x Hx). set (k := pdet v e / pdet p q). assert (Hk : 1 < k). { unfold k. apply (Rmult_lt_reg_r (pdet p q)); auto. unfold Rdiv. rewrite Rmult_assoc, Rinv_l by lra. lra. }
  assert (Ev : v = pscale k (padd p (pscale x e))).
  { assert (Q1 : pdet v e <> 0) by lra. assert (Q2 : pdet p q <> 0) by lra. unfold k, x. clear - Q1 Q2 E.
    assert (X1 : fst v * pdet p q = pdet v e * fst p + pdet p v * fst e) by (unfold q, pdet, padd; cbn; ring).
    assert (X2 : snd v * pdet p q = pdet v e * snd p + pdet p v * snd e) by (unfold q, pdet, padd; cbn; ring).
    destruct v as [vx vy]. unfold pscale, padd; cbn [fst snd] in *. apply pt_eq; cbn [fst snd]; apply (Rmult_eq_reg_r (pdet p q)); auto; [rewrite X1|rewrite X2]; field; auto. }
  rewrite Ev. set (u := padd p (pscale x e)) in *. replace (pdot (pscale k u) (pscale k u)) with (k * k * pdot u u) by (unfold pdot, pscale; cbn; ring).
  assert (0 <= pdot u u) by (unfold pdot; nra). assert (1 < k * k) by nra. nra.
Qed.
End node.
