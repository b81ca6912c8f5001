(** * Theorems about intersections with half edges (C52) *)
From Coq Require Import ZArith Reals List Arith Bool Lia Lra Psatz.
From Verif Require Import Base HalfEdge ExactReal Vector PlaneSpec VectorFacts VectorProps FlatTri FlatSpec FlatFacts FlatProps Intersection.
Import ListNotations.
Local Open Scope R_scope.

(** ** Specification *)
(** The line through [b] with direction [d] meets the inside of the segment from the origin to [h] at [t h]. *)
Definition meets (h b d : R * R) (t : R) : Prop :=
  0 < t < 1 /\ pdet h d <> 0 /\ exists l, padd b (pscale l d) = pscale t h.
(** The half edge of an intersection meets its line at the relative position [t]. *)
Definition position {K : ExactReal} n (i : intersection K) (t : R) : Prop :=
  flat_surface n (isurface i) /\ (ihalf_edge i < n)%nat /\ meets (vv (isurface i) (ihalf_edge i)) (vden (ibase i)) (vden (idirection i)) t.

Lemma relative_spec (K : ExactReal) n (i : intersection K) t : position n i t ->
  exists a b, relative i = Ok (a, b) /\ den a = t * den b /\
    den b = - pdet (vv (isurface i) (ihalf_edge i)) (vden (idirection i)) *
      (if Req_EM_T (fst (vv (isurface i) (ihalf_edge i))) 0 then snd (vv (isurface i) (ihalf_edge i)) else fst (vv (isurface i) (ihalf_edge i))).
Proof.
  intros (S & Hh & (T & D & l & E)). unfold relative, projective. rewrite from_he_Ok by (rewrite (fs_length n _ S); auto). cbn [bind].
  change (vv (isurface i) (ihalf_edge i)) with (vden (vat' (isurface i) (ihalf_edge i))) in *. set (h := vat' (isurface i) (ihalf_edge i)) in *.
  set (b := ibase i) in *. set (d := idirection i) in *. clearbody h b d. unfold vden, padd, pscale, pdet in *. cbn [fst snd] in *. injection E as E1 E2.
  set (x := (rofZ 0 * vx d - (vy d * vx b - vx d * vy b) * vx h)%X). set (y := ((vy d * vx b - vx d * vy b) * - vy h - rofZ 0 * - vy d)%X).
  set (w := (vx h * - vy d - - vy h * vx d)%X).
  assert (X : den x = t * (den (vy h) * den (vx d) - den (vx h) * den (vy d)) * den (vx h)).
  { unfold x. rewrite !den_sub, !den_mul, den_sub, !den_mul, den_ofZ.
    replace (den (vx b)) with (t * den (vx h) - l * den (vx d)) by lra. replace (den (vy b)) with (t * den (vy h) - l * den (vy d)) by lra. ring. }
  assert (Y : den y = t * (den (vy h) * den (vx d) - den (vx h) * den (vy d)) * den (vy h)).
  { unfold y. rewrite !den_sub, !den_mul, den_sub, !den_mul, !den_opp, den_ofZ.
    replace (den (vx b)) with (t * den (vx h) - l * den (vx d)) by lra. replace (den (vy b)) with (t * den (vy h) - l * den (vy d)) by lra. ring. }
  assert (W : den w = den (vy h) * den (vx d) - den (vx h) * den (vy d)) by (unfold w; rewrite den_sub, !den_mul, !den_opp; ring).
  pose proof (reqb_spec K x (rofZ 0)) as Q. rewrite den_ofZ, X in Q.
  destruct (Req_EM_T (den (vx h)) 0) as [Z|Z].
  - replace (reqb x (rofZ 0)) with true by (symmetry; apply Q; rewrite Z; ring). cbn [negb].
    exists y, (w * vy h)%X. split; auto. rewrite den_mul, Y, W. split; ring.
  - replace (reqb x (rofZ 0)) with false.
    2: { symmetry. destruct (reqb x (rofZ 0)); auto. destruct Q as [Q _]. specialize (Q eq_refl). exfalso.
         apply Rmult_integral in Q as [Q|Q]; [|contradiction]. apply Rmult_integral in Q as [Q|Q]; lra. }
    cbn [negb]. exists x, (w * vx h)%X. split; auto. rewrite den_mul, X, W. split; ring.
Qed.

(** ** C52: the order of intersections *)
(** The reported fraction is the position on the half edge. *)
Theorem C52_relative : forall (K : ExactReal) n (i : intersection K) t, position n i t ->
  exists a b, relative i = Ok (a, b) /\ den b <> 0 /\ den a / den b = t.
Proof.
  intros K n i t P. destruct (relative_spec K n i t P) as (a & b & E & A & B). exists a, b. split; auto.
  destruct P as (_ & _ & _ & D & _). assert (N : den b <> 0).
  { rewrite B. apply Rmult_integral_contrapositive_currified; [lra|]. intros C. apply D. revert C.
    destruct (vv (isurface i) (ihalf_edge i)) as [x y]. unfold pdet; cbn. destruct (Req_EM_T x 0) as [->|]; [intros ->; ring|contradiction]. }
  split; auto. rewrite A. field. auto.
Qed.
Print Assumptions C52_relative.

Lemma ltb_spec (K : ExactReal) n (i j : intersection K) t u : isurface i = isurface j -> ihalf_edge i = ihalf_edge j ->
  position n i t -> position n j u ->
  exists r, intersection_ltb i j = Ok r /\
    let d := pdet (vv (isurface i) (ihalf_edge i)) (vden (idirection i)) * pdet (vv (isurface i) (ihalf_edge i)) (vden (idirection j)) in
    (0 < d -> (r = true <-> t < u)) /\ (d < 0 -> (r = true <-> u < t)).
Proof.
  intros ES EH P Q. destruct (relative_spec K n i t P) as (a & b & E & A & B). destruct (relative_spec K n j u Q) as (c & d & F & C & D).
  unfold intersection_ltb. rewrite E, F. cbn [bind]. rewrite <- ES, <- EH in *. eexists. split; [reflexivity|]. cbv zeta.
  pose proof (rltb_spec K (a * d)%X (c * b)%X) as R. rewrite !den_mul, A, C in R. rewrite R.
  destruct P as (_ & _ & _ & N & _). set (h := vv (isurface i) (ihalf_edge i)) in *.
  set (k := if Req_EM_T (fst h) 0 then snd h else fst h) in *.
  assert (K0 : 0 < k * k).
  { assert (k <> 0); [|nra]. unfold k. destruct (Req_EM_T (fst h) 0) as [Z|Z]; auto. intros Z'. apply N. unfold pdet. rewrite Z, Z'. ring. }
  set (x := pdet h (vden (idirection i))) in *. set (y := pdet h (vden (idirection j))) in *. rewrite B, D. clearbody x y k. clear - K0.
  split; intros H; (assert (M : (x * y) * (k * k) < 0 \/ 0 < (x * y) * (k * k)) by (destruct (Rlt_dec 0 (x * y)); [right|left]; nra)); split; intros L; nra.
Qed.

(** Intersections with lines that cross the half edge from the same side are ordered by their positions. *)
Theorem C52_order : forall (K : ExactReal) n (i j : intersection K) t u, isurface i = isurface j -> ihalf_edge i = ihalf_edge j ->
  position n i t -> position n j u ->
  0 < pdet (vv (isurface i) (ihalf_edge i)) (vden (idirection i)) * pdet (vv (isurface i) (ihalf_edge i)) (vden (idirection j)) ->
  exists r, intersection_ltb i j = Ok r /\ (r = true <-> t < u).
Proof.
  intros K n i j t u ES EH P Q D. destruct (ltb_spec K n i j t u ES EH P Q) as (r & E & A & _). exists r. split; auto.
Qed.
Print Assumptions C52_order.

(** If the lines cross the half edge from different sides then the order is the other way round. *)
Theorem C52_reversed : forall (K : ExactReal) n (i j : intersection K) t u, isurface i = isurface j -> ihalf_edge i = ihalf_edge j ->
  position n i t -> position n j u ->
  pdet (vv (isurface i) (ihalf_edge i)) (vden (idirection i)) * pdet (vv (isurface i) (ihalf_edge i)) (vden (idirection j)) < 0 ->
  exists r, intersection_ltb i j = Ok r /\ (r = true <-> u < t).
Proof.
  intros K n i j t u ES EH P Q D. destruct (ltb_spec K n i j t u ES EH P Q) as (r & E & _ & A). exists r. split; auto.
Qed.
Print Assumptions C52_reversed.

Theorem C52_refuted : exists (i j : intersection ExactZ) t u, isurface i = isurface j /\ ihalf_edge i = ihalf_edge j /\
  position 6 i t /\ position 6 j u /\ t < u /\ intersection_ltb i j = Ok false /\ intersection_ltb j i = Ok true.
Proof.
  destruct (proj2 sheared_flat) as [S _].
  exists (mkIntersection sheared_s (zv 0 (-1)) 5%nat (zv 1 2)), (mkIntersection sheared_s (zv 2 1) 5%nat (zv 0 (-1))), (1 / 7), (1 / 2).
  split; [reflexivity|]. split; [reflexivity|]. unfold position, meets; cbn. unfold pdet, padd, pscale; cbn.
  split; [|split; [|split; [lra|split; reflexivity]]].
  - split; auto. split; [lia|]. split; [lra|]. split; [lra|]. exists (4 / 7). f_equal; lra.
  - split; auto. split; [lia|]. split; [lra|]. split; [lra|]. exists (1 / 2). f_equal; lra.
Qed.
Print Assumptions C52_refuted.

Example C52_ex : position 6 (mkIntersection sheared_s (zv 0 (-1)) 5%nat (zv 1 2)) (1 / 7) /\
  position 6 (mkIntersection sheared_s (zv 2 0) 5%nat (zv 0 1)) (1 / 2) /\
  0 < pdet (vv sheared_s 5) (vden (zv 1 2)) * pdet (vv sheared_s 5) (vden (zv 0 1)) /\
  intersection_ltb (mkIntersection sheared_s (zv 0 (-1)) 5%nat (zv 1 2)) (mkIntersection sheared_s (zv 2 0) 5%nat (zv 0 1)) = Ok true /\
  intersection_ltb (mkIntersection sheared_s (zv 2 0) 5%nat (zv 0 1)) (mkIntersection sheared_s (zv 0 (-1)) 5%nat (zv 1 2)) = Ok false.
Proof.
  destruct (proj2 sheared_flat) as [S _]. unfold position, meets; cbn. unfold pdet, padd, pscale; cbn. split; [|split; [|split; [lra|split; reflexivity]]].
  - split; auto. split; [lia|]. split; [lra|]. split; [lra|]. exists (4 / 7). f_equal; lra.
  - split; auto. split; [lia|]. split; [lra|]. split; [lra|]. exists (1 / 2). f_equal; lra.
Qed.
