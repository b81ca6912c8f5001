(** * Properties of the angles at vertices and of the sectors *)
From Coq Require Import ZArith QArith Reals List Arith Bool Lia Lra Psatz Permutation.
From Verif Require Import Base HalfEdge HalfEdgeFacts Perm PermSpec PermFacts PermCycles PermLemmas IndexedSet Combinatorial CombinatorialSpec
  CombinatorialFacts CombinatorialHistory CombinatorialOps CombinatorialProps ExactReal Vector PlaneSpec Plane VectorFacts VectorProps
  FlatTri FlatSpec FlatFacts FlatSum FlatLinear FlatOps FlatDelaunay FlatAngle FlatSector FlatProps.
Import ListNotations.
Local Open Scope nat_scope.

(** ** C24: total angles *)
(** [angle] is the sum of the angles between consecutive half edges at the vertex, as a multiple of 2 pi; it is at least 1. *)
Theorem C24_total_angle : forall (K : ExactReal) n (s : flat K) v alpha, flat_surface n s -> In v (tverts (fT s)) -> inner_vertex s v ->
  corners n s v alpha ->
  exists k, angle s v = Ok k /\ 1 <= k /\ rsum (map alpha (members n v)) = (2 * PI * INR k)%R.
Proof. intros K n s v alpha S I N A. destruct (angle_total n s v alpha S I N A) as (k & E & L & T & _). eauto. Qed.
Print Assumptions C24_total_angle.

(** Gauss-Bonnet: the angles sum up to half the number of triangles. *)
Theorem C24_gauss_bonnet : forall (K : ExactReal) n (s : flat K) reps, flat_surface n s -> closed_surface n s -> one_per_triangle n s reps ->
  exists ks, omap (angle s) (tverts (fT s)) = Ok ks /\ length ks = length (tverts (fT s)) /\ (forall k, In k ks -> 1 <= k) /\
    2 * list_sum ks = length reps.
Proof.
  intros K n s reps S C O. destruct (gauss_bonnet n s S C) as (ks & E & T & L & P). exists ks. split; auto. split; auto. split; auto.
  assert (X := reps_count n s reps S C O). lia.
Qed.
Print Assumptions C24_gauss_bonnet.

(** Flips do not change the angles. The vertex at position [i] is still the same point: it contains the same half edges, except for the ones flipped. *)
Theorem C24_flips : forall (K : ExactReal) n (s s' : flat K) es, flat_surface n s -> closed_surface n s -> (forall e, In e es -> e < n) ->
  fflips s es = (s', Ok tt) ->
  length (tverts (fT s')) = length (tverts (fT s)) /\
  forall i, i < length (tverts (fT s)) ->
    angle s' (nth i (tverts (fT s')) []) = angle s (nth i (tverts (fT s)) []) /\
    forall h, (forall e, In e es -> h <> e /\ h <> neg e) ->
      scontains (nth i (tverts (fT s')) []) h = scontains (nth i (tverts (fT s)) []) h.
Proof. intros K n s s' es S C H E. exact (flips_angle n es s s' S C H E). Qed.
Print Assumptions C24_flips.

(** An L made from three squares: a single vertex of angle 6 pi. *)
Definition L_cycles : list (list nat) := [[0; 12; 6; 3; 15; 7; 4; 16; 10; 5; 13; 9; 2; 14; 8; 1; 17; 11]].
Definition L_t : tri := Eval vm_compute in match make_from_cycles L_cycles [] with Ok t => t | _ => torus_t end.
Definition L_vectors : list (vec ExactZ) := [zv 1 0; zv 1 0; zv 1 0; zv 0 1; zv 0 1; zv 0 1; zv 1 1; zv 1 1; zv 1 1].
Definition L_shape : outcome (flat ExactZ) := do t <- make_from_cycles L_cycles []; make_flat_list t L_vectors.
Definition L_s : flat ExactZ := mkFlat L_t
  [zv 1 0; zv (-1) 0; zv 1 0; zv (-1) 0; zv 1 0; zv (-1) 0; zv 0 1; zv 0 (-1); zv 0 1; zv 0 (-1); zv 0 1; zv 0 (-1);
   zv 1 1; zv (-1) (-1); zv 1 1; zv (-1) (-1); zv 1 1; zv (-1) (-1)].
Lemma L_wf : well_formed 18 L_t.
Proof. exact (proj1 (C07_construction_cycles L_cycles [] L_t eq_refl)). Qed.
Lemma L_suitable : suitable 18 L_t L_vectors.
Proof.
  split; [reflexivity|]. intros e He.
  do 18 (destruct e as [|e]; [intros _; cbn; unfold padd, pneg, pdet, vden; cbn; split; [f_equal; lra|lra]|]). lia.
Qed.
Lemma L_flat : L_shape = Ok L_s /\ flat_surface 18 L_s /\ closed_surface 18 L_s.
Proof.
  assert (F : L_shape = Ok L_s) by reflexivity. split; auto.
  destruct (proj1 (C19_constructor _ 18 L_t _ L_wf) L_suitable) as (s' & F'' & S & _).
  replace s' with L_s in S by (change (L_shape = Ok s') in F''; congruence). split; auto.
  intros e He. do 18 (destruct e as [|e]; [cbn; discriminate|]). lia.
Qed.
Lemma L_inner h : h < 18 -> inner_at L_s h.
Proof.
  intros Hh x (k & <-). apply L_flat. eapply (iter_lt 18 (fV L_s)); eauto. apply bijV. apply L_flat.
Qed.
Lemma L_vertex : tverts L_t = [repeat true 18].
Proof. reflexivity. Qed.

Example C24_ex : L_shape = Ok L_s /\ flat_surface 18 L_s /\ closed_surface 18 L_s /\
  In (repeat true 18) (tverts (fT L_s)) /\ inner_vertex L_s (repeat true 18) /\ (exists alpha, corners 18 L_s (repeat true 18) alpha) /\
  one_per_triangle 18 L_s [0; 12; 2; 14; 4; 16] /\ angle L_s (repeat true 18) = Ok 3 /\
  snd (fflips L_s [12; 14]) = Ok tt /\ nth 12 (fvec (fst (fflips L_s [12; 14]))) vzero = zv (-1) 1.
Proof.
  destruct L_flat as (F & S & C). split; [assumption|]. split; [assumption|]. split; [assumption|].
  assert (I : In (repeat true 18) (tverts (fT L_s))) by (left; reflexivity).
  assert (N : inner_vertex L_s (repeat true 18)) by (intros h Q; apply C; exact (vertex_lt 18 L_s _ h S I Q)).
  split; [assumption|]. split; [assumption|]. split; [exact (corners_exist 18 L_s _ S I N)|]. split.
  { split; [repeat constructor; cbn; intuition discriminate|]. split.
    - intros r J. split; [|apply C]; cbn in J; intuition lia.
    - split.
      + intros r J. cbn in J. repeat (destruct J as [<-|J]; [cbn; intuition discriminate|]). contradiction.
      + intros e He _. do 18 (destruct e as [|e]; [cbn; auto 20|]). lia. }
  split; [reflexivity|]. split; reflexivity.
Qed.

(** ** C25: sectors *)
(** [inSector] decides whether the direction is in the sector. *)
Theorem C25_in_sector : forall (K : ExactReal) n (s : flat K) h d, flat_surface n s -> h < n -> fF s h <> h -> vden d <> (0, 0)%R ->
  exists b, in_sector_at s h d = Ok b /\ (b = true <-> sector_contains s h (vden d)).
Proof.
  intros K n s h d S Hh N Hd. rewrite (in_sector_at_Ok n) by auto. eexists. split; [reflexivity|]. symmetry. now apply (contains_hits n).
Qed.
Print Assumptions C25_in_sector.

(** Each direction is in exactly [angle] many of the sectors at a vertex. *)
Theorem C25_cover : forall (K : ExactReal) n (s : flat K) v (d : pt), flat_surface n s -> In v (tverts (fT s)) -> inner_vertex s v -> d <> (0, 0)%R ->
  exists k l, angle s v = Ok k /\ NoDup l /\ length l = k /\ forall h, In h l <-> In h (members n v) /\ sector_contains s h d.
Proof. intros K n s v d. apply cover. Qed.
Print Assumptions C25_cover.

(** The half plane at a half edge consists of the directions with an angle of less than a quarter turn. *)
Theorem C25_in_half_plane : forall (K : ExactReal) n (s : flat K) h d, flat_surface n s -> h < n ->
  exists b, in_half_plane s h d = Ok b /\ (b = true <-> (0 < pdot (vv s h) (vden d))%R).
Proof.
  intros K n s h d S Hh. unfold in_half_plane. rewrite from_he_Ok by (now rewrite (fs_length n s S)). cbn [bind]. eexists. split; [reflexivity|].
  change (vv s h) with (vden (vat' s h)). pose proof (orientation_cases (vat' s h) d) as O. destruct (orientation (vat' s h) d); cbn; split; intros; try discriminate; auto; lra.
Qed.
Print Assumptions C25_in_half_plane.

(** The plane at a half edge consists of the directions that are not opposite to the half edge; [sector] finds the direction in this plane
    and throws when the direction is not in the plane. *)
Theorem C25_sector_plane : forall (K : ExactReal) n (s : flat K) h d fuel, flat_surface n s -> h < n -> inner_at s h -> vden d <> (0, 0)%R -> n + 1 < fuel ->
  (same_direction (pneg (vv s h)) (vden d) -> in_plane s h d = Ok false /\ sector_plane fuel s h d = Throw) /\
  (~ same_direction (pneg (vv s h)) (vden d) -> in_plane s h d = Ok true /\
    exists e, sector_plane fuel s h d = Ok e /\
    ((0 <= pdet (vv s h) (vden d))%R -> first_ccw s h (vden d) e) /\ ((pdet (vv s h) (vden d) < 0)%R -> first_cw s h (vden d) e)).
Proof.
  intros K n s h d fuel S Hh N Hd Lf. assert (Nh : fF s h <> h) by (apply N; now exists 0). pose proof (in_plane_Ok n s h d S Hh Nh Hd) as (b & P & B).
  split; intros X.
  - assert (b = false) as -> by (destruct b; auto; exfalso; now apply B). split; auto. unfold sector_plane. now rewrite P.
  - assert (b = true) as -> by now apply B. split; auto. now apply (sector_plane_Ok n).
Qed.
Print Assumptions C25_sector_plane.

(** Walking counterclockwise from a half edge. *)
Theorem C25_sector_counterclockwise : forall (K : ExactReal) n (s : flat K) h d fuel exclude, flat_surface n s -> h < n -> inner_at s h ->
  vden d <> (0, 0)%R -> n + 1 < fuel ->
  exists e, sector_turn fuel s h COUNTERCLOCKWISE d exclude = Ok e /\ turns_ccw s h (vden d) exclude e.
Proof. intros K n s h d fuel ex. apply sector_turn_ccw. Qed.
Print Assumptions C25_sector_counterclockwise.

(** Walking clockwise from a half edge. The full statement, without the last hypothesis, does not hold, see the next theorem. *)
Theorem C25_sector_clockwise_partial : forall (K : ExactReal) n (s : flat K) h d fuel exclude, flat_surface n s -> h < n -> inner_at s h ->
  vden d <> (0, 0)%R -> n + 1 < fuel ->
  ~ (sector_contains s h (vden d) /\ ~ same_direction (vv s h) (vden d)) ->
  exists e, sector_turn fuel s h CLOCKWISE d exclude = Ok e /\ turns_cw n s h (vden d) exclude e.
Proof. intros K n s h d fuel ex. apply turns_cw_Ok. Qed.
Print Assumptions C25_sector_clockwise_partial.

(** Contrary to its documentation, walking clockwise to a direction in the interior of the initial sector returns the initial sector. *)
Theorem C25_sector_clockwise_refuted : exists (s : flat ExactZ) h d fuel, flat_surface 18 s /\ h < 18 /\ inner_at s h /\ vden d <> (0, 0)%R /\ 18 + 1 < fuel /\
  sector_turn fuel s h CLOCKWISE d false = Ok h /\ ~ turns_cw 18 s h (vden d) false h.
Proof.
  exists L_s, 0, (zv 2 1), 20. split; [apply L_flat|]. split; [lia|]. split; [apply L_inner; lia|]. split; [cbn; intros Q; injection Q; lra|]. split; [lia|].
  split; [reflexivity|]. intros [_ H]. destruct H as (p & Hp & E & k & Ek & _ & M).
  - intros [(r & Hr & Q) _]. cbn in Q. injection Q. lra.
  - assert (p = 11) as -> by (do 18 (destruct p as [|p]; [cbn in E; (discriminate || reflexivity)|]); lia).
    destruct k as [|k]; [cbn in Ek; discriminate|].
    assert (Ck : forall j, j < 18 -> Nat.iter j (fV L_s) 0 = 11 -> j = 17).
    { intros j Hj. do 18 (destruct j as [|j]; [cbn; (discriminate || reflexivity)|]). lia. }
    (* the direction is also in the sector at 4 which is visited on the way to the half edge 0 *)
    assert (Hk : 17 <= Datatypes.S k).
    { destruct (Nat.lt_ge_cases (Datatypes.S k) 17) as [Q|Q]; auto. apply Ck in Ek; lia. }
    apply (M 6 ltac:(lia)). change (Nat.iter 6 (fV L_s) 0) with 4.
    apply (contains_hits 18); [apply L_flat|lia|cbn; discriminate|cbn; intros Q; injection Q; lra|].
    unfold hits, vv; cbn. unfold pdet; cbn. destruct (Rle_dec _ _); [|lra]. destruct (Rlt_dec _ _); [auto|lra].
Qed.
Print Assumptions C25_sector_clockwise_refuted.

(** Walking counterclockwise from a direction in the interior of a sector. *)
Theorem C25_sector_from_counterclockwise : forall (K : ExactReal) n (s : flat K) h v d fuel exclude, flat_surface n s -> h < n -> inner_at s h ->
  vden v <> (0, 0)%R -> vden d <> (0, 0)%R -> n + 1 < fuel -> sector_contains s h (vden v) ->
  exists e, sector_from fuel s h v COUNTERCLOCKWISE d exclude = Ok e /\ reaches_ccw s h (vden v) (vden d) exclude e.
Proof. intros K n s h v d fuel ex. apply sector_from_ccw. Qed.
Print Assumptions C25_sector_from_counterclockwise.

(** Walking clockwise. The full statement, without the last hypothesis, does not hold, see the next theorem. *)
Theorem C25_sector_from_clockwise_partial : forall (K : ExactReal) n (s : flat K) h v d fuel exclude, flat_surface n s -> h < n -> inner_at s h ->
  vden v <> (0, 0)%R -> vden d <> (0, 0)%R -> n + 1 < fuel -> sector_contains s h (vden v) ->
  ~ (sector_contains s h (vden d) /\ ~ same_direction (vv s h) (vden d) /\
     ((0 < pdet (vden v) (vden d))%R \/ (same_direction (vden v) (vden d) /\ exclude = true))) ->
  exists e, sector_from fuel s h v CLOCKWISE d exclude = Ok e /\ reaches_cw n s h (vden v) (vden d) exclude e.
Proof. intros K n s h v d fuel ex. apply sector_from_cw. Qed.
Print Assumptions C25_sector_from_clockwise_partial.

(** Walking clockwise to a direction that is counterclockwise from the start in the same sector stops immediately instead of walking around the vertex. *)
Theorem C25_sector_from_clockwise_refuted : exists (s : flat ExactZ) h v d fuel, flat_surface 18 s /\ h < 18 /\ inner_at s h /\
  vden v <> (0, 0)%R /\ vden d <> (0, 0)%R /\ 18 + 1 < fuel /\ sector_contains s h (vden v) /\
  sector_from fuel s h v CLOCKWISE d false = Ok h /\ ~ reaches_cw 18 s h (vden v) (vden d) false h.
Proof.
  exists L_s, 0, (zv 3 1), (zv 2 1), 20. split; [apply L_flat|]. split; [lia|]. split; [apply L_inner; lia|]. split; [cbn; intros Q; injection Q; lra|].
  split; [cbn; intros Q; injection Q; lra|]. split; [lia|]. split.
  { apply (contains_hits 18); [apply L_flat|lia|cbn; discriminate|cbn; intros Q; injection Q; lra|].
    unfold hits, vv; cbn. unfold pdet; cbn. destruct (Rle_dec _ _); [|lra]. destruct (Rlt_dec _ _); [auto|lra]. }
  split; [reflexivity|]. intros [_ H]. destruct H as (p & Hp & E & k & Ek & _ & M).
  - intros (_ & [Q|[(r & Hr & Q) _]]); [unfold pdet in Q; cbn in Q; lra|]. cbn in Q. injection Q. lra.
  - assert (p = 11) as -> by (do 18 (destruct p as [|p]; [cbn in E; (discriminate || reflexivity)|]); lia).
    destruct k as [|k]; [cbn in Ek; discriminate|].
    assert (Ck : forall j, j < 18 -> Nat.iter j (fV L_s) 0 = 11 -> j = 17).
    { intros j Hj. do 18 (destruct j as [|j]; [cbn; (discriminate || reflexivity)|]). lia. }
    assert (Hk : 17 <= Datatypes.S k).
    { destruct (Nat.lt_ge_cases (Datatypes.S k) 17) as [Q|Q]; auto. apply Ck in Ek; lia. }
    apply (M 6 ltac:(lia)). change (Nat.iter 6 (fV L_s) 0) with 4.
    apply (contains_hits 18); [apply L_flat|lia|cbn; discriminate|cbn; intros Q; injection Q; lra|].
    unfold hits, vv; cbn. unfold pdet; cbn. destruct (Rle_dec _ _); [|lra]. destruct (Rlt_dec _ _); [auto|lra].
Qed.
Print Assumptions C25_sector_from_clockwise_refuted.

(** There is no walking in collinear direction; the start must be in the given sector. *)
Theorem C25_sector_rejected : forall (K : ExactReal) n (s : flat K) h v c d fuel exclude, flat_surface n s -> h < n -> fF s h <> h -> vden v <> (0, 0)%R ->
  sector_turn fuel s h COLLINEAR d exclude = Throw /\ sector_from fuel s h v COLLINEAR d exclude = Throw /\
  (~ sector_contains s h (vden v) -> sector_from fuel s h v c d exclude = Throw).
Proof.
  intros K n s h v c d fuel ex S Hh N Hv. split; [reflexivity|]. split; [reflexivity|]. intros C. unfold sector_from. destruct (ccw_eqb c COLLINEAR); auto.
  rewrite (in_sector_at_Ok n) by auto. rewrite (contains_hits n) in C by auto. apply not_true_is_false in C. rewrite C. reflexivity.
Qed.
Print Assumptions C25_sector_rejected.

(** On the L, there are three sectors with the direction (2, 1); all can be found. *)
Example C25_ex : flat_surface 18 L_s /\ inner_at L_s 0 /\ inner_at L_s 8 /\ vden (zv 2 1) <> (0, 0)%R /\ sector_contains L_s 0 (vden (zv 2 1)) /\
  filter (fun h => match in_sector_at L_s h (zv 2 1) with Ok b => b | _ => false end) (seq 0 18) = [0; 2; 4] /\
  sector_plane 20 L_s 8 (zv 2 1) = Ok 2 /\ sector_plane 20 L_s 8 (zv 0 (-1)) = Throw /\
  sector_turn 20 L_s 0 COUNTERCLOCKWISE (zv 1 0) true = Ok 4 /\ sector_turn 20 L_s 0 COUNTERCLOCKWISE (zv 2 1) false = Ok 0 /\
  sector_turn 20 L_s 12 CLOCKWISE (zv 1 0) false = Ok 0 /\ sector_turn 20 L_s 0 CLOCKWISE (zv 1 0) true = Ok 2 /\
  sector_from 20 L_s 0 (zv 3 1) COUNTERCLOCKWISE (zv 4 1) false = Ok 4 /\ sector_from 20 L_s 0 (zv 3 1) COUNTERCLOCKWISE (zv 2 1) false = Ok 0.
Proof.
  split; [apply L_flat|]. split; [apply L_inner; lia|]. split; [apply L_inner; lia|]. split; [cbn; intros Q; injection Q; lra|].
  split.
  { apply (contains_hits 18); [apply L_flat|lia|cbn; discriminate|cbn; intros Q; injection Q; lra|].
    unfold hits, vv; cbn. unfold pdet; cbn. destruct (Rle_dec _ _); [|lra]. destruct (Rlt_dec _ _); [auto|lra]. }
  do 8 (split; [reflexivity|]). reflexivity.
Qed.
