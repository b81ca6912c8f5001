(** * Angles at vertices *)
From Coq Require Import ZArith Reals List Arith Bool Lia Lra Psatz Permutation.
From Verif Require Import Base HalfEdge HalfEdgeFacts Perm PermSpec PermFacts PermCycles PermLemmas
  IndexedSet IndexedSetSpec IndexedSetFacts Combinatorial CombinatorialSpec CombinatorialFacts CombinatorialFlip
  CombinatorialHistory CombinatorialOps ExactReal Vector PlaneSpec Plane VectorFacts FlatTri FlatSpec FlatFacts FlatSum FlatDelaunay.
Import ListNotations.
Local Open Scope R_scope.

(** ** Rotations *)
Lemma protate_add x y v : protate x (protate y v) = protate (x + y) v.
Proof. unfold protate; cbn [fst snd]. rewrite cos_plus, sin_plus. f_equal; ring. Qed.
Lemma protate_scale x r v : protate x (pscale r v) = pscale r (protate x v).
Proof. unfold protate, pscale; cbn [fst snd]. f_equal; ring. Qed.
Lemma pscale_scale a b v : pscale a (pscale b v) = pscale (a * b) v.
Proof. unfold pscale; cbn [fst snd]. f_equal; ring. Qed.
Lemma protate_period x v : protate (x + 2 * PI) v = protate x v.
Proof.
  unfold protate. rewrite cos_plus, sin_plus, cos_2PI, sin_2PI. f_equal; ring.
Qed.

Lemma turn_add u v w a b : turn u v a -> turn v w b -> a + b < 2 * PI -> turn u w (a + b).
Proof.
  intros ((A0 & A1) & r & Hr & ->) ((B0 & B1) & q & Hq & ->) L. split; [lra|]. exists (q * r). split; [nra|].
  rewrite protate_scale, protate_add, pscale_scale. f_equal. f_equal. lra.
Qed.

(** How the angle to a fixed direction [d] changes when turning from [v] to [w]. *)
Lemma turn_step v w d b a c : v <> (0, 0) -> turn v d b -> turn v w a -> turn w d c ->
  c = b - a + (if Rlt_dec b a then 2 * PI else 0).
Proof.
  intros Hv (B & r & Hr & Ed) (A & q & Hq & Ew) T. assert (Hw : w <> (0, 0)). { apply (turn_nonzero v w a); auto. split; eauto. }
  apply (turn_unique w d); auto.
  assert (X : d = pscale (r / q) (protate (b - a) w)).
  { rewrite Ew, protate_scale, protate_add, pscale_scale, Ed. f_equal; [field; lra|]. f_equal. lra. }
  assert (0 < r / q) by (apply Rdiv_lt_0_compat; auto).
  destruct (Rlt_dec b a); (split; [lra|]); exists (r / q); split; auto.
  - now rewrite protate_period.
  - now rewrite Rplus_0_r.
Qed.

Lemma turn_pos u v a : turn u v a -> u <> (0, 0) -> 0 < pdet u v -> 0 < a < PI.
Proof.
  intros T Hu D. destruct (turn_dot u v a T) as (r & Hr & _ & E). rewrite E in D. apply pdot_pos in Hu.
  apply sin_pos_iff; [apply T|]. assert (0 < r * pdot u u) by nra. nra.
Qed.

Lemma in_sector_angles d u w b a : u <> (0, 0) -> turn u d b -> turn u w a -> 0 < a -> (in_sector d u w <-> b < a).
Proof.
  intros Hu B A P. split.
  - intros (x & y & X & Y & H). rewrite (turn_unique u d x b Hu X B), (turn_unique u w y a Hu Y A) in H. lra.
  - intros L. exists b, a. auto.
Qed.

Lemma det_nonzero u v : 0 < pdet u v -> u <> (0, 0) /\ v <> (0, 0).
Proof. intros D. split; intros ->; unfold pdet in D; cbn in D; lra. Qed.

(** A direction is in the sector from [u] to [w] when these turn counterclockwise by less than pi. *)
Definition hits (d u w : pt) : bool :=
  if Rle_dec 0 (pdet u d) then if Rlt_dec (pdet w d) 0 then true else false else false.
Lemma hits_spec d u w : d <> (0, 0) -> 0 < pdet u w -> (hits d u w = true <-> in_sector d u w).
Proof.
  intros Hd D. destruct (det_nonzero u w D). rewrite in_sector_signs by auto. unfold hits, sector_by_signs.
  assert (pdet w d = - pdet d w) by (unfold pdet; ring).
  destruct (Rle_dec 0 (pdet u d)), (Rlt_dec (pdet w d) 0); split; intros Q; try discriminate; auto; try (exfalso; lra).
  left. lra.
Qed.

Lemma choice_fin (P : nat -> R -> Prop) n : (forall h, (h < n)%nat -> exists a, P h a) -> exists f, forall h, (h < n)%nat -> P h (f h).
Proof.
  induction n as [|n IH]; intros H; [exists (fun _ => 0); intros; lia|].
  destruct IH as (f & Hf); [auto|]. destruct (H n) as (a & Ha); [lia|].
  exists (fun h => if (h =? n)%nat then a else f h). intros h L. destruct (Nat.eqb_spec h n); subst; auto. apply Hf. lia.
Qed.

Lemma count_sum {A} (p : A -> bool) l : INR (length (filter p l)) = rsum (map (fun x => if p x then 1 else 0) l).
Proof. induction l as [|a l IH]; [reflexivity|]. cbn [filter map rsum]. destruct (p a); cbn [length]; rewrite ?S_INR, IH; lra. Qed.

Lemma Permutation_filter' {A} (p : A -> bool) l r : Permutation l r -> Permutation (filter p l) (filter p r).
Proof.
  induction 1 as [|x l r H IH|x y l|l m r H1 IH1 H2 IH2]; cbn; auto.
  - destruct (p x); auto.
  - destruct (p x), (p y); auto using perm_swap.
  - eapply perm_trans; eauto.
Qed.

Section flat.
Context {K : ExactReal}.
Implicit Types (s : flat K) (n e h : nat).
Local Open Scope nat_scope.


Lemma bijV n s : flat_surface n s -> bijection n (fV s) (pV (fT s)).
Proof. intros S. destruct (wfV _ _ (fs_wf n s S)) as (_ & _ & B). exact B. Qed.
Lemma fV_lt n s h : flat_surface n s -> h < n -> fV s h < n.
Proof. intros S. apply (nV_lt n (fT s)). apply S. Qed.

Lemma fV_eq n s h : flat_surface n s -> h < n -> fF s h <> h -> fV s h = neg (fF s (fF s h)).
Proof. intros S Hh N. apply (nV_link' n (fT s)); auto. apply S. Qed.
Lemma vv_fV n s h : flat_surface n s -> h < n -> fF s h <> h -> vv s (fV s h) = pneg (vv s (fF s (fF s h))).
Proof. intros S Hh N. rewrite (fV_eq n) by auto. apply (fs_odd n); auto. repeat apply (fF_lt n); auto. Qed.

Lemma corner_det n s h : flat_surface n s -> h < n -> fF s h <> h -> (0 < pdet (vv s h) (vv s (fV s h)))%R.
Proof.
  intros S Hh N. rewrite (vv_fV n) by auto. destruct (fs_flat n s S h Hh N) as [Z D].
  destruct (vv s h) as [x y], (vv s (fF s h)) as [x' y'], (vv s (fF s (fF s h))) as [x'' y''].
  unfold padd, pdet, pneg in *; cbn in *. injection Z as Z1 Z2. assert (x'' = (- x - x')%R) by lra. assert (y'' = (- y - y')%R) by lra. subst. lra.
Qed.

Lemma members_In n v h : In h (members n v) <-> h < n /\ scontains v h = true.
Proof. unfold members. rewrite filter_In, in_seq. intuition lia. Qed.
Lemma members_NoDup n v : NoDup (members n v).
Proof. apply NoDup_filter, seq_NoDup. Qed.

Definition is_vertex s v : Prop := exists i, i < length (tverts (fT s)) /\ v = nth i (tverts (fT s)) [].
Lemma is_vertex_In s v : In v (tverts (fT s)) <-> is_vertex s v.
Proof.
  split.
  - intros I. destruct (In_nth _ _ [] I) as (i & Hi & E). exists i. auto.
  - intros (i & Hi & ->). now apply nth_In.
Qed.

Lemma vertex_same n s v x y : flat_surface n s -> In v (tverts (fT s)) -> scontains v x = true ->
  (scontains v y = true <-> x < n /\ y < n /\ same_vertex (fT s) x y).
Proof. intros S I. apply is_vertex_In in I as (i & Hi & ->). destruct (wf_vertices _ _ (fs_wf n s S)) as (_ & _ & _ & X). now apply X. Qed.
Lemma vertex_lt n s v x : flat_surface n s -> In v (tverts (fT s)) -> scontains v x = true -> x < n.
Proof. intros S I C. apply (vertex_same n s v x x) in C as Q; auto. tauto. Qed.
Lemma vertex_nonempty n s v : flat_surface n s -> In v (tverts (fT s)) -> exists x, x < n /\ scontains v x = true.
Proof. intros S I. apply is_vertex_In in I as (i & Hi & ->). destruct (wf_vertices _ _ (fs_wf n s S)) as (_ & X & _ & _). now apply X. Qed.
Lemma vertex_next n s v x : flat_surface n s -> In v (tverts (fT s)) -> x < n -> scontains v (fV s x) = scontains v x.
Proof.
  intros S I Hx. assert (B := bijV n s S). assert (S1 : same_vertex (fT s) x (fV s x)) by (exists 1; auto).
  assert (S2 : same_vertex (fT s) (fV s x) x) by (apply (same_iter_sym n (fV s) (pV (fT s))); auto).
  apply eq_true_iff_eq. split; intros C; apply (vertex_same n s v _ _ S I C); (split; [|split]); auto; now apply fV_lt.
Qed.

(** The sum over the half edges at a vertex does not change when turning each half edge to the next. *)
Lemma sum_next n s v (f : nat -> R) : flat_surface n s -> In v (tverts (fT s)) ->
  rsum (map (fun h => f (fV s h)) (members n v)) = rsum (map f (members n v)).
Proof.
  intros S I. unfold members. rewrite !rsum_filter.
  rewrite <- (reindex n (fV s) (pV (fT s)) (fun x => if scontains v x then f x else 0%R)) by now apply bijV.
  apply rsum_ext. intros x J. apply in_seq in J. rewrite (vertex_next n s v x) by (auto; lia). reflexivity.
Qed.


(** The total angle is 2 pi times the number of sectors that contain a direction. *)
Lemma total_angle n s v (alpha : nat -> R) d : flat_surface n s -> In v (tverts (fT s)) -> inner_vertex s v ->
  (forall h, scontains v h = true -> turn (vv s h) (vv s (fV s h)) (alpha h)) -> d <> (0, 0)%R ->
  rsum (map alpha (members n v)) = (2 * PI * INR (length (filter (fun h => hits d (vv s h) (vv s (fV s h))) (members n v))))%R.
Proof.
  intros S I N A Hd.
  assert (Lt : forall h, scontains v h = true -> h < n) by (intros; eapply vertex_lt; eauto).
  assert (Dt : forall h, scontains v h = true -> (0 < pdet (vv s h) (vv s (fV s h)))%R) by (intros; apply (corner_det n); auto).
  assert (Nz : forall h, scontains v h = true -> vv s h <> (0, 0)%R) by (intros h C; apply (det_nonzero _ _ (Dt h C))).
  destruct (choice_fin (fun h b => scontains v h = true -> turn (vv s h) d b) n) as (b & B).
  { intros h Hh. destruct (scontains v h) eqn:C; [|exists 0%R; discriminate]. destruct (turn_exists (vv s h) d) as (x & X); eauto. }
  assert (St : forall h, In h (members n v) ->
    alpha h = ((b h + -1 * b (fV s h)) + 2 * PI * (if hits d (vv s h) (vv s (fV s h)) then 1 else 0))%R).
  { intros h J. apply members_In in J as [Hh C].
    assert (C' : scontains v (fV s h) = true) by (rewrite (vertex_next n) by auto; auto).
    assert (Hn := fV_lt n s h S Hh).
    rewrite (turn_step (vv s h) (vv s (fV s h)) d (b h) (alpha h) (b (fV s h))) by auto.
    destruct (turn_pos _ _ _ (A h C) (Nz h C) (Dt h C)) as [P _].
    pose proof (hits_spec d (vv s h) (vv s (fV s h)) Hd (Dt h C)) as Hs.
    rewrite (in_sector_angles d (vv s h) _ (b h) (alpha h)) in Hs by auto.
    destruct (hits d (vv s h) (vv s (fV s h))), (Rlt_dec (b h) (alpha h)); first [lra | exfalso; intuition congruence]. }
  rewrite (rsum_ext _ _ _ St), !rsum_plus, rsum_scale. rewrite (rsum_scale (2 * PI)%R).
  rewrite (sum_next n s v b S I), count_sum. lra.
Qed.

(** ** The loop of angle() *)
Definition crossing s h : bool := negb (rltb (vx (vat' s h)) (rofZ 0)) && rltb (vx (vat' s (fV s h))) (rofZ 0).

Lemma crossing_hits n s h : flat_surface n s -> h < n -> crossing s h = hits (0, 1)%R (vv s h) (vv s (fV s h)).
Proof.
  intros S Hh. unfold crossing, hits, vv, vat', vden, pdet. cbn [fst snd].
  remember (nth h (fvec s) vzero) as u. remember (nth (fV s h) (fvec s) vzero) as w.
  replace (den (vx u) * 1 - den (vy u) * 0)%R with (den (vx u)) by ring.
  replace (den (vx w) * 1 - den (vy w) * 0)%R with (den (vx w)) by ring.
  pose proof (rltb_spec K (vx u) (rofZ 0)) as X. pose proof (rltb_spec K (vx w) (rofZ 0)) as Y. rewrite den_ofZ in X, Y.
  destruct (rltb (vx u) (rofZ 0)), (rltb (vx w) (rofZ 0)), (Rle_dec 0 (den (vx u))), (Rlt_dec (den (vx w)) 0); cbn; auto; exfalso;
    try (destruct X as [X _]; specialize (X eq_refl); lra); try (destruct Y as [Y _]; specialize (Y eq_refl); lra);
    try (destruct X as [_ X]; assert (Q : false = true) by (apply X; lra); discriminate);
    try (destruct Y as [_ Y]; assert (Q : false = true) by (apply Y; lra); discriminate).
Qed.

Lemma angle_loop_Ok n s t k : flat_surface n s -> t < n -> period (fV s) t k ->
  forall fuel j acc, j < k -> k - j <= fuel ->
    angle_loop fuel s t (Nat.iter j (fV s) t) acc =
    Ok (acc + length (filter (crossing s) (map (fun i => Nat.iter i (fV s) t) (seq j (k - j))))).
Proof.
  intros S Ht (P0 & P1 & P2). assert (W := fs_wf n s S).
  assert (L : forall j, Nat.iter j (fV s) t < n). { intros j. eapply iter_lt; eauto. apply (bijV n s S). }
  induction fuel as [|fuel IH]; intros j acc Hj Hf; [lia|].
  cbn [angle_loop]. rewrite (nextV_Ok n) by auto. cbn [bind]. rewrite !from_he_Ok; cbn [bind].
  2: { rewrite (fs_length n s S). apply (fV_lt n s _ S (L j)). } 2: { rewrite (fs_length n s S). apply L. }
  fold (fV s (Nat.iter j (fV s) t)).
  fold (crossing s (Nat.iter j (fV s) t)).
  change (fV s (Nat.iter j (fV s) t)) with (Nat.iter (Datatypes.S j) (fV s) t).
  replace (k - j) with (Datatypes.S (k - Datatypes.S j)) by lia. cbn [seq map filter].
  destruct (Nat.eqb_spec (Nat.iter (Datatypes.S j) (fV s) t) t) as [E|E].
  - assert (Datatypes.S j = k) as <-. { destruct (Nat.eq_dec (Datatypes.S j) k); auto. exfalso. apply (P2 (Datatypes.S j)); auto. lia. }
    rewrite Nat.sub_diag. cbn [seq map filter]. destruct (crossing s _); cbn [length]; f_equal; lia.
  - assert (Datatypes.S j <> k) by (intros <-; contradiction).
    rewrite IH by lia. destruct (crossing s _); cbn [length]; f_equal; lia.
Qed.

Lemma orbit_members n s v t k : flat_surface n s -> In v (tverts (fT s)) -> scontains v t = true -> t < n -> period (fV s) t k ->
  Permutation (orbit_list (fV s) t k) (members n v).
Proof.
  intros S I C Ht P. apply NoDup_Permutation; [eapply orbit_list_NoDup; eauto; now apply bijV|apply members_NoDup|].
  intros x. rewrite members_In. split.
  - intros J. apply orbit_list_In in J as (i & Hi & <-). assert (L : Nat.iter i (fV s) t < n) by (eapply iter_lt; eauto; apply (bijV n s S)).
    split; auto. apply (vertex_same n s v t _ S I C). split; auto. split; auto. exists i. auto.
  - intros [Hx Cx]. apply (vertex_same n s v t _ S I C) in Cx as (_ & _ & (i & <-)).
    apply orbit_list_iter; auto. apply orbit_list_In. exists 0. split; auto. apply P.
Qed.

Lemma angle_Ok n s v : flat_surface n s -> In v (tverts (fT s)) ->
  angle s v = Ok (length (filter (fun h => hits (0, 1)%R (vv s h) (vv s (fV s h))) (members n v))).
Proof.
  intros S I. assert (W := fs_wf n s S). destruct (vertex_nonempty n s v S I) as (x & Hx & Cx).
  destruct (sbegin_first v x Cx) as [C _]. assert (Ht := vertex_lt n s v _ S I C).
  unfold angle, at_vertex. destruct (pcycle_Ok n (tV (fT s)) (sbegin v) (wfV _ _ W) Ht) as (k & Lk & P & ->). cbn [bind].
  change (fw (tV (fT s))) with (fV s) in *. pose proof (proj1 P) as P0.
  replace (orbit_list (fV s) (sbegin v) k) with (sbegin v :: map (fun i => Nat.iter i (fV s) (sbegin v)) (seq 1 (k - 1))).
  2: { unfold orbit_list. replace k with (Datatypes.S (k - 1)) at 2 by lia. reflexivity. }
  change (sbegin v) with (Nat.iter 0 (fV s) (sbegin v)) at 2.
  rewrite (wf_size n _ W), (angle_loop_Ok n s _ k S Ht P) by lia. rewrite Nat.sub_0_r. f_equal. cbn [plus].
  fold (orbit_list (fV s) (sbegin v) k).
  rewrite <- (Permutation_length (Permutation_filter' _ _ _ (orbit_members n s v _ k S I C Ht P))).
  f_equal. apply filter_ext_in. intros h J. apply (crossing_hits n); auto.
  apply orbit_list_In in J as (i & _ & <-). eapply iter_lt; eauto. apply (bijV n s S).
Qed.

(** ** The angle at a vertex *)

Lemma corners_exist n s v : flat_surface n s -> In v (tverts (fT s)) -> inner_vertex s v -> exists alpha, corners n s v alpha.
Proof.
  intros S I N. apply (choice_fin (fun h a => scontains v h = true -> turn (vv s h) (vv s (fV s h)) a)). intros h Hh. destruct (scontains v h) eqn:C; [|exists 0%R; discriminate].
  destruct (det_nonzero _ _ (corner_det n s h S Hh (N h C))). destruct (turn_exists (vv s h) (vv s (fV s h))) as (a & A); eauto.
Qed.

Lemma angle_total n s v alpha : flat_surface n s -> In v (tverts (fT s)) -> inner_vertex s v -> corners n s v alpha ->
  exists k, angle s v = Ok k /\ 1 <= k /\ rsum (map alpha (members n v)) = (2 * PI * INR k)%R /\
    forall d, d <> (0, 0)%R -> length (filter (fun h => hits d (vv s h) (vv s (fV s h))) (members n v)) = k.
Proof.
  intros S I N A. assert (A' : forall h, scontains v h = true -> turn (vv s h) (vv s (fV s h)) (alpha h)).
  { intros h C. apply A; auto. eapply vertex_lt; eauto. }
  eexists. split; [now apply (angle_Ok n)|].
  assert (Z : (0, 1)%R <> (0, 0)%R). { intros E. injection E. lra. }
  assert (T := total_angle n s v alpha (0, 1)%R S I N A' Z).
  assert (Eq : forall d, d <> (0, 0)%R -> length (filter (fun h => hits d (vv s h) (vv s (fV s h))) (members n v)) =
     length (filter (fun h => hits (0, 1)%R (vv s h) (vv s (fV s h))) (members n v))).
  { intros d Hd. assert (T' := total_angle n s v alpha d S I N A' Hd). rewrite T in T'. pose proof PI_RGT_0.
    apply INR_eq. apply (Rmult_eq_reg_l (2 * PI)%R); [auto|lra]. }
  split; [|split; auto].
  destruct (vertex_nonempty n s v S I) as (x & Hx & Cx). assert (D := corner_det n s x S Hx (N x Cx)).
  destruct (det_nonzero _ _ D) as [D1 _]. rewrite <- (Eq (vv s x)) by auto.
  assert (J : In x (filter (fun h => hits (vv s x) (vv s h) (vv s (fV s h))) (members n v))).
  { apply filter_In. split; [now apply members_In|]. unfold hits.
    assert (pdet (vv s x) (vv s x) = 0%R) by (unfold pdet; ring).
    assert (pdet (vv s (fV s x)) (vv s x) = (- pdet (vv s x) (vv s (fV s x)))%R) by (unfold pdet; ring).
    destruct (Rle_dec 0 (pdet (vv s x) (vv s x))); [|lra]. destruct (Rlt_dec (pdet (vv s (fV s x)) (vv s x)) 0); [auto|lra]. }
  assert (Ln : forall l : list nat, In x l -> 1 <= length l) by (intros [|? l]; [intros []|cbn; lia]). exact (Ln _ J).
Qed.

(** ** Gauss-Bonnet *)
Lemma rsum_swap {A B} (f : A -> B -> R) l r :
  rsum (map (fun a => rsum (map (f a) r)) l) = rsum (map (fun b => rsum (map (fun a => f a b) l)) r).
Proof.
  induction l as [|a l IH]; cbn [map rsum].
  - symmetry. now apply rsum_zero.
  - rewrite IH. now rewrite rsum_plus.
Qed.

Lemma one_vertex n s h : flat_surface n s -> h < n -> rsum (map (fun v => if scontains v h then 1%R else 0%R) (tverts (fT s))) = 1%R.
Proof.
  intros S Hh. destruct (wf_vertices _ _ (fs_wf n s S)) as (X1 & _ & X3 & _). destruct (X1 h Hh) as (i & Hi & C).
  assert (E : tverts (fT s) = map (fun j => nth j (tverts (fT s)) []) (seq 0 (length (tverts (fT s))))).
  { apply (nth_ext _ _ [] []); [now rewrite map_length, seq_length|]. intros j Hj.
    now rewrite nth_map_seq. }
  rewrite E, map_map. rewrite (rsum_support _ [i]).
  - cbn. rewrite C. lra.
  - repeat constructor; intros [].
  - apply seq_NoDup.
  - intros x [<-|[]]. apply in_seq. lia.
  - intros x J Q. apply in_seq in J. destruct (scontains (nth x (tverts (fT s)) []) h) eqn:Cx; auto.
    exfalso. apply Q. left. apply (X3 i x h); auto. lia.
Qed.

Lemma sum_vertices n s (f : nat -> R) : flat_surface n s ->
  rsum (map (fun v => rsum (map f (members n v))) (tverts (fT s))) = rsum (map f (seq 0 n)).
Proof.
  intros S. rewrite (rsum_ext _ (fun v => rsum (map (fun h => if scontains v h then f h else 0%R) (seq 0 n)))).
  2: { intros v _. unfold members. apply rsum_filter. }
  rewrite rsum_swap. apply rsum_ext. intros h J. apply in_seq in J.
  rewrite (rsum_ext _ (fun v => f h * (if scontains v h then 1 else 0))%R) by (intros v _; destruct (scontains v h); lra).
  rewrite rsum_scale, (one_vertex n) by (auto; lia). lra.
Qed.

Definition upper (v : pt) : R := if Rlt_dec 0 (fst v) then 1%R else if Req_EM_T (fst v) 0 then if Rlt_dec 0 (snd v) then 1%R else 0%R else 0%R.

Lemma upper_neg v : v <> (0, 0)%R -> (upper v + upper (pneg v) = 1)%R.
Proof.
  destruct v as [x y]. intros N. unfold upper, pneg; cbn [fst snd].
  destruct (Rlt_dec 0 x), (Rlt_dec 0 (- x)), (Req_EM_T x 0), (Req_EM_T (- x) 0), (Rlt_dec 0 y), (Rlt_dec 0 (- y)); try lra.
  exfalso. apply N. f_equal; lra.
Qed.

Definition cross1 (u w : pt) : R := if hits (0, 1)%R u (pneg w) then 1%R else 0%R.
Lemma cross1_eq (u w : pt) : cross1 u w = if Rle_dec 0 (fst u) then if Rlt_dec 0 (fst w) then 1%R else 0%R else 0%R.
Proof.
  unfold cross1, hits. destruct u as [x y], w as [x' y']. unfold pdet, pneg; cbn [fst snd].
  destruct (Rle_dec 0 (x * 1 - y * 0)), (Rle_dec 0 x); try (exfalso; lra); auto.
  destruct (Rlt_dec (- x' * 1 - - y' * 0) 0), (Rlt_dec 0 x'); try (exfalso; lra); auto.
Qed.
Lemma triangle_crossings u v w : padd (padd u v) w = (0, 0)%R -> (0 < pdet u v)%R ->
  (cross1 u w + cross1 v u + cross1 w v = upper u + upper v + upper w - 1)%R.
Proof.
  rewrite !cross1_eq. destruct u as [x y], v as [x' y'], w as [x'' y'']. unfold padd, pdet, upper; cbn [fst snd]. intros E D. injection E as E1 E2.
  assert (x'' = - x - x')%R by lra. assert (y'' = - y - y')%R by lra. subst x'' y''. clear E1 E2.
  destruct (Rtotal_order x 0) as [P|[P|P]]; destruct (Rtotal_order x' 0) as [Q|[Q|Q]]; destruct (Rtotal_order (- x - x') 0) as [T|[T|T]]; try (exfalso; lra);
  repeat match goal with
  | |- context [Rle_dec ?a ?b] => destruct (Rle_dec a b); try (exfalso; lra)
  | |- context [Rlt_dec 0 x] => destruct (Rlt_dec 0 x); try (exfalso; lra)
  | |- context [Rlt_dec 0 x'] => destruct (Rlt_dec 0 x'); try (exfalso; lra)
  | |- context [Rlt_dec 0 (- x - x')] => destruct (Rlt_dec 0 (- x - x')); try (exfalso; lra)
  | |- context [Req_EM_T ?a ?b] => destruct (Req_EM_T a b); try (exfalso; lra)
  | |- context [Rlt_dec ?a ?b] => destruct (Rlt_dec a b)
  end; try lra; exfalso; nra.
Qed.

Lemma sum_crossings n s : flat_surface n s -> closed_surface n s ->
  (6 * rsum (map (fun h => if hits (0, 1)%R (vv s h) (vv s (fV s h)) then 1 else 0) (seq 0 n)) = INR n)%R.
Proof.
  intros S C. pose (c := fun h => cross1 (vv s h) (vv s (fF s (fF s h)))). pose (p := fun h => upper (vv s h)).
  rewrite (rsum_ext _ c) by (intros h J; apply in_seq in J; unfold c, cross1; now rewrite (vv_fV n) by (auto; try apply C; lia)).
  assert (B := bijF n s S). assert (Bn := bijneg n s S).
  assert (c2 : rsum (map (fun h => c (fF s h)) (seq 0 n)) = rsum (map c (seq 0 n))) by apply (reindex n _ _ c B).
  assert (c3 : rsum (map (fun h => c (fF s (fF s h))) (seq 0 n)) = rsum (map c (seq 0 n))).
  { rewrite <- c2. apply (reindex n _ _ (fun h => c (fF s h)) B). }
  assert (p2 : rsum (map (fun h => p (fF s h)) (seq 0 n)) = rsum (map p (seq 0 n))) by apply (reindex n _ _ p B).
  assert (p3 : rsum (map (fun h => p (fF s (fF s h))) (seq 0 n)) = rsum (map p (seq 0 n))).
  { rewrite <- p2. apply (reindex n _ _ (fun h => p (fF s h)) B). }
  assert (T : rsum (map (fun h => (c h + c (fF s h)) + c (fF s (fF s h)))%R (seq 0 n)) =
              rsum (map (fun h => ((p h + p (fF s h)) + p (fF s (fF s h))) + -1)%R (seq 0 n))).
  { apply rsum_ext. intros h J. apply in_seq in J. assert (Hh : h < n) by lia. destruct (fs_flat n s S h Hh (C h Hh)) as [Z D].
    unfold c. rewrite (fF3 n s h S Hh).
    rewrite (triangle_crossings _ _ _ Z D). unfold p. lra. }
  rewrite !rsum_plus, c2, c3, p2, p3, rsum_const, seq_length in T.
  assert (q : rsum (map (fun h => p (neg h)) (seq 0 n)) = rsum (map p (seq 0 n))) by apply (reindex n _ _ p Bn).
  assert (U : rsum (map (fun h => p h + p (neg h))%R (seq 0 n)) = rsum (map (fun _ => 1%R) (seq 0 n))).
  { apply rsum_ext. intros h J. apply in_seq in J. assert (Hh : h < n) by lia. unfold p. rewrite (fs_odd n s S h Hh). apply upper_neg.
    apply (det_nonzero _ _ (corner_det n s h S Hh (C h Hh))). }
  rewrite rsum_plus, q, rsum_const, seq_length in U. lra.
Qed.

Lemma gauss_bonnet n s : flat_surface n s -> closed_surface n s ->
  exists ks, omap (angle s) (tverts (fT s)) = Ok ks /\ 6 * list_sum ks = n /\ length ks = length (tverts (fT s)) /\ forall k, In k ks -> 1 <= k.
Proof.
  intros S C. exists (map (fun v => length (filter (fun h => hits (0, 1)%R (vv s h) (vv s (fV s h))) (members n v))) (tverts (fT s))).
  split; [apply omap_map; intros v I; now apply angle_Ok|]. split; [|split].
  - apply INR_eq. rewrite <- (sum_crossings n s S C), <- (sum_vertices n s _ S), mult_INR.
    replace (INR 6) with 6%R by (cbn; lra). f_equal.
    clear. induction (tverts (fT s)) as [|v l IH]; [reflexivity|]. cbn [map]. change (list_sum (?a :: ?r)) with (a + list_sum r). 
    rewrite plus_INR, IH. cbn [rsum map]. f_equal. now rewrite count_sum.
  - now rewrite map_length.
  - intros k J. apply in_map_iff in J as (v & <- & J). assert (N : inner_vertex s v) by (intros h Q; apply C; eapply vertex_lt; eauto).
    destruct (corners_exist n s v S J N) as (al & A). destruct (angle_total n s v al S J N A) as (k & E & L & _).
    rewrite (angle_Ok n s v S J) in E. injection E as <-. exact L.
Qed.

(** ** Flips *)
Lemma flip_members n s e s' : flat_surface n s -> e < n -> fflip s e = (s', Ok tt) ->
  length (tverts (fT s')) = length (tverts (fT s)) /\
  forall i x, i < length (tverts (fT s)) ->
    scontains (nth i (tverts (fT s')) []) x = scontains (nth i (tverts (fT s)) []) (moved (fT s) e x).
Proof.
  intros S He E. destruct (fflip_spec n s e s' S He E) as (_ & S' & Ft & _). assert (W := fs_wf n s S). assert (W' := fs_wf n s' S').
  destruct (flip_spec n (fT s) e (fT s') W He Ft) as (F & _ & _ & EV).
  destruct s' as [t' vs']. cbn [fT] in *. unfold flip in Ft.
  destruct (do a <- nextInFace (fT s) e; _) as [[[[a b] c] d]| | |]; try discriminate.
  destruct (rmul_cycle (tV (fT s)) _) as [V1| | |]; try discriminate. destruct (rmul_cycle V1 _) as [V2| | |]; try discriminate.
  destruct (rmul_cycle (tF (fT s)) _) as [F1| | |]; try discriminate. destruct (rmul_cycle F1 _) as [F2| | |]; try discriminate.
  destruct (omap (after_flip V2 e) (tverts (fT s))) as [vs| | |] eqn:O; try discriminate. injection Ft as <-. cbn [tverts tV] in *.
  pose proof (omap_Ok _ _ _ O) as FA. assert (L : length vs = length (tverts (fT s))) by (clear - FA; induction FA; cbn; auto).
  split; auto. intros i x Hi.
  destruct (after_flip_Ok n (fT s) e W F V2 (wfV _ _ W') EV i Hi) as (r & Er & M). rewrite <- M. f_equal.
  assert (G : forall l vs, Forall2 (fun a b => after_flip V2 e a = Ok b) l vs -> forall i, i < length l -> after_flip V2 e (nth i l []) = Ok (nth i vs [])).
  { clear. induction 1; cbn; intros i Hi; [lia|]. destruct i; auto. apply IHForall2. lia. }
  rewrite (G _ _ FA i Hi) in Er. now injection Er.
Qed.

Definition all_corners n s (al : nat -> R) : Prop := forall h, h < n -> fF s h <> h -> turn (vv s h) (vv s (fV s h)) (al h).
Lemma all_corners_exist n s : flat_surface n s -> exists al, all_corners n s al.
Proof.
  intros S. apply (choice_fin (fun h a => fF s h <> h -> turn (vv s h) (vv s (fV s h)) a)). intros h Hh. destruct (Nat.eq_dec (fF s h) h); [exists 0%R; congruence|].
  destruct (det_nonzero _ _ (corner_det n s h S Hh n0)). destruct (turn_exists (vv s h) (vv s (fV s h))) as (x & X); eauto.
Qed.

(** How a flip changes the angles of the corners. *)
Lemma flip_corners n s e s' al al' : flat_surface n s -> e < n -> fflip s e = (s', Ok tt) -> all_corners n s al -> all_corners n s' al' ->
  exists a b c d, fF s e = a /\ fF s a = b /\ fF s (neg e) = c /\ fF s c = d /\ NoDup [e; a; b; neg e; c; d] /\
    (forall x, In x [e; a; b; neg e; c; d] -> x < n /\ fF s x <> x /\ fF s' x <> x) /\ fV s c = e /\ fV s a = neg e /\
    (al' a = al a + al (neg e))%R /\ (al' c = al c + al e)%R /\ (al b = al' b + al' (neg e))%R /\ (al d = al' d + al' e)%R /\
    (forall x, x < n -> ~ In x [e; a; b; neg e; c; d] -> fF s' x = fF s x /\ (fF s x <> x -> al' x = al x)).
Proof.
  intros S He E A A'.
  destruct (fflip_spec n s e s' S He E) as (_ & S' & _).
  destruct (flip_facts n s e s' S He E) as (a & b & c & d & Fe & Fa & Fb & Fn & Fc & Fd & G1 & G2 & G3 & G4 & G5 & G6 & D6 & Ha & Hb & Hc & Hd & Hn & O & Va & Vb & Vc & Vd & On & Ve & Vn).
  pose proof (nodup6 _ _ _ _ _ _ D6) as ((D1 & D2 & D3 & D4 & D5) & (D7 & D8 & D9 & D10) & (D11 & D12 & D13) & (D14 & D15) & D16).
  assert (Nb : forall x, In x [e; a; b; neg e; c; d] -> fF s x <> x /\ fF s' x <> x).
  { intros x J. cbn in J. destruct J as [<-|[<-|[<-|[<-|[<-|[<-|[]]]]]]]; split; congruence. }
  assert (B : forall h, h < n -> fF s h <> h -> (0 < al h < PI)%R).
  { intros h Hh Q. assert (D := corner_det n s h S Hh Q). apply (turn_pos _ _ _ (A h Hh Q)); auto. apply (det_nonzero _ _ D). }
  assert (B' : forall h, h < n -> fF s' h <> h -> (0 < al' h < PI)%R).
  { intros h Hh Q. assert (D := corner_det n s' h S' Hh Q). apply (turn_pos _ _ _ (A' h Hh Q)); auto. apply (det_nonzero _ _ D). }
  assert (Vx : forall x y z, x < n -> fF s x <> x -> fF s x = y -> fF s y = z -> fV s x = neg z) by (intros x y z Hx Q <- <-; now apply (fV_eq n)).
  assert (Vx' : forall x y z, x < n -> fF s' x <> x -> fF s' x = y -> fF s' y = z -> fV s' x = neg z) by (intros x y z Hx Q <- <-; now apply (fV_eq n)).
  assert (Q : forall x, In x [e; a; b; neg e; c; d] -> fF s x <> x) by (intros; now apply Nb).
  assert (Q' : forall x, In x [e; a; b; neg e; c; d] -> fF s' x <> x) by (intros; now apply Nb).
  assert (Ue : fV s e = neg b) by (eapply Vx; eauto; apply Q; cbn; auto 10).
  assert (Ua : fV s a = neg e) by (eapply Vx; eauto; apply Q; cbn; auto 10).
  assert (Ub : fV s b = neg a) by (eapply Vx; eauto; apply Q; cbn; auto 10).
  assert (Un : fV s (neg e) = neg d) by (eapply Vx; eauto; apply Q; cbn; auto 10).
  assert (Uc : fV s c = e). { rewrite <- (neg_neg e). eapply Vx; eauto; apply Q; cbn; auto 10. }
  assert (Ud : fV s d = neg c) by (eapply Vx; eauto; apply Q; cbn; auto 10).
  assert (Ue' : fV s' e = neg c) by (eapply Vx'; eauto; apply Q'; cbn; auto 10).
  assert (Ua' : fV s' a = neg d) by (eapply Vx'; eauto; apply Q'; cbn; auto 10).
  assert (Ub' : fV s' b = neg e) by (eapply Vx'; eauto; apply Q'; cbn; auto 10).
  assert (Un' : fV s' (neg e) = neg a) by (eapply Vx'; eauto; apply Q'; cbn; auto 10).
  assert (Uc' : fV s' c = neg b) by (eapply Vx'; eauto; apply Q'; cbn; auto 10).
  assert (Ud' : fV s' d = e). { rewrite <- (neg_neg e). eapply Vx'; eauto; apply Q'; cbn; auto 10. }
  assert (W : forall x, x < n -> x <> e -> x <> neg e -> vv s' (neg x) = vv s (neg x)).
  { intros x Hx X1 X2. rewrite (fs_odd n s' S' x Hx), (fs_odd n s S x Hx). f_equal.
    destruct (in_dec Nat.eq_dec x [e; a; b; neg e; c; d]) as [J|J]; [|now apply O].
    cbn in J. destruct J as [<-|[<-|[<-|[<-|[<-|[<-|[]]]]]]]; congruence. }
  assert (Vne : forall x, x < n -> fF s x <> x -> vv s x <> (0, 0)%R) by (intros x Hx X; apply (det_nonzero _ _ (corner_det n s x S Hx X))).
  assert (K1 : (al' a = al a + al (neg e))%R).
  { apply (turn_unique (vv s a) (vv s (neg d))); [apply Vne; auto; apply Q; cbn; auto| |].
    - rewrite <- Va, <- (W d), <- Ua' by auto. apply A'; auto. apply Q'; cbn; auto.
    - apply (turn_add _ (vv s (neg e))).
      + rewrite <- Ua. apply A; auto. apply Q; cbn; auto.
      + rewrite <- Un. apply A; auto. apply Q; cbn; auto 10.
      + assert (X := B a Ha (Q a ltac:(cbn; auto 10))). assert (Y := B (neg e) Hn (Q (neg e) ltac:(cbn; auto 10))). lra. }
  assert (K2 : (al' c = al c + al e)%R).
  { apply (turn_unique (vv s c) (vv s (neg b))); [apply Vne; auto; apply Q; cbn; auto 10| |].
    - rewrite <- Vc, <- (W b), <- Uc' by auto. apply A'; auto. apply Q'; cbn; auto 10.
    - apply (turn_add _ (vv s e)).
      + rewrite <- Uc. apply A; auto. apply Q; cbn; auto 10.
      + rewrite <- Ue. apply A; auto. apply Q; cbn; auto 10.
      + assert (X := B c Hc (Q c ltac:(cbn; auto 10))). assert (Y := B e He (Q e ltac:(cbn; auto 10))). lra. }
  assert (K3 : (al b = al' b + al' (neg e))%R).
  { apply (turn_unique (vv s b) (vv s (neg a))); [apply Vne; auto; apply Q; cbn; auto 10| |].
    - rewrite <- Ub. apply A; auto. apply Q; cbn; auto 10.
    - rewrite <- Vb, <- (W a) by auto. apply (turn_add _ (vv s' (neg e))).
      + rewrite <- Ub'. apply A'; auto. apply Q'; cbn; auto 10.
      + rewrite <- Un'. apply A'; auto. apply Q'; cbn; auto 10.
      + assert (X := B' b Hb (Q' b ltac:(cbn; auto 10))). assert (Y := B' (neg e) Hn (Q' (neg e) ltac:(cbn; auto 10))). lra. }
  assert (K4 : (al d = al' d + al' e)%R).
  { apply (turn_unique (vv s d) (vv s (neg c))); [apply Vne; auto; apply Q; cbn; auto 10| |].
    - rewrite <- Ud. apply A; auto. apply Q; cbn; auto 10.
    - rewrite <- Vd, <- (W c) by auto. apply (turn_add _ (vv s' e)).
      + rewrite <- Ud'. apply A'; auto. apply Q'; cbn; auto 10.
      + rewrite <- Ue'. apply A'; auto. apply Q'; cbn; auto 10.
      + assert (X := B' d Hd (Q' d ltac:(cbn; auto 10))). assert (Y := B' e He (Q' e ltac:(cbn; auto 10))). lra. }
  exists a, b, c, d. do 5 (split; [assumption|]).
  split. { intros x J. split; [|now apply Nb]. cbn in J. destruct J as [<-|[<-|[<-|[<-|[<-|[<-|[]]]]]]]; assumption. }
  do 6 (split; [assumption|]).
  intros x Hx X. destruct (O x Hx X) as [O1 O2]. split; auto. intros Bx.
  assert (Bx' : fF s' x <> x) by congruence.
  assert (Y : ~ In (fF s x) [e; a; b; neg e; c; d]).
  { intros J'. apply X. assert (T := fF3 n s x S Hx). cbn in J'. cbn.
    destruct J' as [J'|[J'|[J'|[J'|[J'|[J'|[]]]]]]]; rewrite <- J' in T; rewrite ?Fe, ?Fa, ?Fb, ?Fn, ?Fc, ?Fd in T; rewrite ?Fe, ?Fa, ?Fb, ?Fn, ?Fc, ?Fd in T; auto 10. }
  assert (Y2 : ~ In (fF s (fF s x)) [e; a; b; neg e; c; d]).
  { intros J'. apply X. assert (T := fF3 n s x S Hx). cbn in J'. cbn.
    destruct J' as [J'|[J'|[J'|[J'|[J'|[J'|[]]]]]]]; rewrite <- J' in T; rewrite ?Fe, ?Fa, ?Fb, ?Fn, ?Fc, ?Fd in T; auto 10. }
  assert (Hy := fF_lt n s x S Hx). assert (Hz := fF_lt n s _ S Hy). destruct (O _ Hy Y) as [P1 P2].
  apply (turn_unique (vv s x) (vv s (fV s x))); auto.
  rewrite (fV_eq n s x S Hx Bx). rewrite <- W; auto.
  + assert (fV s' x = neg (fF s (fF s x))) as <-. { rewrite (fV_eq n s' x S' Hx Bx'), O1, P1. reflexivity. }
    rewrite <- O2. apply A'; auto.
  + intros Z. apply Y2. rewrite Z. cbn; auto.
  + intros Z. apply Y2. rewrite Z. cbn; auto 10.
Qed.

Lemma flip_angle n s e s' i : flat_surface n s -> e < n -> fflip s e = (s', Ok tt) -> i < length (tverts (fT s)) ->
  inner_vertex s (nth i (tverts (fT s)) []) ->
  inner_vertex s' (nth i (tverts (fT s')) []) /\ angle s' (nth i (tverts (fT s')) []) = angle s (nth i (tverts (fT s)) []).
Proof.
  intros S He E Hi N. destruct (flip_members n s e s' S He E) as (L & M). specialize (fun x => M i x Hi).
  destruct (fflip_spec n s e s' S He E) as (_ & S' & _).
  assert (I : In (nth i (tverts (fT s)) []) (tverts (fT s))) by now apply nth_In.
  assert (I' : In (nth i (tverts (fT s')) []) (tverts (fT s'))) by (apply nth_In; lia).
  generalize dependent (nth i (tverts (fT s)) []). generalize dependent (nth i (tverts (fT s')) []). intros v' I' v N M I.
  destruct (all_corners_exist n s S) as (al & A). destruct (all_corners_exist n s' S') as (al' & A').
  destruct (flip_corners n s e s' al al' S He E A A') as (a & b & c & d & Fe & Fa & Fn & Fc & D6 & Nb & Uc & Ua & K1 & K2 & K3 & K4 & O).
  pose proof (nodup6 _ _ _ _ _ _ D6) as ((D1 & D2 & D3 & D4 & D5) & (D7 & D8 & D9 & D10) & (D11 & D12 & D13) & (D14 & D15) & D16).
  assert (Md : forall x, moved (fT s) e x = if x =? e then d else if x =? neg e then b else x).
  { intros x. unfold moved. change (nF (fT s)) with (fF s). now rewrite Fn, Fc, Fe, Fa. }
  assert (Me : scontains v' e = scontains v d) by (rewrite M, Md, Nat.eqb_refl; auto).
  assert (Mn : scontains v' (neg e) = scontains v b). { rewrite M, Md. destruct (Nat.eqb_spec (neg e) e); [congruence|]. now rewrite Nat.eqb_refl. }
  assert (Mo : forall x, x <> e -> x <> neg e -> scontains v' x = scontains v x).
  { intros x X1 X2. rewrite M, Md. destruct (Nat.eqb_spec x e); [contradiction|]. destruct (Nat.eqb_spec x (neg e)); [contradiction|auto]. }
  assert (N' : inner_vertex s' v').
  { intros h C Q. assert (Hh := vertex_lt n s' v' h S' I' C).
    destruct (in_dec Nat.eq_dec h [e; a; b; neg e; c; d]) as [J|J]; [now apply (Nb h J)|].
    destruct (O h Hh J) as [O1 _]. rewrite O1 in Q. apply (N h); auto. rewrite <- Mo; auto; intros ->; apply J; cbn; auto. }
  split; auto.
  assert (Ce : scontains v e = scontains v c) by (rewrite <- Uc; apply (vertex_next n); auto; apply Nb; cbn; auto 10).
  assert (Cn : scontains v (neg e) = scontains v a) by (rewrite <- Ua; apply (vertex_next n); auto; apply Nb; cbn; auto 10).
  assert (Sum : rsum (map al' (members n v')) = rsum (map al (members n v))).
  { unfold members. rewrite !rsum_filter.
    assert (X : rsum (map (fun x => (if scontains v' x then al' x else 0) + -1 * (if scontains v x then al x else 0))%R (seq 0 n)) = 0%R).
    { rewrite (rsum_support _ [e; a; b; neg e; c; d]).
      - cbn [map rsum]. rewrite Me, Mn, (Mo a), (Mo b), (Mo c), (Mo d), Ce, Cn by auto.
        destruct (scontains v a), (scontains v b), (scontains v c), (scontains v d); lra.
      - exact D6.
      - apply seq_NoDup.
      - intros x J. apply in_seq. split; [lia|now apply Nb].
      - intros x J X. apply in_seq in J. assert (Hx : x < n) by lia.
        assert (X1 : x <> e) by (intros ->; apply X; cbn; auto). assert (X2 : x <> neg e) by (intros ->; apply X; cbn; auto 10).
        rewrite (Mo x X1 X2). destruct (scontains v x) eqn:C; [|lra].
        destruct (O x Hx X) as [O1 O2]. rewrite (O2 (N x C)). lra. }
    rewrite rsum_plus, rsum_scale in X. lra. }
  destruct (angle_total n s v al S I N) as (k & Ek & _ & Sk & _). { intros h Hh C. apply A; auto. }
  destruct (angle_total n s' v' al' S' I' N') as (k' & Ek' & _ & Sk' & _). { intros h Hh C. apply A'; auto. }
  rewrite Ek, Ek'. f_equal. apply INR_eq. pose proof PI_RGT_0. apply (Rmult_eq_reg_l (2 * PI)%R); [congruence|lra].
Qed.

Lemma flips_angle n es : forall s s', flat_surface n s -> closed_surface n s -> (forall e, In e es -> e < n) -> fflips s es = (s', Ok tt) ->
  length (tverts (fT s')) = length (tverts (fT s)) /\
  forall i, i < length (tverts (fT s)) -> angle s' (nth i (tverts (fT s')) []) = angle s (nth i (tverts (fT s)) []) /\
    forall h, (forall e, In e es -> h <> e /\ h <> neg e) -> scontains (nth i (tverts (fT s')) []) h = scontains (nth i (tverts (fT s)) []) h.
Proof.
  induction es as [|e r IH]; cbn [fflips]; intros s s' S C H E.
  - injection E as <-. auto.
  - destruct (fflip s e) as [s1 o] eqn:Ef. destruct o as [[]| | |]; try discriminate.
    assert (He : e < n) by auto with datatypes. destruct (fflip_spec n s e s1 S He Ef) as (_ & S1 & _).
    assert (C1 := closed_flip n s e s1 S C He Ef).
    destruct (IH s1 s' S1 C1) as (L & R); auto with datatypes. destruct (flip_members n s e s1 S He Ef) as (L1 & M1).
    split; [congruence|]. intros i Hi. destruct (R i) as [R1 R2]; [lia|].
    split.
    + rewrite R1. apply (flip_angle n s e s1 i S He Ef Hi). intros h Q. apply C. apply (vertex_lt n s _ h S (nth_In _ [] Hi) Q).
    + intros h Q. rewrite R2 by auto with datatypes. rewrite M1 by auto. f_equal. unfold moved.
      destruct (Q e) as [Q1 Q2]; [auto with datatypes|]. destruct (Nat.eqb_spec h e); [contradiction|]. destruct (Nat.eqb_spec h (neg e)); [contradiction|auto].
Qed.
End flat.
