(** * Finding the sector of a direction *)
From Coq Require Import ZArith Reals List Arith Bool Lia Lra Psatz Permutation Classical_Prop.
From Verif Require Import Base HalfEdge HalfEdgeFacts Perm PermSpec PermFacts PermCycles PermLemmas
  IndexedSet IndexedSetSpec IndexedSetFacts Combinatorial CombinatorialSpec CombinatorialFacts CombinatorialFlip
  CombinatorialHistory CombinatorialOps ExactReal Vector PlaneSpec Plane VectorFacts FlatTri FlatSpec FlatFacts FlatSum FlatDelaunay FlatAngle.
Import ListNotations.
Local Open Scope R_scope.

Lemma same_direction_signs u v : u <> (0, 0) -> v <> (0, 0) -> (same_direction u v <-> pdet u v = 0 /\ 0 < pdot u v).
Proof.
  intros Hu Hv. split.
  - intros (r & Hr & ->). apply pdot_pos in Hu. unfold pdet, pdot, pscale in *; cbn [fst snd] in *. split; [ring|nra].
  - intros [D P]. exists (pdot u v / pdot u u). assert (Q := pdot_pos u Hu). split; [apply Rdiv_lt_0_compat; auto|].
    destruct u as [x y], v as [x' y']. unfold pdet, pdot, pscale in *; cbn [fst snd] in *.
    apply pt_eq; cbn [fst snd]; apply (Rmult_eq_reg_l (x * x + y * y)); try lra.
    + replace ((x * x + y * y) * ((x * x' + y * y') / (x * x + y * y) * x)) with ((x * x' + y * y') * x) by (field; lra).
      replace ((x * x' + y * y') * x) with ((x * x + y * y) * x' + y * (x * y' - y * x')) by ring. rewrite D. ring.
    + replace ((x * x + y * y) * ((x * x' + y * y') / (x * x + y * y) * y)) with ((x * x' + y * y') * y) by (field; lra).
      replace ((x * x' + y * y') * y) with ((x * x + y * y) * y' - x * (x * y' - y * x')) by ring. rewrite D. ring.
Qed.

Lemma same_sector_same u w v d : 0 < pdet u w -> hits v u w = true -> hits d u w = true -> v <> (0, 0) -> d <> (0, 0) -> pdet v d = 0 -> same_direction v d.
Proof.
  intros D Hv Hd Nv Nd Z. apply same_direction_signs; auto. split; auto.
  destruct (Rtotal_order (pdot v d) 0) as [X|[X|X]]; auto; exfalso; [|now apply (collinear_not_orthogonal v d)].
  assert (Sd : same_direction (pneg v) d).
  { apply same_direction_signs; auto.
    - intros Q. apply Nv. rewrite <- (pneg_pneg v), Q. unfold pneg; cbn. f_equal; lra.
    - unfold pdet, pdot, pneg in *; cbn [fst snd] in *. split; lra. }
  destruct Sd as (r & Hr & ->). unfold hits in *.
  assert (A : pdet u (pscale r (pneg v)) = - (r * pdet u v)) by (unfold pdet, pscale, pneg; cbn; ring).
  assert (B : pdet w (pscale r (pneg v)) = - (r * pdet w v)) by (unfold pdet, pscale, pneg; cbn; ring).
  rewrite A, B in Hd. destruct (Rlt_dec (pdet w v) 0); [|destruct (Rle_dec 0 (pdet u v)); discriminate].
  assert (r * pdet w v < 0) by nra. destruct (Rlt_dec (- (r * pdet w v)) 0); [lra|]. destruct (Rle_dec 0 (- (r * pdet u v))); discriminate.
Qed.

Section flat.
Context {K : ExactReal}.
Implicit Types (s : flat K) (n e h : nat) (d : vec K).
Local Open Scope nat_scope.

Definition cwb s d h : bool := is_cw (ccw (vat' s h) d).
Lemma is_not_cw_negb c : is_not_cw c = negb (is_cw c).
Proof. reflexivity. Qed.
Lemma cwb_spec s d h : cwb s d h = true <-> (pdet (vv s h) (vden d) < 0)%R.
Proof.
  unfold cwb, vv. fold (vat' s h). pose proof (ccw_cases (vat' s h) d) as C. destruct (ccw (vat' s h) d); cbn; split; intros; try discriminate; auto; lra.
Qed.
Lemma hits_cwb s d h : hits (vden d) (vv s h) (vv s (fV s h)) = negb (cwb s d h) && cwb s d (fV s h).
Proof.
  unfold hits. pose proof (cwb_spec s d h) as A. pose proof (cwb_spec s d (fV s h)) as B.
  destruct (Rle_dec 0 (pdet (vv s h) (vden d))), (Rlt_dec (pdet (vv s (fV s h)) (vden d)) 0), (cwb s d h), (cwb s d (fV s h)); cbn; auto; exfalso;
    try (destruct A as [A _]; specialize (A eq_refl); lra); try (destruct B as [B _]; specialize (B eq_refl); lra);
    try (destruct A as [_ A]; assert (Q : false = true) by (apply A; lra); discriminate);
    try (destruct B as [_ B]; assert (Q : false = true) by (apply B; lra); discriminate).
Qed.

Lemma in_sector_at_Ok n s h d : flat_surface n s -> h < n -> in_sector_at s h d = Ok (hits (vden d) (vv s h) (vv s (fV s h))).
Proof.
  intros S Hh. assert (W := fs_wf n s S). unfold in_sector_at. rewrite from_he_Ok by now rewrite (fs_length n s S). cbn [bind].
  rewrite hits_cwb. unfold cwb at 1, is_cw. destruct (ccw_eqb (ccw (vat' s h) d) CLOCKWISE); cbn [negb andb]; auto.
  rewrite (nextV_Ok n) by auto. cbn [bind]. rewrite from_he_Ok by (rewrite (fs_length n s S); now apply fV_lt). reflexivity.
Qed.

Lemma contains_hits n s h (d : pt) : flat_surface n s -> h < n -> fF s h <> h -> d <> (0, 0)%R ->
  (sector_contains s h d <-> hits d (vv s h) (vv s (fV s h)) = true).
Proof. intros S Hh N Hd. symmetry. apply hits_spec; auto. now apply (corner_det n). Qed.

Lemma inner_at_next n s h k : flat_surface n s -> h < n -> inner_at s h -> inner_at s (Nat.iter k (fV s) h).
Proof. intros S Hh N x (j & <-). apply N. exists (j + k). now rewrite iter_add. Qed.

Lemma vertex_of n s h : flat_surface n s -> h < n -> exists v, In v (tverts (fT s)) /\ scontains v h = true.
Proof.
  intros S Hh. destruct (wf_vertices _ _ (fs_wf n s S)) as (X & _). destruct (X h Hh) as (i & Hi & C).
  exists (nth i (tverts (fT s)) []). split; auto. now apply nth_In.
Qed.
Lemma inner_at_vertex n s h v : flat_surface n s -> In v (tverts (fT s)) -> scontains v h = true -> inner_at s h -> inner_vertex s v.
Proof. intros S I C N x Cx. apply N. now apply (vertex_same n s v h x S I C). Qed.

(** Some sector at each vertex contains the direction. *)
Lemma some_hit n s h (d : pt) : flat_surface n s -> h < n -> inner_at s h -> d <> (0, 0)%R ->
  exists k, k < n /\ let e := Nat.iter k (fV s) h in hits d (vv s e) (vv s (fV s e)) = true.
Proof.
  intros S Hh N Hd. destruct (vertex_of n s h S Hh) as (v & I & C). assert (Nv := inner_at_vertex n s h v S I C N).
  destruct (corners_exist n s v S I Nv) as (al & A). destruct (angle_total n s v al S I Nv A) as (k & _ & L & _ & T). specialize (T d Hd).
  destruct (filter (fun h0 => hits d (vv s h0) (vv s (fV s h0))) (members n v)) as [|x l] eqn:F; [cbn in T; lia|].
  assert (J : In x (x :: l)) by now left. rewrite <- F in J. apply filter_In in J as [J1 J2].
  destruct (exists_period n _ _ h (bijV n s S) Hh) as (p & Lp & P).
  apply (Permutation_in _ (Permutation_sym (orbit_members n s v h p S I C Hh P))) in J1.
  apply orbit_list_In in J1 as (j & Hj & <-). exists j. split; [lia|exact J2].
Qed.

Lemma fV_pV n s h : flat_surface n s -> h < n -> fV s (pV (fT s) h) = h.
Proof. intros S Hh. apply (nV_pV n _ (fs_wf n s S)); auto. Qed.
Lemma pV_fV n s h : flat_surface n s -> h < n -> pV (fT s) (fV s h) = h.
Proof. intros S Hh. apply (pV_nV n _ (fs_wf n s S)); auto. Qed.
Lemma pV_iter n s h k : flat_surface n s -> h < n -> Nat.iter k (fV s) (Nat.iter k (pV (fT s)) h) = h.
Proof.
  intros S Hh. induction k as [|k IH]; [reflexivity|]. rewrite (iter_S' (fV s)), (iter_S (pV (fT s))).
  assert (L : Nat.iter k (pV (fT s)) h < n).
  { clear IH. induction k; cbn; auto. apply (pV_lt n); auto. apply S. }
  rewrite (fV_pV n) by auto. exact IH.
Qed.
Lemma pV_iter_lt n s h k : flat_surface n s -> h < n -> Nat.iter k (pV (fT s)) h < n.
Proof. intros S Hh. induction k; cbn; auto. apply (pV_lt n); auto. apply S. Qed.
Lemma pV_iter' n s h k : flat_surface n s -> h < n -> Nat.iter k (pV (fT s)) (Nat.iter k (fV s) h) = h.
Proof.
  intros S Hh. induction k as [|k IH]; [reflexivity|]. rewrite (iter_S' (pV (fT s))), (iter_S (fV s)). rewrite (pV_fV n) by (auto; eapply iter_lt; eauto; now apply bijV). exact IH.
Qed.
Lemma pV_fV_iter n s h j k : flat_surface n s -> h < n -> j <= k -> Nat.iter j (fV s) (Nat.iter k (pV (fT s)) h) = Nat.iter (k - j) (pV (fT s)) h.
Proof.
  intros S Hh L. assert (exists m, k = j + m) as (m & ->) by (exists (k - j); lia). replace (j + m - j) with m by lia. rewrite iter_add. apply (pV_iter n); auto. now apply pV_iter_lt.
Qed.

Lemma inner_at_prev n s h k : flat_surface n s -> h < n -> inner_at s h -> inner_at s (Nat.iter k (pV (fT s)) h).
Proof.
  intros S Hh N x (j & <-). apply N. 
  assert (X : same_vertex (fT s) (Nat.iter k (pV (fT s)) h) h) by (exists k; now apply (pV_iter n)).
  apply (same_vertex_trans _ _ (Nat.iter k (pV (fT s)) h)); [|now exists j].
  apply (same_iter_sym n (fV s) (pV (fT s)) _ _ (bijV n s S)) in X; auto. now apply pV_iter_lt.
Qed.

Lemma some_hit_back n s h (d : pt) : flat_surface n s -> h < n -> inner_at s h -> d <> (0, 0)%R ->
  exists k, k <= n /\ let e := Nat.iter k (pV (fT s)) h in hits d (vv s e) (vv s (fV s e)) = true.
Proof.
  intros S Hh N Hd. destruct (exists_period n _ _ h (bijV n s S) Hh) as (p & Lp & P).
  assert (L1 := iter_lt n (fV s) (pV (fT s)) h (bijV n s S) Hh).
  destruct (some_hit n s h d S Hh N Hd) as (k & Hk & Q). 
  assert (exists j, j < p /\ Nat.iter j (fV s) h = Nat.iter k (fV s) h) as (j & Hj & E).
  { assert (J : In (Nat.iter k (fV s) h) (orbit_list (fV s) h p)).
    { apply orbit_list_iter; auto. apply orbit_list_In. exists 0. split; auto. apply P. }
    apply orbit_list_In in J. exact J. }
  exists (p - j). split; [lia|]. destruct P as (_ & P1 & _).
  replace (Nat.iter (p - j) (pV (fT s)) h) with (Nat.iter k (fV s) h); [exact Q|].
  rewrite <- E. assert (X : Nat.iter (p - j) (fV s) (Nat.iter j (fV s) h) = h) by (rewrite <- iter_add; now replace (p - j + j) with p by lia).
  rewrite <- X at 2. symmetry. apply (pV_iter' n); auto.
Qed.

Lemma least (p : nat -> bool) k : p k = true -> exists j, j <= k /\ p j = true /\ forall i, i < j -> p i = false.
Proof.
  induction k as [k IH] using (well_founded_induction lt_wf). intros H.
  destruct (existsb p (seq 0 k)) eqn:E.
  - apply existsb_exists in E as (i & J & Pi). apply in_seq in J. destruct (IH i) as (j & L & Q); [lia|auto|]. exists j. split; [lia|auto].
  - exists k. split; auto. split; auto. intros i Hi. destruct (p i) eqn:Q; auto.
    assert (existsb p (seq 0 k) = true); [|congruence]. apply existsb_exists. exists i. split; auto. apply in_seq. lia.
Qed.

Lemma turn_while_Ok n s (f : nat -> nat) step P d k : flat_surface n s -> (forall x, x < n -> step x = Ok (f x) /\ f x < n) ->
  forall fuel h, h < n -> (forall j, j < k -> P (ccw (vat' s (Nat.iter j f h)) d) = true) -> P (ccw (vat' s (Nat.iter k f h)) d) = false ->
  k < fuel -> turn_while fuel s step P d h = Ok (Nat.iter k f h).
Proof.
  intros S St. induction k as [|k IH]; intros [|fuel] h Hh H1 H2 L; try lia; cbn [turn_while];
    rewrite from_he_Ok by (now rewrite (fs_length n s S)); cbn [bind].
  - cbn in H2. now rewrite H2.
  - assert (X := H1 0 ltac:(lia)). cbn in X. rewrite X. destruct (St h Hh) as [-> Lt]. cbn [bind].
    rewrite IH; auto.
    + now rewrite iter_S'.
    + intros j Hj. rewrite <- iter_S'. apply H1. lia.
    + now rewrite <- iter_S'.
    + lia.
Qed.

Lemma step_next n s : flat_surface n s -> forall x, x < n -> nextAtVertex (fT s) x = Ok (fV s x) /\ fV s x < n.
Proof. intros S x Hx. split; [apply (nextV_Ok n); auto; apply S|now apply fV_lt]. Qed.
Lemma step_prev n s : flat_surface n s -> forall x, x < n -> previousAtVertex (fT s) x = Ok (pV (fT s) x) /\ pV (fT s) x < n.
Proof. intros S x Hx. split; [apply (prevV_Ok n); auto; apply S|apply (pV_lt n); auto; apply S]. Qed.

(** Counterclockwise walks. *)
Lemma walk_ccw n s h d : flat_surface n s -> h < n -> inner_at s h -> vden d <> (0, 0)%R ->
  exists k, k < n /\ first_ccw s h (vden d) (Nat.iter k (fV s) h) /\ cwb s d (Nat.iter (S k) (fV s) h) = true /\
    exists j, j <= k /\ (forall i, i < j -> cwb s d (Nat.iter i (fV s) h) = true) /\ forall i, j <= i <= k -> cwb s d (Nat.iter i (fV s) h) = false.
Proof.
  intros S Hh N Hd. destruct (some_hit n s h (vden d) S Hh N Hd) as (k0 & Hk0 & Q). cbn zeta in Q. assert (L := iter_lt n (fV s) (pV (fT s)) h (bijV n s S) Hh).
  destruct (least (fun k => let e := Nat.iter k (fV s) h in hits (vden d) (vv s e) (vv s (fV s e))) k0 Q) as (k & Lk & Hk & Mk). cbn zeta in Hk, Mk.
  assert (Ch : forall j, sector_contains s (Nat.iter j (fV s) h) (vden d) <-> hits (vden d) (vv s (Nat.iter j (fV s) h)) (vv s (fV s (Nat.iter j (fV s) h))) = true).
  { intros j. apply (contains_hits n); auto. apply N. now exists j. }
  exists k. split; [lia|]. split.
  { exists k. split; auto. split; [now apply Ch|]. intros j Hj X. apply Ch in X. rewrite Mk in X by auto. discriminate. }
  rewrite hits_cwb in Hk. apply andb_true_iff in Hk as [Hk1 Hk2]. apply negb_true_iff in Hk1. split; auto.
  destruct (least (fun i => negb (cwb s d (Nat.iter i (fV s) h))) k) as (j & Lj & Hj & Mj); [now rewrite Hk1|].
  exists j. split; auto. split. { intros i Hi. specialize (Mj i Hi). now apply negb_false_iff in Mj. }
  apply negb_true_iff in Hj.
  assert (G : forall m, j + m <= k -> cwb s d (Nat.iter (j + m) (fV s) h) = false).
  { induction m as [|m IH]; intros Lm; [now rewrite Nat.add_0_r|].
    assert (X := Mk (j + m) ltac:(lia)). rewrite hits_cwb, IH in X by lia. cbn [negb andb] in X.
    replace (j + Datatypes.S m) with (Datatypes.S (j + m)) by lia. exact X. }
  intros i Hi. replace i with (j + (i - j)) by lia. apply G. lia.
Qed.

Lemma loops_ccw n s h d fuel : flat_surface n s -> h < n -> inner_at s h -> vden d <> (0, 0)%R -> n + 1 < fuel ->
  exists e, (do x <- turn_while fuel s (nextAtVertex (fT s)) is_cw d h;
             do x <- turn_while fuel s (nextAtVertex (fT s)) is_not_cw d x; previousAtVertex (fT s) x) = Ok e /\
            first_ccw s h (vden d) e.
Proof.
  intros S Hh N Hd Lf. assert (L := iter_lt n (fV s) (pV (fT s)) h (bijV n s S) Hh).
  destruct (walk_ccw n s h d S Hh N Hd) as (k & Lk & Fk & Ck & j & Lj & C1 & C2).
  exists (Nat.iter k (fV s) h). split; auto.
  rewrite (turn_while_Ok n s (fV s) _ is_cw d j S (step_next n s S)); auto; [|apply C2; lia|lia]. cbn [bind].
  rewrite (turn_while_Ok n s (fV s) _ is_not_cw d (Datatypes.S k - j) S (step_next n s S)); auto; [| | |lia].
  - cbn [bind]. rewrite <- iter_add. replace (Datatypes.S k - j + j) with (Datatypes.S k) by lia.
    rewrite (proj1 (step_prev n s S _ (L _))). f_equal. cbn [Nat.iter]. now apply (pV_fV n).
  - intros i Hi. rewrite <- iter_add, is_not_cw_negb. fold (cwb s d (Nat.iter (i + j) (fV s) h)). rewrite C2 by lia. reflexivity.
  - rewrite <- iter_add, is_not_cw_negb. replace (Datatypes.S k - j + j) with (Datatypes.S k) by lia.
    fold (cwb s d (Nat.iter (Datatypes.S k) (fV s) h)). now rewrite Ck.
Qed.

(** Clockwise walks. *)
Lemma walk_cw n s h d : flat_surface n s -> h < n -> inner_at s h -> vden d <> (0, 0)%R ->
  exists k, k <= n /\ first_cw s h (vden d) (Nat.iter k (pV (fT s)) h) /\ cwb s d (Nat.iter k (pV (fT s)) h) = false /\
    exists j, j <= k /\ (forall i, i < j -> cwb s d (Nat.iter i (pV (fT s)) (fV s h)) = false) /\
      forall i, j <= i <= k -> cwb s d (Nat.iter i (pV (fT s)) (fV s h)) = true.
Proof.
  intros S Hh N Hd. destruct (some_hit_back n s h (vden d) S Hh N Hd) as (k0 & Hk0 & Q). cbn zeta in Q.
  destruct (least (fun k => let e := Nat.iter k (pV (fT s)) h in hits (vden d) (vv s e) (vv s (fV s e))) k0 Q) as (k & Lk & Hk & Mk). cbn zeta in Hk, Mk.
  assert (Lt : forall j, Nat.iter j (pV (fT s)) h < n) by (intros; now apply pV_iter_lt).
  assert (Ch : forall j, sector_contains s (Nat.iter j (pV (fT s)) h) (vden d) <-> hits (vden d) (vv s (Nat.iter j (pV (fT s)) h)) (vv s (fV s (Nat.iter j (pV (fT s)) h))) = true).
  { intros j. apply (contains_hits n); auto. apply (inner_at_prev n s h j S Hh N). now exists 0. }
  exists k. split; [lia|]. split.
  { exists k. split; [now apply (pV_iter n)|]. split; [now apply Ch|]. intros j Hj X. rewrite (pV_fV_iter n) in X by (auto; lia).
    apply Ch in X. rewrite Mk in X by lia. discriminate. }
  assert (Nx : forall j, fV s (Nat.iter j (pV (fT s)) h) = Nat.iter j (pV (fT s)) (fV s h)).
  { intros [|j]; [reflexivity|]. rewrite (iter_S' (pV (fT s)) j (fV s h)). rewrite (pV_fV n) by auto.
    cbn [Nat.iter]. now apply (fV_pV n). }
  rewrite hits_cwb, Nx in Hk. apply andb_true_iff in Hk as [Hk1 Hk2]. apply negb_true_iff in Hk1. split; auto.
  destruct (least (fun i => cwb s d (Nat.iter i (pV (fT s)) (fV s h))) k Hk2) as (j & Lj & Hj & Mj).
  exists j. split; auto. split; auto.
  assert (G : forall m, j + m <= k -> cwb s d (Nat.iter (j + m) (pV (fT s)) (fV s h)) = true).
  { induction m as [|m IH]; intros Lm; [now rewrite Nat.add_0_r|].
    assert (X := Mk (j + m) ltac:(lia)). rewrite hits_cwb, Nx, IH, andb_true_r in X by lia. apply negb_false_iff in X.
    replace (j + Datatypes.S m) with (Datatypes.S (j + m)) by lia. rewrite iter_S', (pV_fV n) by auto. exact X. }
  intros i Hi. replace i with (j + (i - j)) by lia. apply G. lia.
Qed.

Lemma loops_cw n s h d fuel : flat_surface n s -> h < n -> inner_at s h -> vden d <> (0, 0)%R -> n + 1 < fuel ->
  exists e, (do x <- nextAtVertex (fT s) h; do x <- turn_while fuel s (previousAtVertex (fT s)) is_not_cw d x;
             turn_while fuel s (previousAtVertex (fT s)) is_cw d x) = Ok e /\
            first_cw s h (vden d) e.
Proof.
  intros S Hh N Hd Lf. destruct (step_next n s S h Hh) as [-> Hn]. cbn [bind].
  destruct (walk_cw n s h d S Hh N Hd) as (k & Lk & Fk & Ck & j & Lj & C1 & C2).
  exists (Nat.iter k (pV (fT s)) h). split; auto. assert (Lt : forall j, Nat.iter j (pV (fT s)) (fV s h) < n) by (intros; now apply pV_iter_lt).
  assert (Ek : Nat.iter (Datatypes.S k) (pV (fT s)) (fV s h) = Nat.iter k (pV (fT s)) h).
  { rewrite iter_S'. now rewrite (pV_fV n). }
  rewrite (turn_while_Ok n s (pV (fT s)) _ is_not_cw d j S (step_prev n s S)); auto; [| | |lia].
  - cbn [bind]. rewrite (turn_while_Ok n s (pV (fT s)) _ is_cw d (Datatypes.S k - j) S (step_prev n s S)); auto; [| | |lia].
    + rewrite <- iter_add. replace (Datatypes.S k - j + j) with (Datatypes.S k) by lia. now rewrite Ek.
    + intros i Hi. rewrite <- iter_add. apply C2. lia.
    + rewrite <- iter_add. replace (Datatypes.S k - j + j) with (Datatypes.S k) by lia. rewrite Ek. exact Ck.
  - intros i Hi. rewrite is_not_cw_negb. apply negb_true_iff. now apply C1.
  - rewrite is_not_cw_negb. apply negb_false_iff. apply C2. lia.
Qed.

Lemma vv_nonzero n s h : flat_surface n s -> h < n -> fF s h <> h -> vv s h <> (0, 0)%R.
Proof. intros S Hh N. apply (det_nonzero _ _ (corner_det n s h S Hh N)). Qed.

Lemma same_hits n s h d : flat_surface n s -> h < n -> fF s h <> h -> vden d <> (0, 0)%R -> same_direction (vv s h) (vden d) -> sector_contains s h (vden d).
Proof.
  intros S Hh N Hd (r & Hr & E). apply (contains_hits n); auto. assert (D := corner_det n s h S Hh N). rewrite E. unfold hits.
  assert (pdet (vv s h) (pscale r (vv s h)) = 0%R) by (unfold pdet, pscale; cbn; ring).
  assert (pdet (vv s (fV s h)) (pscale r (vv s h)) = (- (r * pdet (vv s h) (vv s (fV s h))))%R) by (unfold pdet, pscale; cbn; ring).
  assert (0 < r * pdet (vv s h) (vv s (fV s h)))%R by (apply Rmult_lt_0_compat; auto).
  destruct (Rle_dec 0 (pdet (vv s h) (pscale r (vv s h)))); [|lra]. destruct (Rlt_dec (pdet (vv s (fV s h)) (pscale r (vv s h))) 0); [auto|lra].
Qed.

Lemma first_ccw_here s h (d : pt) : sector_contains s h d -> first_ccw s h d h.
Proof. intros C. exists 0. split; auto. split; auto. intros; lia. Qed.
Lemma first_cw_here s h (d : pt) : sector_contains s h d -> first_cw s h d h.
Proof. intros C. exists 0. split; auto. split; auto. intros; lia. Qed.

Lemma same_code n s h d : flat_surface n s -> h < n -> fF s h <> h -> vden d <> (0, 0)%R ->
  (ccw_eqb (ccw (vat' s h) d) COLLINEAR && orientation_eqb (orientation (vat' s h) d) SAME = true <-> same_direction (vv s h) (vden d)).
Proof.
  intros S Hh N Hd. rewrite same_direction_signs by (auto; now apply (vv_nonzero n)). unfold vv. fold (vat' s h).
  pose proof (ccw_cases (vat' s h) d) as C. pose proof (orientation_cases (vat' s h) d) as O.
  destruct (ccw (vat' s h) d), (orientation (vat' s h) d); cbn; split; intros Q; try discriminate; auto; try lra; destruct Q; lra.
Qed.

Lemma in_plane_Ok n s h d : flat_surface n s -> h < n -> fF s h <> h -> vden d <> (0, 0)%R ->
  exists b, in_plane s h d = Ok b /\ (b = true <-> ~ same_direction (pneg (vv s h)) (vden d)).
Proof.
  intros S Hh Nh Hd. assert (Nz := vv_nonzero n s h S Hh Nh). unfold in_plane. rewrite from_he_Ok by (now rewrite (fs_length n s S)). cbn [bind].
  eexists. split; [reflexivity|].
  assert (Nz' : pneg (vv s h) <> (0, 0)%R). { intros Z. apply Nz. rewrite <- (pneg_pneg (vv s h)), Z. unfold pneg; cbn. f_equal; lra. }
  rewrite same_direction_signs by auto. change (vv s h) with (vden (vat' s h)).
  pose proof (ccw_cases d (vat' s h)) as C. pose proof (orientation_cases d (vat' s h)) as O.
  destruct (ccw d (vat' s h)), (orientation d (vat' s h)); cbn; unfold pdet, pdot, pneg in *; cbn [fst snd] in *; split; intros Q; try discriminate; auto; try (intros [? ?]; lra).
  exfalso. apply Q. split; lra.
Qed.

Lemma sector_plane_Ok n s h d fuel : flat_surface n s -> h < n -> inner_at s h -> vden d <> (0, 0)%R -> n + 1 < fuel ->
  ~ same_direction (pneg (vv s h)) (vden d) ->
  exists e, sector_plane fuel s h d = Ok e /\
    ((0 <= pdet (vv s h) (vden d))%R -> first_ccw s h (vden d) e) /\ ((pdet (vv s h) (vden d) < 0)%R -> first_cw s h (vden d) e).
Proof.
  intros S Hh N Hd Lf Op. assert (Nh : fF s h <> h) by (apply N; now exists 0). assert (Nz := vv_nonzero n s h S Hh Nh).
  assert (Lh : h < length (fvec s)) by now rewrite (fs_length n s S).
  unfold sector_plane, in_plane. rewrite from_he_Ok by auto. cbn [bind].
  assert (Nz' : pneg (vv s h) <> (0, 0)%R). { intros Z. apply Nz. rewrite <- (pneg_pneg (vv s h)), Z. unfold pneg; cbn. f_equal; lra. }
  rewrite same_direction_signs in Op by auto.
  assert (P : negb (ccw_eqb (ccw d (vat' s h)) COLLINEAR) || negb (orientation_eqb (orientation d (vat' s h)) OPPOSITE) = true).
  { pose proof (ccw_cases d (vat' s h)) as C. pose proof (orientation_cases d (vat' s h)) as O.
    destruct (ccw d (vat' s h)), (orientation d (vat' s h)); cbn; auto. exfalso. apply Op. unfold vv. fold (vat' s h).
    unfold pdet, pdot, pneg in *; cbn [fst snd] in *. split; lra. }
  rewrite P. cbn [negb]. cbn [bind].
  pose proof (ccw_cases (vat' s h) d) as C. change (vv s h) with (vden (vat' s h)).
  assert (Ec : cwb s d h = is_cw (ccw (vat' s h) d)) by reflexivity.
  destruct (ccw (vat' s h) d) eqn:Ed; cbn in Ec.
  - (* counterclockwise *)
    destruct (walk_ccw n s h d S Hh N Hd) as (k & Lk & Fk & Ck & j & Lj & C1 & C2).
    destruct j as [|j]; [|assert (Z := C1 0 ltac:(lia)); cbn in Z; congruence].
    exists (Nat.iter k (fV s) h). split; [|split; [auto|intros; lra]].
    rewrite (turn_while_Ok n s (fV s) _ is_not_cw d (Datatypes.S k) S (step_next n s S)); auto; [| | |lia].
    + cbn [bind]. rewrite (proj1 (step_prev n s S _ (iter_lt n _ _ h (bijV n s S) Hh _))). f_equal. cbn [Nat.iter]. apply (pV_fV n); [auto|].
      apply (iter_lt n _ _ h (bijV n s S) Hh).
    + intros i Hi. rewrite is_not_cw_negb. apply negb_true_iff. apply C2. lia.
    + rewrite is_not_cw_negb. apply negb_false_iff. exact Ck.
  - (* collinear *)
    exists h. split; auto. split; [|intros; lra]. intros _. apply first_ccw_here. apply (same_hits n); auto.
    apply same_direction_signs; auto. unfold vv. fold (vat' s h). split; auto.
    destruct (Rtotal_order (pdot (vden (vat' s h)) (vden d)) 0) as [X|[X|X]]; [| |auto].
    + exfalso. apply Op. unfold vv. fold (vat' s h). unfold pdet, pdot, pneg in *; cbn [fst snd] in *. split; lra.
    + exfalso. now apply (collinear_not_orthogonal (vden (vat' s h)) (vden d)).
  - (* clockwise *)
    destruct (walk_cw n s h d S Hh N Hd) as (k & Lk & Fk & Ck & j & Lj & C1 & C2).
    exists (Nat.iter k (pV (fT s)) h). split; [|split; [intros; lra|auto]].
    apply (turn_while_Ok n s (pV (fT s)) _ is_cw d k S (step_prev n s S)); auto; [|lia].
    intros i Hi.
    (* at h the direction is clockwise; so are all half edges up to the result *)
    assert (Bk : forall m, m < k -> cwb s d (Nat.iter m (pV (fT s)) h) = true).
    { assert (Mk : forall m, m < k -> ~ sector_contains s (Nat.iter m (pV (fT s)) h) (vden d)).
      { intros m Hm X.
        apply (contains_hits n) in X; auto; [|apply pV_iter_lt; auto|apply (inner_at_prev n s h m S Hh N); now exists 0].
        rewrite hits_cwb in X. apply andb_true_iff in X as [X1 X2]. apply negb_true_iff in X1.
        assert (Nm : Nat.iter m (pV (fT s)) h = Nat.iter (Datatypes.S m) (pV (fT s)) (fV s h)).
        { rewrite iter_S'. now rewrite (pV_fV n). }
        destruct (Nat.le_gt_cases j (Datatypes.S m)) as [Q|Q].
        - rewrite Nm, C2 in X1 by lia. discriminate.
        - assert (j = 0 \/ 0 < j) as [->|J0] by lia; [lia|].
          destruct (Nat.lt_ge_cases 1 j) as [J1|J1]; [|lia].
          assert (Z : cwb s d h = false) by (rewrite <- (pV_fV n s h S Hh); exact (C1 1 J1)). congruence. }
      induction m as [|m IH]; intros Hm; [exact Ec|].
      destruct (cwb s d (Nat.iter (Datatypes.S m) (pV (fT s)) h)) eqn:Z; auto. exfalso. apply (Mk (Datatypes.S m) Hm).
      apply (contains_hits n); auto; [apply pV_iter_lt; auto|apply (inner_at_prev n s h (Datatypes.S m) S Hh N); now exists 0|].
      rewrite hits_cwb, Z. cbn [negb andb]. rewrite iter_S, (fV_pV n) by (auto; now apply pV_iter_lt). apply IH. lia. }
    apply Bk. exact Hi.
Qed.

Lemma same_self n s h d fuel c : flat_surface n s -> h < n -> inner_at s h -> vden d <> (0, 0)%R -> c <> COLLINEAR -> same_direction (vv s h) (vden d) ->
  sector_turn fuel s h c d false = Ok h.
Proof.
  intros S Hh N Hd Hc Sd. assert (Nh : fF s h <> h) by (apply N; now exists 0). unfold sector_turn.
  replace (ccw_eqb c COLLINEAR) with false by (destruct c; auto; now destruct Hc).
  rewrite from_he_Ok by (now rewrite (fs_length n s S)). cbn [bind]. apply (same_code n s h d S Hh Nh Hd) in Sd. now rewrite Sd.
Qed.

Lemma sector_turn_ccw n s h d fuel ex : flat_surface n s -> h < n -> inner_at s h -> vden d <> (0, 0)%R -> n + 1 < fuel ->
  exists e, sector_turn fuel s h COUNTERCLOCKWISE d ex = Ok e /\ turns_ccw s h (vden d) ex e.
Proof.
  intros S Hh N Hd Lf. assert (Nh : fF s h <> h) by (apply N; now exists 0). unfold sector_turn.
  cbn [ccw_eqb]. rewrite from_he_Ok by (now rewrite (fs_length n s S)). cbn [bind].
  pose proof (same_code n s h d S Hh Nh Hd) as X.
  destruct (ccw_eqb (ccw (vat' s h) d) COLLINEAR && orientation_eqb (orientation (vat' s h) d) SAME) eqn:Y; cbn [andb negb].
  - assert (Sd : same_direction (vv s h) (vden d)) by now apply X. destruct ex; cbn [negb].
    + destruct (step_next n s S h Hh) as [-> Hn]. cbn [bind].
      destruct (loops_ccw n s (fV s h) d fuel S Hn (inner_at_next n s h 1 S Hh N) Hd Lf) as (e & E & F).
      exists e. split; [exact E|]. split; auto. intros Q. exfalso. apply Q. auto.
    + exists h. split; auto. split; [intros [_ Q]; discriminate|]. intros _. apply first_ccw_here. now apply (same_hits n).
  - assert (Sd : ~ same_direction (vv s h) (vden d)) by (intros Q; apply X in Q; discriminate).
    cbn [bind]. destruct (loops_ccw n s h d fuel S Hh N Hd Lf) as (e & E & F).
    exists e. split; [exact E|]. split; auto. intros [Q _]. contradiction.
Qed.

Lemma sector_turn_cw n s h d fuel ex : flat_surface n s -> h < n -> inner_at s h -> vden d <> (0, 0)%R -> n + 1 < fuel ->
  exists e, sector_turn fuel s h CLOCKWISE d ex = Ok e /\
    (same_direction (vv s h) (vden d) -> ex = false -> e = h) /\
    (same_direction (vv s h) (vden d) -> ex = true -> first_cw s (pV (fT s) h) (vden d) e) /\
    (~ same_direction (vv s h) (vden d) -> first_cw s h (vden d) e).
Proof.
  intros S Hh N Hd Lf. assert (Nh : fF s h <> h) by (apply N; now exists 0). unfold sector_turn.
  cbn [ccw_eqb]. rewrite from_he_Ok by (now rewrite (fs_length n s S)). cbn [bind].
  pose proof (same_code n s h d S Hh Nh Hd) as X.
  destruct (ccw_eqb (ccw (vat' s h) d) COLLINEAR && orientation_eqb (orientation (vat' s h) d) SAME) eqn:Y; cbn [andb negb].
  - assert (Sd : same_direction (vv s h) (vden d)) by now apply X. destruct ex; cbn [negb].
    + destruct (step_prev n s S h Hh) as [-> Hp]. cbn [bind].
      destruct (loops_cw n s (pV (fT s) h) d fuel S Hp (inner_at_prev n s h 1 S Hh N) Hd Lf) as (e & E & F).
      exists e. split; [exact E|]. split; [discriminate|]. split; auto. intros Q. contradiction.
    + exists h. split; auto. split; auto. split; [discriminate|]. intros Q. contradiction.
  - assert (Sd : ~ same_direction (vv s h) (vden d)) by (intros Q; apply X in Q; discriminate).
    cbn [bind]. destruct (loops_cw n s h d fuel S Hh N Hd Lf) as (e & E & F).
    exists e. split; [exact E|]. split; [contradiction|]. split; [contradiction|auto].
Qed.

Lemma first_cw_from n s h (d : pt) e : flat_surface n s -> h < n -> e < n -> ~ sector_contains s h d -> first_cw s h d e -> first_cw s (pV (fT s) h) d e.
Proof.
  intros S Hh He C (k & Ek & Ce & M). destruct k as [|k]. { cbn in Ek. subst. contradiction. }
  exists k. split; [|split; auto].
  - rewrite iter_S in Ek. rewrite <- Ek, (pV_fV n); auto. apply (iter_lt n _ _ e (bijV n s S) He).
  - intros j Hj. apply M. lia.
Qed.

Lemma turn_while_lt n s (f : nat -> nat) step P d : flat_surface n s -> (forall x, x < n -> step x = Ok (f x) /\ f x < n) ->
  forall fuel h e, h < n -> turn_while fuel s step P d h = Ok e -> e < n.
Proof.
  intros S St. induction fuel as [|fuel IH]; intros h e Hh E; [discriminate|]. cbn [turn_while] in E.
  rewrite from_he_Ok in E by (now rewrite (fs_length n s S)). cbn [bind] in E. destruct (P _); [|inversion E; now subst].
  destruct (St h Hh) as [Q L]. rewrite Q in E. cbn [bind] in E. now apply IH in E.
Qed.

Lemma sector_turn_lt n s h c d ex fuel e : flat_surface n s -> h < n -> sector_turn fuel s h c d ex = Ok e -> e < n.
Proof.
  intros S Hh. unfold sector_turn. destruct (ccw_eqb c COLLINEAR); [discriminate|].
  rewrite from_he_Ok by (now rewrite (fs_length n s S)). cbn [bind].
  set (sm := ccw_eqb _ _ && _). destruct (sm && negb ex). { intros E. inversion E. now subst. }
  destruct (step_next n s S h Hh) as [E1 L1]. destruct (step_prev n s S h Hh) as [E2 L2].
  assert (exists h', (if sm then if ccw_eqb c CLOCKWISE then previousAtVertex (fT s) h else nextAtVertex (fT s) h else Ok h) = Ok h' /\ h' < n) as (h' & -> & L).
  { destruct sm; [destruct (ccw_eqb c CLOCKWISE)|]; eauto. }
  cbn [bind]. destruct (ccw_eqb c COUNTERCLOCKWISE).
  - destruct (turn_while fuel s (nextAtVertex (fT s)) is_cw d h') as [x| | |] eqn:Q1; try discriminate. cbn [bind].
    assert (Hx := turn_while_lt n s _ _ _ d S (step_next n s S) fuel h' x L Q1).
    destruct (turn_while fuel s (nextAtVertex (fT s)) is_not_cw d x) as [y| | |] eqn:Q2; try discriminate. cbn [bind].
    assert (Hy := turn_while_lt n s _ _ _ d S (step_next n s S) fuel x y Hx Q2).
    destruct (step_prev n s S y Hy) as [-> Ly]. intros E. inversion E. now subst.
  - destruct (step_next n s S h' L) as [-> Ln]. cbn [bind].
    destruct (turn_while fuel s (previousAtVertex (fT s)) is_not_cw d (fV s h')) as [x| | |] eqn:Q1; try discriminate. cbn [bind].
    assert (Hx := turn_while_lt n s _ _ _ d S (step_prev n s S) fuel _ x Ln Q1).
    intros Q2. exact (turn_while_lt n s _ _ _ d S (step_prev n s S) fuel x e Hx Q2).
Qed.

Lemma turns_cw_Ok n s h d fuel ex : flat_surface n s -> h < n -> inner_at s h -> vden d <> (0, 0)%R -> n + 1 < fuel ->
  ~ (sector_contains s h (vden d) /\ ~ same_direction (vv s h) (vden d)) ->
  exists e, sector_turn fuel s h CLOCKWISE d ex = Ok e /\ turns_cw n s h (vden d) ex e.
Proof.
  intros S Hh N Hd Lf X. destruct (sector_turn_cw n s h d fuel ex S Hh N Hd Lf) as (e & E & E1 & E2 & E3).
  exists e. split; auto. split; [tauto|]. intros Y. exists (pV (fT s) h). split; [apply (pV_lt n); auto; apply S|]. split; [now apply (fV_pV n)|].
  assert (Le := sector_turn_lt n s h _ d ex fuel e S Hh E).
  destruct (classic (same_direction (vv s h) (vden d))) as [Z|Z].
  - apply E2; auto. destruct ex; tauto.
  - apply (first_cw_from n); auto; tauto.
Qed.

Lemma sector_from_ccw n s h v d fuel ex : flat_surface n s -> h < n -> inner_at s h -> vden v <> (0, 0)%R -> vden d <> (0, 0)%R -> n + 1 < fuel ->
  sector_contains s h (vden v) ->
  exists e, sector_from fuel s h v COUNTERCLOCKWISE d ex = Ok e /\ reaches_ccw s h (vden v) (vden d) ex e.
Proof.
  intros S Hh N Hv Hd Lf Cv. assert (Nh : fF s h <> h) by (apply N; now exists 0). unfold sector_from. cbn [ccw_eqb].
  rewrite (in_sector_at_Ok n) by auto. apply (contains_hits n s h _ S Hh Nh Hv) in Cv. rewrite Cv. cbn [bind negb].
  rewrite (in_sector_at_Ok n) by auto. cbn [bind]. pose proof (contains_hits n s h _ S Hh Nh Hd) as Cd.
  assert (Sd : hits (vden v) (vv s h) (vv s (fV s h)) = true -> hits (vden d) (vv s h) (vv s (fV s h)) = true -> pdet (vden v) (vden d) = 0%R -> same_direction (vden v) (vden d)).
  { intros H1 H2. apply (same_sector_same (vv s h) (vv s (fV s h))); auto. now apply (corner_det n). }
  destruct (step_next n s S h Hh) as [En Ln]. rewrite En.
  assert (G : exists e, (do sector <- Ok (fV s h); sector_turn fuel s sector COUNTERCLOCKWISE d false) = Ok e /\ first_ccw s (fV s h) (vden d) e).
  { cbn [bind]. destruct (sector_turn_ccw n s (fV s h) d fuel false S Ln (inner_at_next n s h 1 S Hh N) Hd Lf) as (e & E & _ & E2).
    exists e. split; auto. apply E2. intros [_ Q]. discriminate. }
  destruct G as (e & E & Fe). pose proof (ccw_cases v d) as Cc. unfold reaches_ccw.
  destruct (hits (vden d) (vv s h) (vv s (fV s h))) eqn:Hits; cbn [andb].
  - assert (Cd' : sector_contains s h (vden d)) by now apply Cd. specialize (Sd Cv eq_refl).
    destruct (ccw v d) eqn:Ev; cbn [ccw_eqb andb negb Datatypes.orb].
    + exists h. split; auto. split; [auto|]. intros Q. exfalso. apply Q. auto.
    + destruct ex; cbn [andb negb Datatypes.orb].
      * exists e. split; auto. split; [|auto]. intros (_ & [Q|[_ Q]]); [lra|discriminate].
      * exists h. split; auto. split; [auto|]. intros Q. exfalso. apply Q. auto.
    + exists e. split; auto. split; [|auto]. intros (_ & [Q|[Q _]]); [lra|]. apply same_direction_signs in Q; auto. lra.
  - exists e. split; auto. split; [|auto]. intros (Q & _). apply Cd in Q. discriminate.
Qed.

Lemma sector_from_cw n s h v d fuel ex : flat_surface n s -> h < n -> inner_at s h -> vden v <> (0, 0)%R -> vden d <> (0, 0)%R -> n + 1 < fuel ->
  sector_contains s h (vden v) ->
  ~ (sector_contains s h (vden d) /\ ~ same_direction (vv s h) (vden d) /\ ((0 < pdet (vden v) (vden d))%R \/ (same_direction (vden v) (vden d) /\ ex = true))) ->
  exists e, sector_from fuel s h v CLOCKWISE d ex = Ok e /\ reaches_cw n s h (vden v) (vden d) ex e.
Proof.
  intros S Hh N Hv Hd Lf Cv X. assert (Nh : fF s h <> h) by (apply N; now exists 0). unfold sector_from. cbn [ccw_eqb].
  assert (Cv' := Cv). rewrite (in_sector_at_Ok n) by auto. apply (contains_hits n s h _ S Hh Nh Hv) in Cv. rewrite Cv. cbn [bind negb].
  rewrite (in_sector_at_Ok n) by auto. cbn [bind]. pose proof (contains_hits n s h _ S Hh Nh Hd) as Cd.
  assert (Sd : hits (vden v) (vv s h) (vv s (fV s h)) = true -> hits (vden d) (vv s h) (vv s (fV s h)) = true -> pdet (vden v) (vden d) = 0%R -> same_direction (vden v) (vden d)).
  { intros H1 H2. apply (same_sector_same (vv s h) (vv s (fV s h))); auto. now apply (corner_det n). }
  destruct (sector_turn_cw n s h d fuel true S Hh N Hd Lf) as (e & E & _ & E2 & E3).
  assert (Le := sector_turn_lt n s h _ d true fuel e S Hh E).
  assert (G : (sector_contains s h (vden d) -> same_direction (vv s h) (vden d)) -> exists p, p < n /\ fV s p = h /\ first_cw s p (vden d) e).
  { intros Q. exists (pV (fT s) h). split; [apply (pV_lt n); auto; apply S|]. split; [now apply (fV_pV n)|].
    destruct (classic (same_direction (vv s h) (vden d))) as [Z|Z]; [now apply E2|]. apply (first_cw_from n); auto. }
  pose proof (ccw_cases v d) as Cc. unfold reaches_cw.
  destruct (hits (vden d) (vv s h) (vv s (fV s h))) eqn:Hits; cbn [andb].
  - assert (Cd' : sector_contains s h (vden d)) by now apply Cd. specialize (Sd Cv eq_refl).
    destruct (ccw v d) eqn:Ev; cbn [ccw_eqb andb negb Datatypes.orb bind].
    + exists e. split; auto. split.
      * intros (_ & [Q|[Q _]]); [lra|]. apply same_direction_signs in Q; auto. lra.
      * intros _. apply G. intros _. destruct (classic (same_direction (vv s h) (vden d))) as [Z|Z]; auto. exfalso. apply X. auto 10.
    + destruct ex; cbn [andb negb Datatypes.orb bind].
      * exists e. split; auto. split. { intros (_ & [Q|[_ Q]]); [lra|discriminate]. }
        intros _. apply G. intros _. destruct (classic (same_direction (vv s h) (vden d))) as [Z|Z]; auto. exfalso. apply X. auto 10.
      * exists h. split; auto. split; [auto|]. intros Q. exfalso. apply Q. auto.
    + exists h. split; auto. split; [auto|]. intros Q. exfalso. apply Q. auto.
  - exists e. cbn [bind]. split; auto. split. { intros (Q & _). apply Cd in Q. discriminate. }
    intros _. apply G. intros Q. apply Cd in Q. discriminate.
Qed.

Lemma reps_count n s reps : flat_surface n s -> closed_surface n s -> one_per_triangle n s reps -> n = 3 * length reps.
Proof.
  intros S C O. pose proof (Permutation_length (reps_cover n s reps S O)) as P. rewrite !app_length, !map_length in P.
  replace (filter (fun e => negb (fF s e =? e)) (seq 0 n)) with (seq 0 n) in P; [rewrite seq_length in P; lia|].
  assert (H : forall l, (forall x, In x l -> x < n) -> filter (fun e => negb (fF s e =? e)) l = l).
  { induction l as [|a l IH]; cbn; intros H; auto. assert (X := C a (H a (or_introl eq_refl))). apply Nat.eqb_neq in X. rewrite X. cbn. f_equal. auto. }
  symmetry. apply H. intros x J. apply in_seq in J. lia.
Qed.

(** The sectors that contain a direction. *)
Lemma cover n s v (d : pt) : flat_surface n s -> In v (tverts (fT s)) -> inner_vertex s v -> d <> (0, 0)%R ->
  exists k l, angle s v = Ok k /\ NoDup l /\ length l = k /\ forall h, In h l <-> In h (members n v) /\ sector_contains s h d.
Proof.
  intros S I N Hd. destruct (corners_exist n s v S I N) as (al & A). destruct (angle_total n s v al S I N A) as (k & E & L & _ & T). specialize (T d Hd).
  exists k, (filter (fun h => hits d (vv s h) (vv s (fV s h))) (members n v)). split; auto. split; [apply NoDup_filter, members_NoDup|]. split; auto.
  intros h. rewrite filter_In. assert (X : In h (members n v) -> (sector_contains s h d <-> hits d (vv s h) (vv s (fV s h)) = true)).
  { intros J. apply members_In in J as [J1 J2]. apply (contains_hits n); auto. }
  split; intros [J Q]; split; auto; now apply X.
Qed.
End flat.
