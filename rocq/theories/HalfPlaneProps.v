(** * Theorems on sectors in a half plane *)
From Coq Require Import ZArith Reals List Arith Bool Lia Lra Psatz.
From Verif Require Import Base HalfEdge HalfEdgeFacts Perm PermSpec PermFacts PermCycles PermLemmas Combinatorial CombinatorialSpec CombinatorialFacts CombinatorialProps ExactReal Vector PlaneSpec Plane VectorFacts VectorProps
  FlatTri FlatSpec FlatFacts FlatAngle FlatSector FlatProps FlatAngleProps Saddle SaddleSpec Search SearchSpec Connect ConnectProps HalfPlane.
Import ListNotations.
Local Open Scope R_scope.

Lemma between_dots a b c w : pdet a c * pdot b w = pdet a b * pdot c w + pdet b c * pdot a w.
Proof. destruct a, b, c, w; unfold pdet, pdot; cbn [fst snd]; ring. Qed.
(** In a half plane, turning clockwise from a vector that is clockwise from [d]. *)
Lemma still_clockwise a b d w : 0 < pdot a w -> 0 < pdot b w -> 0 < pdot d w -> 0 < pdet a b -> 0 <= pdet b d -> 0 <= pdet a d.
Proof. intros A B D X Y. pose proof (between_dots a b d w) as E. assert (0 <= pdet a b * pdot d w) by nra. assert (0 <= pdet b d * pdot a w) by nra. apply Rnot_lt_le. intros N. nra. Qed.
(** When the half plane is left, [d] has been met. *)
Lemma left_clockwise a b d w : pdot a w <= 0 -> 0 < pdot b w -> 0 < pdot d w -> 0 < pdet a b -> pdet b d < 0 -> 0 <= pdet a d.
Proof. intros A B D X Y. pose proof (between_dots a b d w) as E. assert (0 < pdet a b * pdot d w) by nra. assert (0 <= pdet b d * pdot a w) by nra. apply Rnot_lt_le. intros N. nra. Qed.

Section half_plane.
Context {K : ExactReal} (n : nat) (s : flat K).
Hypothesis S0 : flat_surface n s.
Variables (h : nat) (w d : vec K).
Hypothesis Hh : (h < n)%nat.
Hypothesis Inner : inner_at s h.
Hypothesis Hw : 0 < pdot (vv s h) (vden w).
Hypothesis Hd : 0 < pdot (vden d) (vden w).
Local Notation q i := (Nat.iter i (pV (fT s)) h).

Lemma q_lt i : (q i < n)%nat. Proof. now apply pV_iter_lt. Qed.
Lemma q_inner i : fF s (q i) <> q i. Proof. apply (inner_at_prev n s h i S0 Hh Inner). now exists 0%nat. Qed.
Lemma q_next i : fV s (q (S i)) = q i. Proof. cbn [Nat.iter]. apply (fV_pV n); auto. apply q_lt. Qed.
Lemma q_det i : 0 < pdet (vv s (q (S i))) (vv s (q i)).
Proof. pose proof (corner_det n s (q (S i)) S0 (q_lt _) (q_inner _)) as D. now rewrite q_next in D. Qed.
Lemma d_nonzero : vden d <> (0, 0). Proof. intros E. rewrite E in Hd. unfold pdot in Hd. cbn [fst snd] in Hd. lra. Qed.
Lemma q_contains i : sector_contains s (q i) (vden d) <-> 0 <= pdet (vv s (q i)) (vden d) /\ pdet (vv s (fV s (q i))) (vden d) < 0.
Proof.
  rewrite (contains_hits n s (q i) (vden d) S0 (q_lt i) (q_inner i) d_nonzero). unfold FlatAngle.hits. destruct (Rle_dec _ _) as [A|A]; [destruct (Rlt_dec _ _) as [B|B]|]; split; intros; auto; try discriminate; tauto.
Qed.

(** The half plane is left. *)
Lemma leaves : exists k, (k <= n)%nat /\ pdot (vv s (q k)) (vden w) <= 0 /\ forall i, (i < k)%nat -> 0 < pdot (vv s (q i)) (vden w).
Proof.
  set (b := fun i => if Rle_dec (pdot (vv s (q i)) (vden w)) 0 then true else false).
  set (r := (snd (vden w), - fst (vden w)) : pt).
  assert (Nr : r <> (0, 0)). { intros E. unfold r in E. pose proof (f_equal fst E) as E1. pose proof (f_equal snd E) as E2. cbn [fst snd] in E1, E2. unfold pdot in Hw. destruct (vden w) as [a c]. cbn [fst snd] in *. assert (a = 0) by lra. subst a c. lra. }
  destruct (some_hit_back n s h r S0 Hh Inner Nr) as (k & Lk & Q). cbv zeta in Q.
  assert (B : b k = true).
  { unfold b. destruct (Rle_dec _ _) as [|X]; auto. exfalso. unfold FlatAngle.hits in Q. destruct (Rle_dec 0 (pdet (vv s (q k)) r)) as [Y|]; [|discriminate]. apply X. unfold pdet, r in Y. unfold pdot. cbn [fst snd] in Y. lra. }
  destruct (least b k B) as (j & Lj & Bj & M). exists j. split; [lia|]. split.
  - unfold b in Bj. destruct (Rle_dec _ _); [auto|discriminate].
  - intros i Hi. specialize (M i Hi). unfold b in M. destruct (Rle_dec _ _); [discriminate|lra].
Qed.
Lemma leave_run k : pdot (vv s (q k)) (vden w) <= 0 -> (forall i, (i < k)%nat -> 0 < pdot (vv s (q i)) (vden w)) -> forall j f, (j <= k)%nat -> (j < f)%nat -> leave_half_plane f s w (q (k - j)) = Ok (q k).
Proof.
  intros A B. induction j as [|j IH]; intros f Lj Lf; (destruct f as [|f]; [lia|]); cbn [leave_half_plane].
  - rewrite Nat.sub_0_r. destruct (C25_in_half_plane K n s (q k) w S0 (q_lt k)) as (b & -> & E). cbn [bind]. destruct b; auto. pose proof (proj1 E eq_refl). lra.
  - destruct (C25_in_half_plane K n s (q (k - S j)) w S0 (q_lt _)) as (b & -> & E). cbn [bind]. rewrite (proj2 E) by (apply B; lia).
    destruct (step_prev n s S0 (q (k - S j)) (q_lt _)) as (-> & _). cbn [bind]. change (pV (fT s) (q (k - S j))) with (q (S (k - S j))). replace (S (k - S j)) with (k - j)%nat by lia. apply IH; lia.
Qed.
(** The search goes from sector to sector. *)
Lemma find_run j : forall f e, (e < n)%nat -> (forall i, (i <= j)%nat -> fF s (Nat.iter i (fV s) e) <> Nat.iter i (fV s) e) -> (forall i, (i < j)%nat -> ~ sector_contains s (Nat.iter i (fV s) e) (vden d)) ->
  sector_contains s (Nat.iter j (fV s) e) (vden d) -> (j < f)%nat -> find_sector f s d e = Ok (Nat.iter j (fV s) e).
Proof.
  induction j as [|j IH]; intros f e He Nb A B Lf; (destruct f as [|f]; [lia|]); cbn [find_sector]; destruct (C25_in_sector K n s e d S0 He (Nb 0%nat ltac:(lia)) d_nonzero) as (b & -> & E); cbn [bind].
  - apply E in B. now subst b.
  - destruct b; [exfalso; apply (A 0%nat); [lia|now apply E]|]. destruct (step_next n s S0 e He) as (-> & L). cbn [bind]. rewrite iter_S'. apply IH; auto; try lia.
    + intros i Hi. rewrite <- iter_S'. apply Nb. lia.
    + intros i Hi. rewrite <- iter_S'. apply A. lia.
    + now rewrite <- iter_S'.
Qed.

Lemma swipe_run : exists e, (forall f, (2 * n + 1 < f)%nat -> sector_half_plane f s h w d = Ok e) /\
  (0 <= pdet (vv s h) (vden d) -> first_ccw s h (vden d) e) /\ (pdet (vv s h) (vden d) < 0 -> first_cw s h (vden d) e).
Proof.
  destruct leaves as (k & Lk & Ak & Bk). assert (Pk : (0 < k)%nat) by (destruct k; [cbn in Ak; lra|lia]).
  assert (Start : forall f, (2 * n + 1 < f)%nat -> sector_half_plane f s h w d = find_sector f s d (q k)).
  { intros f Hf. unfold sector_half_plane. destruct (C25_in_half_plane K n s h w S0 Hh) as (b & -> & E). cbn [bind]. rewrite (proj2 E) by auto. cbn [negb].
    assert (O : orientation d w = SAME) by (pose proof (orientation_cases d w) as O; destruct (orientation d w); auto; lra). rewrite O. cbn [orientation_eqb negb].
    pose proof (leave_run k Ak Bk k f ltac:(lia) ltac:(lia)) as R. rewrite Nat.sub_diag in R. cbn [Nat.iter] in R. change (Nat.iter 0 (pV (fT s)) h) with h in R. now rewrite R. }
  (** Once the walk backwards is clockwise from [d], it remains so. *)
  assert (Mono : forall j i, (j <= i < k)%nat -> 0 <= pdet (vv s (q j)) (vden d) -> 0 <= pdet (vv s (q i)) (vden d)).
  { intros j i (L1 & L2) X. induction L1 as [|i L1 IH]; auto. apply (still_clockwise _ (vv s (q i)) _ (vden w)); [apply Bk; lia|apply Bk; lia|assumption|apply q_det|apply IH; lia]. }
  assert (Back : forall i, (i <= k)%nat -> Nat.iter i (fV s) (q k) = q (k - i)) by (intros; now apply (pV_fV_iter n)).
  assert (Nb : forall i, fF s (Nat.iter i (fV s) (q k)) <> Nat.iter i (fV s) (q k)) by (intros i; apply (inner_at_prev n s h k S0 Hh Inner); now exists i).
  destruct (Rlt_le_dec (pdet (vv s h) (vden d)) 0) as [X|X].
  - set (b := fun i => if Rle_dec 0 (pdet (vv s (q i)) (vden d)) then true else false).
    assert (B : exists i, (i <= k)%nat /\ b i = true).
    { destruct (Rlt_le_dec (pdet (vv s (q (k - 1))) (vden d)) 0) as [Y|Y].
      - exists k. split; auto. unfold b. destruct (Rle_dec _ _) as [|Z]; auto. exfalso. apply Z. apply (left_clockwise _ (vv s (q (k - 1))) _ (vden w)); [assumption|apply Bk; lia|assumption| |assumption]. pose proof (q_det (k - 1)) as D. now replace (S (k - 1)) with k in D by lia.
      - exists (k - 1)%nat. split; [lia|]. unfold b. destruct (Rle_dec _ _); auto; lra. }
    destruct B as (i0 & L0 & B0). destruct (least b i0 B0) as (j & Lj & Bj & M).
    assert (Pj : 0 <= pdet (vv s (q j)) (vden d)) by (unfold b in Bj; destruct (Rle_dec _ _); [auto|discriminate]).
    assert (Mj : forall i, (i < j)%nat -> pdet (vv s (q i)) (vden d) < 0) by (intros i Hi; specialize (M i Hi); unfold b in M; destruct (Rle_dec _ _); [discriminate|lra]).
    assert (Nj : (0 < j)%nat) by (destruct j; [cbn in Pj; lra|lia]).
    assert (Cj : sector_contains s (q j) (vden d)) by (apply q_contains; split; auto; replace j with (S (j - 1)) by lia; rewrite q_next; apply Mj; lia).
    exists (q j). split; [|split].
    + intros f Hf. rewrite Start by auto. replace (q j) with (Nat.iter (k - j) (fV s) (q k)) by (rewrite Back by lia; f_equal; lia). apply find_run; auto; try lia; [apply q_lt| |rewrite Back by lia; now replace (k - (k - j))%nat with j by lia].
      intros i Hi. rewrite Back by lia. intros Q. apply q_contains in Q as (_ & Q). replace (k - i)%nat with (S (k - i - 1)) in Q by lia. rewrite q_next in Q. specialize (Mono j (k - i - 1)%nat ltac:(lia) Pj). lra.
    + intros Y. lra.
    + intros _. exists j. split; [now apply (pV_iter n)|]. split; auto. intros i Hi. rewrite (pV_fV_iter n) by (auto; lia). intros Q. apply q_contains in Q as (Q & _). specialize (Mj (j - i)%nat ltac:(lia)). lra.
  - destruct (some_hit n s h (vden d) S0 Hh Inner d_nonzero) as (m & Lm & Q). set (c := fun i => FlatAngle.hits (vden d) (vv s (Nat.iter i (fV s) h)) (vv s (fV s (Nat.iter i (fV s) h)))).
    destruct (least c m Q) as (j & Lj & Cj & M). assert (Lt : forall i, (Nat.iter i (fV s) h < n)%nat) by (intros i; apply (iter_lt n (fV s) (pV (fT s)) h (bijV n s S0) Hh)).
    assert (Ni : forall i, fF s (Nat.iter i (fV s) h) <> Nat.iter i (fV s) h) by (intros i; apply Inner; now exists i).
    assert (Spec : forall i, sector_contains s (Nat.iter i (fV s) h) (vden d) <-> c i = true) by (intros i; apply (contains_hits n); auto; apply d_nonzero).
    assert (E : forall i, Nat.iter (i + k) (fV s) (q k) = Nat.iter i (fV s) h) by (intros i; rewrite iter_add; f_equal; now apply (pV_iter n)).
    exists (Nat.iter j (fV s) h). split; [|split].
    + intros f Hf. rewrite Start by auto. rewrite <- E. apply find_run; auto; try lia; [apply q_lt| |rewrite E; now apply Spec].
      intros i Hi. destruct (le_lt_dec k i) as [L|L].
      * replace i with (i - k + k)%nat by lia. rewrite E. intros Y. apply Spec in Y. rewrite M in Y by lia. discriminate.
      * rewrite Back by lia. intros Y. apply q_contains in Y as (_ & Y). replace (k - i)%nat with (S (k - i - 1)) in Y by lia. rewrite q_next in Y. specialize (Mono 0%nat (k - i - 1)%nat ltac:(lia) X). lra.
    + intros _. exists j. split; auto. split; [now apply Spec|]. intros i Hi Y. apply Spec in Y. rewrite M in Y by auto. discriminate.
    + intros Y. lra.
Qed.
End half_plane.

(** ** C81: the sector of a direction in a half plane *)
(** If the half edge or the direction are not in the half plane of the vertical, an exception is thrown.  Otherwise, the sector is found by turning from the half edge to the direction inside the half plane. *)
Theorem C81_sector : forall (K : ExactReal) n (s : flat K) h (w d : vec K) f, flat_surface n s -> (h < n)%nat -> inner_at s h -> (2 * n + 1 < f)%nat ->
  (pdot (vv s h) (vden w) <= 0 \/ pdot (vden d) (vden w) <= 0 -> sector_half_plane f s h w d = Throw) /\
  (0 < pdot (vv s h) (vden w) -> 0 < pdot (vden d) (vden w) -> exists e, sector_half_plane f s h w d = Ok e /\
    (0 <= pdet (vv s h) (vden d) -> first_ccw s h (vden d) e) /\ (pdet (vv s h) (vden d) < 0 -> first_cw s h (vden d) e)).
Proof.
  intros K n s h w d f S0 Hh I Hf. split.
  - intros A. unfold sector_half_plane. destruct (C25_in_half_plane K n s h w S0 Hh) as (b & -> & E). cbn [bind]. destruct b; auto. cbn [negb]. pose proof (proj1 E eq_refl).
    pose proof (orientation_cases d w) as O. destruct (orientation d w); auto. lra.
  - intros A B. destruct (swipe_run n s S0 h w d Hh I A B) as (e & He & F1 & F2). exists e. split; auto.
Qed.
Print Assumptions C81_sector.


Lemma first_ccw_once {K : ExactReal} (s : flat K) h d e e' : first_ccw s h d e -> first_ccw s h d e' -> e = e'.
Proof.
  intros (k & <- & C & N) (k' & <- & C' & N'). destruct (lt_eq_lt_dec k k') as [[L|L]|L]; [now destruct (N' k L)|now subst|now destruct (N k' L)].
Qed.
Lemma first_cw_once {K : ExactReal} n (s : flat K) h d e e' : flat_surface n s -> (e < n)%nat -> (e' < n)%nat -> first_cw s h d e -> first_cw s h d e' -> e = e'.
Proof.
  intros S He He' (k & E & C & N) (k' & E' & C' & N').
  assert (Q : Nat.iter k (pV (fT s)) h = e) by (rewrite <- E; now apply (pV_iter' n)). assert (Q' : Nat.iter k' (pV (fT s)) h = e') by (rewrite <- E'; now apply (pV_iter' n)).
  assert (Hh : (h < n)%nat) by (rewrite <- E; now apply (iter_lt n (fV s) (pV (fT s)) e (bijV n s S))).
  destruct (lt_eq_lt_dec k k') as [[L|L]|L]; [|now subst|]; exfalso.
  - apply (N' (k' - k)%nat); [lia|]. rewrite <- Q', (pV_fV_iter n) by (auto; lia). replace (k' - (k' - k))%nat with k by lia. now rewrite Q.
  - apply (N (k - k')%nat); [lia|]. rewrite <- Q, (pV_fV_iter n) by (auto; lia). replace (k - (k - k'))%nat with k' by lia. now rewrite Q'.
Qed.
Lemma first_cw_lt {K : ExactReal} n (s : flat K) f h (w d : vec K) e : flat_surface n s -> (h < n)%nat -> sector_half_plane f s h w d = Ok e -> (e < n)%nat.
Proof.
  intros S Hh. unfold sector_half_plane. destruct (in_half_plane s h w) as [[|]| | |]; try discriminate. cbn [bind negb]. destruct (negb _); [discriminate|].
  assert (A : forall f h e, (h < n)%nat -> leave_half_plane f s w h = Ok e -> (e < n)%nat).
  { induction f0 as [|f0 IH]; intros x y Hx; [discriminate|]. cbn [leave_half_plane]. destruct (in_half_plane s x w) as [[|]| | |]; try discriminate; cbn [bind]; [|intros Q; now injection Q as <-].
    destruct (step_prev n s S x Hx) as (-> & L). cbn [bind]. now apply IH. }
  assert (B : forall f h e, (h < n)%nat -> find_sector f s d h = Ok e -> (e < n)%nat).
  { induction f0 as [|f0 IH]; intros x y Hx; [discriminate|]. cbn [find_sector]. destruct (in_sector_at s x d) as [[|]| | |]; try discriminate; cbn [bind]; [intros Q; now injection Q as <-|].
    destruct (step_next n s S x Hx) as (-> & L). cbn [bind]. now apply IH. }
  destruct (leave_half_plane f s w h) as [p| | |] eqn:E; try discriminate. cbn [bind]. apply B. now apply (A f h).
Qed.
Lemma sector_plane_lt {K : ExactReal} n (s : flat K) f h (d : vec K) e : flat_surface n s -> (h < n)%nat -> sector_plane f s h d = Ok e -> (e < n)%nat.
Proof.
  intros S Hh. unfold sector_plane. destruct (in_plane s h d) as [[|]| | |]; try discriminate. cbn [bind negb]. destruct (from_he s h) as [u| | |]; try discriminate. cbn [bind]. destruct (ccw u d).
  - destruct (turn_while _ _ _ _ _ _) as [p| | |] eqn:E; try discriminate. apply (turn_while_lt n s _ _ _ _ S (step_next n s S)) in E; auto. cbn [bind]. destruct (step_prev n s S p E) as (-> & L). intros Q. now injection Q as <-.
  - intros Q. now injection Q as <-.
  - apply (turn_while_lt n s _ _ _ _ S (step_prev n s S)); auto.
Qed.

(** The same sector is found without the vertical. *)
Theorem C81_plane : forall (K : ExactReal) n (s : flat K) h (w d : vec K) f f', flat_surface n s -> (h < n)%nat -> inner_at s h -> (2 * n + 1 < f)%nat -> (n + 1 < f')%nat ->
  0 < pdot (vv s h) (vden w) -> 0 < pdot (vden d) (vden w) -> sector_half_plane f s h w d = sector_plane f' s h d.
Proof.
  intros K n s h w d f f' S0 Hh I Hf Hf' A B. destruct (proj2 (C81_sector K n s h w d f S0 Hh I Hf) A B) as (e & E & F1 & F2).
  destruct (proj2 (C25_sector_plane K n s h d f' S0 Hh I (d_nonzero w d B) Hf')) as (_ & e' & E' & F1' & F2').
  { intros (r & Hr & Q). rewrite Q in B. destruct (vv s h), (vden w). unfold pdot, pscale, pneg in *. cbn [fst snd] in *. nra. }
  rewrite E, E'. f_equal. destruct (Rlt_le_dec (pdet (vv s h) (vden d)) 0) as [X|X]; [|apply (first_ccw_once s h (vden d)); auto].
  apply (first_cw_once n s h (vden d)); auto; [now apply (first_cw_lt n s f h w d)|now apply (sector_plane_lt n s f' h d)].
Qed.
Print Assumptions C81_plane.
(** So a saddle connection in a half plane is the one in the plane of the half edge, see C74. *)
Theorem C81_in_half_plane : forall (K : ExactReal) n (s : flat K) h (w d : vec K) f, flat_surface n s -> (h < n)%nat -> inner_at s h -> (2 * n + 1 < f)%nat ->
  (pdot (vv s h) (vden w) <= 0 \/ pdot (vden d) (vden w) <= 0 -> sc_in_half_plane f s h w d = Throw) /\
  (0 < pdot (vv s h) (vden w) -> 0 < pdot (vden d) (vden w) -> sc_in_half_plane f s h w d = sc_in_plane f s h d).
Proof.
  intros K n s h w d f S0 Hh I Hf. split.
  - intros A. unfold sc_in_half_plane. now rewrite (proj1 (C81_sector K n s h w d f S0 Hh I Hf) A).
  - intros A B. unfold sc_in_half_plane, sc_in_plane. rewrite (C81_plane K n s h w d f f); auto. lia.
Qed.
Print Assumptions C81_in_half_plane.

Example C81_ex : flat_surface 6 flip_s /\ inner_at flip_s 0 /\ 0 < pdot (vv flip_s 0) (vden (zv 1 0)) /\ 0 < pdot (vden (zv 3 1)) (vden (zv 1 0)) /\ pdet (vv flip_s 0) (vden (zv 3 1)) < 0 /\
  sector_half_plane 20 flip_s 0 (zv 1 0) (zv 3 1) = Ok 3%nat /\ sector_half_plane 20 flip_s 0 (zv 1 0) (zv 1 5) = Ok 0%nat /\ sector_half_plane 20 flip_s 0 (zv 1 0) (zv (-1) 5) = Throw /\ sector_half_plane 20 flip_s 1 (zv 1 0) (zv 3 1) = Throw /\
  sc_in_half_plane 50 flip_s 0 (zv 1 0) (zv 3 1) = Ok (mkSconn flip_s 3 2 [0; -2; -3]%Z).
Proof.
  destruct flip_flat as (S & C). split; auto. split; [apply (inner_all 6 flip_s S C); lia|]. do 3 (split; [unfold vv; cbn; unfold pdot, pdet; cbn; lra|]). repeat split; vm_compute; reflexivity.
Qed.
