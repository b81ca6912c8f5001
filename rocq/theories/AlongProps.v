(** * Theorems on saddle connections in the direction of a Vertical *)
From Coq Require Import ZArith Reals List Arith Bool Lia Lra Psatz Permutation Sorted.
From Verif Require Import Base HalfEdge Combinatorial CombinatorialSpec CombinatorialProps ExactReal Vector PlaneSpec Plane VectorFacts VectorProps FlatTri FlatSpec FlatFacts FlatAngle FlatSector FlatProps FlatAngleProps
  Chain ChainSpec Saddle SaddleSpec SaddleFacts Sqrt2 Search SearchSpec SearchPlane SearchProps SectorSpec SectorFacts SectorProps ByLength ByLengthProps Connect ConnectFacts ConnectProps Along AlongFacts.
Import ListNotations.
Local Open Scope R_scope.

Lemma same_sector {K : ExactReal} n (s : flat K) h d y g : flat_surface n s -> (h < n)%nat -> d <> (0, 0) -> connection s h y g -> same_direction d y -> sector_contains s h d.
Proof.
  intros S0 Hh Nd Cy (r & Hr & Ey). destruct (connection_sector n s S0 h y g Hh Cy) as (Ny & Sy). pose proof (proj1 Cy) as N.
  apply (contains_hits n) in Sy; auto. apply (contains_hits n); auto. subst y. unfold FlatAngle.hits in *. rewrite !det_scale in Sy.
  destruct (Rle_dec 0 (pdet (vv s h) d)) as [A|A]; [|exfalso; destruct (Rle_dec 0 (r * pdet (vv s h) d)); [nra|discriminate]].
  destruct (Rlt_dec (pdet (vv s (fV s h)) d) 0) as [A'|A']; auto. destruct (Rlt_dec (r * pdet (vv s (fV s h)) d) 0); [nra|]. destruct (Rle_dec 0 (r * pdet (vv s h) d)); discriminate.
Qed.

(** ** C80: the saddle connection in a direction *)
(** If the direction is not in the sector, an exception is thrown.  If there is a saddle connection in the sector and in that direction, however long, it is returned.  Otherwise, the search
    does not end. *)
Theorem C80_in_sector : forall (K : ExactReal) n (s : flat K) h (d : vec K) sort, flat_surface n s -> (forall h, (h < n)%nat -> vv s h <> (0, 0)) -> sorts n sort ->
  (h < n)%nat -> fF s h <> h -> vden d <> (0, 0) ->
  (~ sector_contains s h (vden d) -> forall f, along_sector sort f s h d = Throw) /\
  (forall y g, connection s h y g -> same_direction (vden d) y ->
    exists k x, (forall f, (k <= f)%nat -> along_sector sort f s h d = Ok x) /\ sc_valid n x /\ sc_surface x = s /\ sc_source x = h /\ sv n x = y /\ sc_target x = g) /\
  (sector_contains s h (vden d) -> (forall y g, connection s h y g -> ~ same_direction (vden d) y) -> forall f, along_sector sort f s h d = OutOfFuel).
Proof.
  intros K n s h d sort S0 Nz So Hh N Nd. destruct (C25_in_sector K n s h d S0 Hh N Nd) as (b & Eb & B).
  destruct (C34_sector n _ _ d d (C34_sector_at n _ _ h (C34_all n s S0 Nz)) Nd Nd) as (cs & Ec & Su & Ra & C). change (cn_radius cs = None) in Ra. change (cn_surface cs = s) in Su. assert (Hn : (0 < n)%nat) by lia.
  assert (Run : sector_contains s h (vden d) -> forall f, along_sector sort f s h d = do ret <- bbegin sort cs f; bdereference ret) by (intros Q f; apply B in Q; subst b; unfold along_sector; rewrite Eb; cbn [bind negb]; now rewrite Ec).
  split; [|split].
  - intros Q f. destruct b; [now destruct Q; apply B|]. unfold along_sector. now rewrite Eb.
  - intros y g Cy Sy. pose proof (connection_nonzero n s S0 h y g Hh Cy) as Py.
    destruct (arrive n cs _ sort C Ra So Hn h y g) as (k & x & Hk & Vx & Sx & (((_ & Cx) & Ex) & Ix)); auto; [split; [auto|now apply in_sector_same]|].
    exists k, x. split; [|split; [auto|split; [congruence|split; [auto|]]]].
    + intros f Hf. rewrite Run by now apply (same_sector n s h _ y g). destruct (Hk f Hf) as (lo & up' & w & E). unfold bbegin. now rewrite E.
    + rewrite Ex in Cx. apply in_sector_same in Ix; auto. apply (connection_once s h y g (sv n x) (sc_target x) Cy Cx). destruct Sy as (r & Hr & ->), Ix as (q & Hq & ->).
      exists (q / r). split; [now apply Rdiv_lt_0_compat|]. destruct (vden d); unfold pscale; cbn [fst snd]. f_equal; field; lra.
  - intros Q No f. rewrite Run by auto. rewrite (never n cs _ sort C Ra So Hn); auto. intros h' v g (((_ & Cx) & ->) & Ix). apply in_sector_same in Ix; auto. now apply (No v g).
Qed.
Print Assumptions C80_in_sector.

(** The other functions first look for the sector, see C25, and then proceed in the same way. *)
Theorem C80_plane : forall (K : ExactReal) n (s : flat K) h (d : vec K) sort f, flat_surface n s -> (h < n)%nat -> inner_at s h -> vden d <> (0, 0) -> (n + 1 < f)%nat ->
  (same_direction (pneg (vv s h)) (vden d) -> along_plane sort f s h d = Throw) /\
  (~ same_direction (pneg (vv s h)) (vden d) -> exists e, (0 <= pdet (vv s h) (vden d) -> first_ccw s h (vden d) e) /\ (pdet (vv s h) (vden d) < 0 -> first_cw s h (vden d) e) /\
    along_plane sort f s h d = along_sector sort f s e d).
Proof.
  intros K n s h v sort f S0 Hh I Nv Hf. destruct (C25_sector_plane K n s h v f S0 Hh I Nv Hf) as (A & B). split; intros Sd; unfold along_plane.
  - destruct (A Sd) as (_ & ->). reflexivity.
  - destruct (B Sd) as (_ & e & -> & F1 & F2). exists e. auto.
Qed.
Print Assumptions C80_plane.
Theorem C80_vertical : forall (K : ExactReal) n (s : flat K) h (d : vec K) sort f, flat_surface n s -> (h < n)%nat -> inner_at s h -> vden d <> (0, 0) -> (n + 1 < f)%nat ->
  (pdot (vv s h) (vden d) <= 0 -> along_vertical sort f s d h = Throw) /\
  (0 < pdot (vv s h) (vden d) -> exists e, (0 <= pdet (vv s h) (vden d) -> first_ccw s h (vden d) e) /\ (pdet (vv s h) (vden d) < 0 -> first_cw s h (vden d) e) /\
    along_vertical sort f s d h = along_sector sort f s e d).
Proof.
  intros K n s h v sort f S0 Hh I Nv Hf. destruct (C25_sector_plane K n s h v f S0 Hh I Nv Hf) as (_ & A). destruct (C25_in_half_plane K n s h v S0 Hh) as (b & Eb & B). split; intros Sd; unfold along_vertical; rewrite Eb; cbn [bind].
  - destruct b; auto. pose proof (proj1 B eq_refl). lra.
  - apply B in Sd as E. subst b. cbn [negb]. destruct A as (_ & e & -> & F1 & F2); [|exists e; auto]. intros (r & Hr & E). rewrite E in Sd. destruct (vv s h) as [a c]. unfold pdot, pscale, pneg in Sd. cbn [fst snd] in Sd. nra.
Qed.
Print Assumptions C80_vertical.
Theorem C80_counterclockwise : forall (K : ExactReal) n (x : sconn K) (d : vec K) sort f, sc_valid n x -> inner_at (sc_surface x) (sc_source x) -> sv n x <> (0, 0) -> vden d <> (0, 0) -> (n + 1 < f)%nat ->
  sector_contains (sc_surface x) (sc_source x) (sv n x) ->
  exists e, reaches_ccw (sc_surface x) (sc_source x) (sv n x) (vden d) false e /\ along_counterclockwise sort f (sc_surface x) x d = along_sector sort f (sc_surface x) e d.
Proof.
  intros K n x v sort f X I Nx Nv Hf C. destruct X as (S0 & Hs & X'). assert (X : sc_valid n x) by (split; auto). destruct (sc_vector_Ok n x X) as (w & Ew & Dw). rewrite <- Dw in *.
  destruct (C25_sector_from_counterclockwise K n (sc_surface x) (sc_source x) w v f false S0 Hs I Nx Nv Hf C) as (e & E & R).
  exists e. split; auto. unfold along_counterclockwise. rewrite Ew. cbn [bind]. now rewrite E.
Qed.
Print Assumptions C80_counterclockwise.

Example C80_ex : flat_surface 6 flip_s /\ (forall h, (h < 6)%nat -> vv flip_s h <> (0, 0)) /\ sorts 6 (@isort ExactZ) /\ inner_at flip_s 3 /\ connection flip_s 3 (3, 1) 2 /\ same_direction (vden (zv 6 2)) (3, 1) /\
  along_sector isort 50 flip_s 3 (zv 6 2) = Ok (mkSconn flip_s 3 2 [0; -2; -3]%Z) /\ along_plane isort 50 flip_s 0 (zv 6 2) = Ok (mkSconn flip_s 3 2 [0; -2; -3]%Z) /\
  along_vertical isort 50 flip_s (zv 6 2) 0 = Ok (mkSconn flip_s 3 2 [0; -2; -3]%Z) /\ along_vertical isort 50 flip_s (zv 6 2) 3 = Throw /\
  along_counterclockwise isort 50 flip_s on_flip (zv 6 2) = Ok (mkSconn flip_s 3 2 [0; -2; -3]%Z) /\ along_sector isort 50 torus_s 0 (zv 0 1) = Throw.
Proof.
  destruct flip_flat as (S & C). split; auto. split; [intros h; now apply nonzero_edges|]. split; [apply isort_sorts|]. split; [apply (inner_all 6 flip_s S C); lia|].
  split; [exact flip_connection|]. split; [exists (1 / 2); split; [lra|]; rewrite vden_zv; unfold pscale; cbn [fst snd]; f_equal; lra|]. repeat split; vm_compute; reflexivity.
Qed.

(** The square torus with coordinates in Z[√2]. *)
Definition s2v (a b : Z) : vec ExactS2 := @mkVec ExactS2 (a, 0%Z) (b, 0%Z).
Definition torus2_s : flat ExactS2 := mkFlat torus_t [s2v 1 0; s2v (-1) 0; s2v 0 1; s2v 0 (-1); s2v (-1) (-1); s2v 1 1].
Definition slanted : vec ExactS2 := @mkVec ExactS2 (2%Z, 0%Z) (0%Z, 1%Z).
Lemma torus2_vv h : (h < 6)%nat -> vv torus2_s h = vv torus_s h.
Proof. intros Hh. do 6 (destruct h as [|h]; [unfold vv, vden; cbn; unfold s2_den; cbn [fst snd]; f_equal; lra|]). lia. Qed.
Lemma torus2_flat : flat_surface 6 torus2_s /\ closed_surface 6 torus2_s.
Proof.
  destruct torus_flat as (_ & S & C). split; [|intros e He; exact (C e He)]. pose proof (fs_wf 6 _ S) as W. split.
  - exact W.
  - reflexivity.
  - intros e He. rewrite !torus2_vv by (auto; do 6 (destruct e as [|e]; [cbn; lia|]); lia). now apply (fs_odd 6 _ S).
  - intros e He N. change (fF torus2_s) with (fF torus_s) in *. pose proof (fs_flat 6 _ S e He N) as Q.
    assert (X : forall g, (g < 6)%nat -> (fF torus_s g < 6)%nat) by (intros g Hg; do 6 (destruct g as [|g]; [vm_compute; lia|]); lia). cbv zeta in *. rewrite !torus2_vv by auto. exact Q.
Qed.
Definition whole (v : pt) : Prop := exists a b, v = (IZR a, IZR b).
Lemma whole_add v w : whole v -> whole w -> whole (padd v w).
Proof. intros (a & b & ->) (c & d & ->). exists (a + c)%Z, (b + d)%Z. unfold padd; cbn [fst snd]. now rewrite !plus_IZR. Qed.
Lemma torus2_whole h : whole (vv torus2_s h).
Proof.
  destruct (lt_dec h 6) as [Hh|Hh].
  - rewrite torus2_vv by auto. exists (vx (vat' torus_s h)), (vy (vat' torus_s h)). reflexivity.
  - exists 0%Z, 0%Z. do 6 (destruct h as [|h]; [lia|]). unfold vv, vat'. cbn [fvec torus2_s]. rewrite nth_overflow by (cbn; lia). unfold vden; cbn. unfold s2_den; cbn [fst snd]. f_equal; lra.
Qed.
Lemma torus2_hits p h v g : hits torus2_s p h v g -> whole p -> whole v.
Proof. induction 1 as [p h N C|p h v g N C H IH|p h v g N C H IH]; intros P; auto; try apply IH; auto; apply whole_add; auto; apply torus2_whole. Qed.
Lemma torus2_connection h v g : connection torus2_s h v g -> whole v.
Proof. intros (_ & [[-> _]|H]); [apply torus2_whole|]. apply torus2_hits in H; auto. apply torus2_whole. Qed.
Lemma slanted_none v : whole v -> ~ same_direction (vden slanted) v.
Proof.
  intros (a & b & ->) (r & Hr & E). unfold vden, slanted, pscale in E. cbn in E. unfold s2_den in E. cbn [fst snd] in E. injection E as E1 E2. pose proof sq2 as Q.
  assert (IZR a * IZR a = 2 * (IZR b * IZR b)) by (rewrite E1, E2; nra). assert (a * a = 2 * (b * b))%Z by (apply eq_IZR; now rewrite !mult_IZR).
  destruct (no_sqrt2 a b) as (-> & _); auto. lra.
Qed.

(** There need not be a saddle connection in the direction; then there is no exception but the search goes on for ever. *)
Theorem C80_ends_refuted : exists (s : flat ExactS2) h (d : vec ExactS2), flat_surface 6 s /\ closed_surface 6 s /\ (h < 6)%nat /\ vden d <> (0, 0) /\ sector_contains s h (vden d) /\
  forall sort f, sorts 6 sort -> along_sector sort f s h d = OutOfFuel.
Proof.
  destruct torus2_flat as (S & C). exists torus2_s, 0%nat, slanted. assert (Nd : vden slanted <> (0, 0)) by (unfold vden, slanted; cbn; unfold s2_den; cbn [fst snd]; intros Q; injection Q; intros; lra).
  assert (Co : sector_contains torus2_s 0 (vden slanted)) by (apply (computed_contains 6); try lia; auto; vm_compute; reflexivity).
  do 2 (split; [assumption|]). split; [lia|]. do 2 (split; [assumption|]). intros sort f So.
  apply (C80_in_sector ExactS2 6 torus2_s 0 slanted sort S); [intros h; now apply nonzero_edges|assumption|lia|apply C; lia|assumption|assumption|]. intros y g Cy. apply slanted_none. now apply (torus2_connection 0 y g).
Qed.
Print Assumptions C80_ends_refuted.
