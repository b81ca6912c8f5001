(** * Area and angles are kept when a marked point is inserted *)
From Coq Require Import ZArith Reals List Arith Bool Lia Lra Psatz Permutation.
From Verif Require Import Base HalfEdge HalfEdgeFacts Perm PermSpec PermFacts PermCycles PermLemmas
  IndexedSet Combinatorial CombinatorialSpec CombinatorialFacts CombinatorialFlip
  CombinatorialHistory CombinatorialOps CombinatorialInsert ExactReal Vector PlaneSpec Plane VectorFacts FlatTri FlatSpec FlatFacts FlatSum FlatLinear FlatOps FlatAngle
  Point PointSpec Insert InsertSpec InsertFacts.
Import ListNotations.
Local Open Scope nat_scope.

Section kept.
Context {K : ExactReal}.
Implicit Types (s u : flat K) (n e h : nat).

Lemma seq_new n : seq 0 (n + 6) = seq 0 n ++ [n; n + 1; n + 2; n + 3; n + 4; n + 5].
Proof.
  rewrite seq_app. f_equal. cbn [seq Nat.add].
  now replace (S n) with (n + 1) by lia; replace (S (n + 1)) with (n + 2) by lia; replace (S (n + 2)) with (n + 3) by lia; replace (S (n + 3)) with (n + 4) by lia;
    replace (S (n + 4)) with (n + 5) by lia.
Qed.

(** The sum of the areas when the corners in [L] of the old triangles change and there are six new half edges. *)
Lemma area_new n s u L : NoDup L -> (forall x : nat, In x L -> x < n) ->
  (forall i, i < n -> ~ In i L -> corner_area u i = corner_area s i) ->
  (rsum (map (corner_area u) L) + rsum (map (corner_area u) [n; n + 1; n + 2; n + 3; n + 4; n + 5]%nat) = rsum (map (corner_area s) L))%R ->
  area_sum (n + 6) u = area_sum n s.
Proof.
  intros D Lt O E. unfold area_sum. rewrite seq_new, map_app, rsum_app.
  assert (X : rsum (map (fun i => (corner_area u i + - 1 * corner_area s i)%R) (seq 0 n)) = rsum (map (fun i => (corner_area u i + - 1 * corner_area s i)%R) L)).
  { apply rsum_support; auto using seq_NoDup.
    - intros x Hx. apply in_seq. assert (X := Lt x Hx). lia.
    - intros x Hx Nx. apply in_seq in Hx. rewrite O by (auto; lia). lra. }
  rewrite !rsum_plus, !rsum_scale in X. lra.
Qed.

Lemma area_rotations n u x y z : flat_surface n u -> x < n -> y < n -> z < n -> fF u x = y -> fF u y = z -> fF u z = x -> x <> y ->
  let T := pdet (vv u x) (vv u y) in corner_area u x = T /\ corner_area u y = T /\ corner_area u z = T.
Proof.
  intros S Hx Hy Hz X Y Z N. cbv zeta.
  assert (C1 : corner_area u x = pdet (vv u x) (vv u y)). { unfold corner_area, triangle_area2. rewrite X. destruct (Nat.eqb_spec y x); auto. congruence. }
  assert (C2 := corner_area_next n u x S Hx). assert (C3 := corner_area_next n u y S Hy). rewrite X in C2. rewrite Y in C3.
  repeat split; congruence.
Qed.

Lemma face_area n s u e v : flat_surface n s -> e < n -> fF s e <> e -> face_inserted n s u e v -> area_sum (n + 6) u = area_sum n s.
Proof.
  intros S0 He NB [Su IF Old New]. assert (W := fs_wf n s S0). destruct (new_negs n (wf_even _ _ W)) as (N0 & N2 & N4 & N1 & N3 & N5).
  unfold inserted_faces in IF. unfold fF in NB.
  remember (nF (fT s) e) as f eqn:Ff. remember (nF (fT s) f) as g eqn:Eg. rewrite N0, N2, N4 in *.
  destruct IF as (F1 & F2 & F3 & F4 & F5 & F6 & F7 & F8 & F9 & F10).
  assert (Hf : f < n) by (subst f; now apply (nF_lt n _ W)). assert (Hg : g < n) by (subst g; now apply (nF_lt n _ W)).
  assert (Fg : nF (fT s) g = e) by (subst g f; now apply (wf_triangle _ _ W)).
  assert (ef : e <> f) by congruence.
  assert (fg : f <> g) by (intros X; apply ef; apply (nF_inj n _ W); auto; congruence).
  assert (eg : e <> g) by (intros X; rewrite <- X in Fg; congruence).
  apply (area_new n s u [e; f; g]).
  - repeat constructor; cbn; intuition congruence.
  - intros x [<-|[<-|[<-|[]]]]; auto.
  - intros i Hi Ni. assert (Ei := F10 i Hi Ni). unfold corner_area, triangle_area2, fF. rewrite Ei.
    assert (Hn := nF_lt n _ W i Hi). rewrite !Old by auto. reflexivity.
  - destruct (area_rotations n s e f g S0 He Hf Hg) as (A1 & A2 & A3); try (unfold fF; congruence).
    destruct (area_rotations (n + 6) u n e (n + 3) Su) as (B1 & B2 & B3); try (unfold fF; congruence); try (clear - He Hf Hg; lia).
    destruct (area_rotations (n + 6) u (n + 2) f (n + 5) Su) as (C1 & C2 & C3); try (unfold fF; congruence); try (clear - He Hf Hg; lia).
    destruct (area_rotations (n + 6) u (n + 4) g (n + 1) Su) as (D1 & D2 & D3); try (unfold fF; congruence); try (clear - He Hf Hg; lia).
    cbn [map rsum]. rewrite A1, A2, A3, B1, B2, B3, C1, C2, C3, D1, D2, D3. rewrite (Old e), (Old f), (Old g) by auto.
    assert (Hn0 : n + 1 < n + 6) by lia. assert (Hn2 : n < n + 6) by lia. 
    assert (V0 : vv u n = pneg v) by (rewrite <- N1, (fs_odd _ _ Su) by auto; congruence).
    assert (V2 : vv u (n + 2) = padd (vv s e) (pneg v)).
    { destruct (fs_flat _ _ Su n Hn2) as [X _]; [unfold fF; rewrite F1; clear - He; lia|]. unfold fF in X. rewrite F1, F2, (Old e), V0 in X by auto.
      rewrite <- N2 in X. rewrite (fs_odd _ _ Su) in X by lia. clear - X. destruct (vv u (n + 2)), (vv s e), v. unfold padd, pneg in *. cbn [fst snd] in *.
      injection X as X Y. apply pt_eq; cbn [fst snd]; lra. }
    assert (V4 : vv u (n + 4) = padd (pneg (vv s g)) (pneg v)).
    { assert (Q : n + 4 < n + 6) by lia. destruct (fs_flat _ _ Su (n + 4) Q) as [X _]; [unfold fF; rewrite F7; clear - Hg; lia|]. unfold fF in X. rewrite F7, F8, (Old g), New in X by auto.
      clear - X. destruct (vv u (n + 4)), (vv s g), v. unfold padd, pneg in *. cbn [fst snd] in *. injection X as X Y. apply pt_eq; cbn [fst snd]; lra. }
    rewrite V0, V2, V4. destruct (fs_flat n s S0 e He) as [X _]; [unfold fF; congruence|]. unfold fF in X. rewrite <- Ff, <- Eg in X.
    clear - X. destruct (vv s e), (vv s f), (vv s g), v. unfold padd, pneg, pdet in *. cbn [fst snd] in *. injection X as X Y.
    replace r3 with (- r - r1)%R by lra. replace r4 with (- r0 - r2)%R by lra. ring.
Qed.

Lemma edge_area n s u e v : flat_surface n s -> e < n -> fF s e <> e -> fF s (neg e) <> neg e -> inside_edge s e v -> edge_inserted n s u e v ->
  area_sum (n + 6) u = area_sum n s.
Proof.
  intros S0 He NB NB' (r & Hr & Er) [Su IF Old New1 New2]. assert (W := fs_wf n s S0). destruct (new_negs n (wf_even _ _ W)) as (N0 & N2 & N4 & N1 & N3 & N5).
  assert (Fl := nonboundary_flippable n s e S0 He NB NB').
  destruct (flip_six n (fT s) e W Fl) as (D6 & Hf & Hg & Hx & Hy & Hne & Fg & Fy). pose proof D6 as D6'.
  unfold edge_inserted_faces in IF. unfold fF in NB, NB'.
  remember (nF (fT s) e) as f eqn:Ff. remember (nF (fT s) f) as g eqn:Eg. remember (nF (fT s) (neg e)) as x eqn:Ex. remember (nF (fT s) x) as y eqn:Ey.
  rewrite N0, N2, N4 in *. destruct IF as (F1 & F2 & F3 & F4 & F5 & F6 & F7 & F8 & F9 & F10 & F11 & F12 & F13).
  apply nodup6 in D6. destruct D6 as ((D1 & D2 & D3 & D4 & D5) & (D6 & D7 & D8 & D9) & (D10 & D11 & D12) & (D13 & D14) & D15).
  assert (Tn : nF (fT s) (neg e) = x) by auto.
  apply (area_new n s u [e; f; g; neg e; x; y]).
  - auto.
  - intros i Hi. cbn in Hi. clear - Hi He Hf Hg Hx Hy Hne. destruct Hi as [<-|[<-|[<-|[<-|[<-|[<-|[]]]]]]]; auto.
  - intros i Hi Ni. assert (Ei := F13 i Hi Ni). unfold corner_area, triangle_area2, fF. rewrite Ei.
    assert (Hn := nF_lt n _ W i Hi). assert (Ni' := not_in6 _ _ _ _ _ _ _ Ni).
    assert (Nj : nF (fT s) i <> e /\ nF (fT s) i <> neg e).
    { split; intros X; [rewrite <- Fg in X|rewrite <- Fy in X]; apply (nF_inj n _ W) in X; auto; clear - X Ni'; tauto. }
    rewrite !Old by (clear - Hi Hn Nj Ni'; tauto). reflexivity.
  - destruct (area_rotations n s e f g S0 He Hf Hg) as (A1 & A2 & A3); try (unfold fF; congruence).
    destruct (area_rotations n s (neg e) x y S0 Hne Hx Hy) as (A4 & A5 & A6); try (unfold fF; congruence).
    destruct (area_rotations (n + 6) u (n + 2) f (n + 5) Su) as (B1 & B2 & B3); try (unfold fF; congruence); try (clear - He Hf Hg; lia).
    destruct (area_rotations (n + 6) u (n + 4) g (n + 1) Su) as (C1 & C2 & C3); try (unfold fF; congruence); try (clear - He Hf Hg; lia).
    destruct (area_rotations (n + 6) u n x e Su) as (E1 & E2 & E3); try (unfold fF; congruence); try (clear - He Hx; lia).
    destruct (area_rotations (n + 6) u (n + 3) (neg e) y Su) as (G1 & G2 & G3); try (unfold fF; congruence); try (clear - Hne Hx Hy; lia).
    cbn [map rsum]. rewrite A1, A2, A3, A4, A5, A6, B1, B2, B3, C1, C2, C3, E1, E2, E3, G1, G2, G3.
    rewrite (Old f), (Old g), (Old x) by auto.
    assert (Q0 : n + 1 < n + 6) by (clear; lia). assert (Q2 : n + 2 < n + 6) by (clear; lia).
    assert (V0 : vv u n = pneg v) by (rewrite <- N1, (fs_odd _ _ Su) by auto; congruence).
    assert (V2 : vv u (n + 2) = padd (vv s e) (pneg v)).
    { clear - New2. destruct (vv u (n + 2)), (vv s e), v. unfold padd, pneg in *. cbn [fst snd] in *. injection New2 as X Y. apply pt_eq; cbn [fst snd]; lra. }
    assert (V3 : vv u (n + 3) = pneg (padd (vv s e) (pneg v))) by (rewrite <- N2, (fs_odd _ _ Su), V2 by auto; auto).
    assert (Ve : vv u (neg e) = padd (vv s x) (pneg v)).
    { assert (Q : n < n + 6) by (clear; lia). destruct (fs_flat _ _ Su n Q) as [X _]; [unfold fF; rewrite F7; clear - Hx; lia|]. unfold fF in X. rewrite F7, F8, (Old x), V0 in X by auto.
      assert (Q' : e < n + 6) by (clear - He; lia). rewrite (fs_odd _ _ Su) by auto. clear - X. destruct (vv u e), (vv s x), v. unfold padd, pneg in *. cbn [fst snd] in *.
      injection X as X Y. apply pt_eq; cbn [fst snd]; lra. }
    assert (V4 : vv u (n + 4) = padd (pneg (vv s g)) (pneg v)).
    { assert (Q : n + 4 < n + 6) by (clear; lia). destruct (fs_flat _ _ Su (n + 4) Q) as [X _]; [unfold fF; rewrite F4; clear - Hg; lia|]. unfold fF in X. rewrite F4, F5, (Old g), New1 in X by auto.
      clear - X. destruct (vv u (n + 4)), (vv s g), v. unfold padd, pneg in *. cbn [fst snd] in *. injection X as X Y. apply pt_eq; cbn [fst snd]; lra. }
    rewrite V0, V2, V3, V4, Ve. destruct (fs_flat n s S0 e He) as [X _]; [unfold fF; congruence|]. unfold fF in X. rewrite <- Ff, <- Eg in X.
    rewrite (fs_odd n s S0) by auto. rewrite Er.
    clear - X. destruct (vv s e), (vv s f), (vv s g), (vv s x). unfold padd, pneg, pdet, pscale in *. cbn [fst snd] in *. injection X as X Y.
    replace r4 with (- r0 - r2)%R by lra. replace r5 with (- r1 - r3)%R by lra. ring.
Qed.

(** ** Angles *)
Lemma hits_scale d a b c c' : (0 < c)%R -> (0 < c')%R -> hits d (pscale c a) (pscale c' b) = hits d a b.
Proof.
  intros P P'. unfold hits. replace (pdet (pscale c a) d) with (c * pdet a d)%R by (unfold pdet, pscale; cbn; ring).
  replace (pdet (pscale c' b) d) with (c' * pdet b d)%R by (unfold pdet, pscale; cbn; ring).
  destruct (Rle_dec 0 (pdet a d)) as [A|A], (Rle_dec 0 (c * pdet a d)) as [A'|A'].
  - destruct (Rlt_dec (pdet b d) 0) as [B|B], (Rlt_dec (c' * pdet b d) 0) as [B'|B']; auto; exfalso; nra.
  - exfalso. apply A'. now apply Rmult_le_pos; [left|].
  - exfalso. nra.
  - reflexivity.
Qed.
Lemma hits_split d a b c : (0 < pdet a b)%R -> (0 < pdet b c)%R -> (0 < pdet a c)%R ->
  (if hits d a b then 1 else 0) + (if hits d b c then 1 else 0) = if hits d a c then 1 else 0.
Proof.
  intros D1 D2 D3. assert (E : (pdet a c * pdet b d = pdet b c * pdet a d + pdet a b * pdet c d)%R) by (unfold pdet; ring).
  unfold hits. destruct (Rle_dec 0 (pdet a d)) as [A|A], (Rlt_dec (pdet b d) 0) as [B|B], (Rle_dec 0 (pdet b d)) as [B'|B'], (Rlt_dec (pdet c d) 0) as [C|C];
    try reflexivity; exfalso; nra.
Qed.

(** A surface [u] with the half edges [rho h] in the directions of [s] and more half edges between some of them. *)
Section angles.
Variables (n m : nat) (s u : flat K) (rho : nat -> nat) (new : nat -> option nat).
Hypothesis S0 : flat_surface n s.
Hypothesis Su : flat_surface m u.
Hypothesis rho_lt : forall h, h < n -> rho h < m.
Hypothesis rho_inj : forall x y, x < n -> y < n -> rho x = rho y -> x = y.
Hypothesis new_lt : forall h z, h < n -> new h = Some z -> z < m.
Hypothesis new_ne : forall h z x, h < n -> x < n -> new h = Some z -> z <> rho x.
Hypothesis new_inj : forall x y z, x < n -> y < n -> new x = Some z -> new y = Some z -> x = y.
Hypothesis step : forall h, h < n ->
  match new h with Some z => fV u (rho h) = z /\ fV u z = rho (fV s h) | None => fV u (rho h) = rho (fV s h) end.
Definition parts h : list nat := rho h :: match new h with Some z => [z] | None => [] end.
Hypothesis Cl : closed_surface n s.
Hypothesis Clu : closed_surface m u.
Hypothesis directions : forall h, h < n -> exists c, (0 < c)%R /\ vv u (rho h) = pscale c (vv s h).

Lemma crossings h : h < n ->
  length (filter (fun x => hits (0, 1)%R (vv u x) (vv u (fV u x))) (parts h)) = if hits (0, 1)%R (vv s h) (vv s (fV s h)) then 1 else 0.
Proof.
  intros Hh. assert (Hv := fV_lt n s h S0 Hh). destruct (directions h Hh) as (c & Pc & Ec). destruct (directions _ Hv) as (c' & Pc' & Ec').
  assert (St := step h Hh). unfold parts. destruct (new h) as [z|] eqn:E.
  - destruct St as [E1 E2]. assert (Hz := new_lt h z Hh E). assert (Hr := rho_lt h Hh).
    assert (D1 := corner_det m u (rho h) Su Hr (Clu _ Hr)). assert (D2 := corner_det m u z Su Hz (Clu _ Hz)).
    assert (D3 := corner_det n s h S0 Hh (Cl _ Hh)). rewrite E1 in D1. rewrite E2 in D2.
    cbn [filter]. rewrite E1, E2. rewrite <- (hits_scale (0, 1)%R (vv s h) (vv s (fV s h)) c c' Pc Pc'), <- Ec, <- Ec'.
    assert (D4 : (0 < pdet (vv u (rho h)) (vv u (rho (fV s h))))%R).
    { rewrite Ec, Ec'. replace (pdet (pscale c (vv s h)) (pscale c' (vv s (fV s h)))) with (c * c' * pdet (vv s h) (vv s (fV s h)))%R by (unfold pdet, pscale; cbn; ring).
      apply Rmult_lt_0_compat; auto. apply Rmult_lt_0_compat; auto. }
    assert (Q := hits_split (0, 1)%R _ _ _ D1 D2 D4).
    destruct (hits (0, 1)%R (vv u (rho h)) (vv u z)), (hits (0, 1)%R (vv u z) (vv u (rho (fV s h)))), (hits (0, 1)%R (vv u (rho h)) (vv u (rho (fV s h)))); cbn in *; lia.
  - cbn [filter]. rewrite St, Ec, Ec', (hits_scale (0, 1)%R _ _ c c' Pc Pc'). destruct (hits (0, 1)%R (vv s h) (vv s (fV s h))); reflexivity.
Qed.

Lemma orbit_kept h y : h < n -> (same_vertex (fT u) (rho h) y <-> exists x, x < n /\ same_vertex (fT s) h x /\ In y (parts x)).
Proof.
  intros Hh. assert (W := fs_wf n s S0). split.
  - intros (k & <-). revert h Hh. induction k as [k IH] using lt_wf_ind. intros h Hh. destruct k as [|k].
    + exists h. split; auto. split; [exists 0; auto|]. now left.
    + rewrite iter_S'. assert (St := step h Hh). change (nV (fT u) (rho h)) with (fV u (rho h)). assert (Hv : fV s h < n) by now apply (fV_lt n s).
      assert (Go : forall j, j < S k -> exists x, x < n /\ same_vertex (fT s) h x /\ In (Nat.iter j (nV (fT u)) (rho (fV s h))) (parts x)).
      { intros j Hj. destruct (IH j Hj (fV s h) Hv) as (x & Hx & Sx & Ix). exists x. split; auto. split; auto.
        apply same_vertex_trans with (fV s h); auto. now exists 1. }
      destruct (new h) as [z|] eqn:E.
      * destruct St as [-> St]. destruct k as [|k].
        -- exists h. split; auto. split; [exists 0; auto|]. unfold parts. rewrite E. right. now left.
        -- rewrite iter_S'. change (nV (fT u) z) with (fV u z). rewrite St. apply Go. lia.
      * rewrite St. apply Go. lia.
  - intros (x & Hx & (k & E) & Ix).
    assert (Q : forall k h, h < n -> same_vertex (fT u) (rho h) (rho (Nat.iter k (nV (fT s)) h))).
    { clear - step S0. intros k. induction k as [|k IH]; intros h Hh; [exists 0; auto|]. rewrite iter_S'. assert (St := step h Hh).
      change (nV (fT s) h) with (fV s h). assert (Hv : fV s h < n) by now apply (fV_lt n s). apply same_vertex_trans with (rho (fV s h)); auto.
      destruct (new h) as [z|]; [destruct St as [E1 E2]; exists 2|exists 1]; cbn; unfold fV in *; congruence. }
    apply same_vertex_trans with (rho x); [rewrite <- E; apply Q; auto|]. destruct Ix as [<-|Ix]; [exists 0; auto|]. assert (St := step x Hx).
    destruct (new x) as [z|]; [|destruct Ix]. destruct Ix as [<-|[]]. exists 1. apply St.
Qed.

Lemma count_parts (P Q : nat -> bool) l : (forall h, In h l -> length (filter P (parts h)) = if Q h then 1 else 0) ->
  length (filter P (flat_map parts l)) = length (filter Q l).
Proof.
  induction l as [|a l IH]; intros H; auto. cbn [flat_map]. rewrite filter_app, app_length, H, IH by auto with datatypes. cbn [filter].
  destruct (Q a); auto.
Qed.

Lemma parts_inj x y z : x < n -> y < n -> In z (parts x) -> In z (parts y) -> x = y.
Proof.
  intros Hx Hy X Y. unfold parts in X, Y. cbn [In] in X, Y.
  destruct (new x) as [zx|] eqn:Ex; destruct (new y) as [zy|] eqn:Ey; cbn [In] in X, Y;
    repeat match goal with H : _ \/ _ |- _ => destruct H | H : False |- _ => destruct H end;
    first [apply rho_inj; auto; congruence | apply (new_inj x y z); auto; congruence | exfalso; apply (new_ne x zx y); auto; congruence | exfalso; apply (new_ne y zy x); auto; congruence].
Qed.
Lemma parts_NoDup x : x < n -> NoDup (parts x).
Proof.
  intros Hx. unfold parts. destruct (new x) as [z|] eqn:E; constructor; auto; try constructor; auto; try constructor.
  cbn. intros [X|[]]. apply (new_ne x z x); auto.
Qed.
Lemma parts_lt x z : x < n -> In z (parts x) -> z < m.
Proof. intros Hx. unfold parts. intros [<-|I]; auto. destruct (new x) as [w|] eqn:E; [|destruct I]. destruct I as [<-|[]]. eauto. Qed.

Lemma parts_all_NoDup l : NoDup l -> (forall x, In x l -> x < n) -> NoDup (flat_map parts l).
Proof.
  induction 1 as [|a l Na Nl IH]; intros H; [constructor|]. cbn [flat_map]. apply NoDup_app_intro; auto with datatypes.
  - apply parts_NoDup. auto with datatypes.
  - intros z X Y. apply in_flat_map in Y as (b & Ib & Y). assert (a = b) by (apply (parts_inj a b z); auto with datatypes). congruence.
Qed.

Theorem angle_kept h v v' : h < n -> vertex_source (fT s) h = Ok v -> vertex_source (fT u) (rho h) = Ok v' ->
  angle u v' = angle s v /\ forall x, x < n -> scontains v' (rho x) = scontains v x.
Proof.
  intros Hh E E'. assert (W := fs_wf n s S0). assert (W' := fs_wf m u Su).
  destruct (vertex_source_Ok n (fT s) h W Hh) as (v1 & E1 & I1 & C1). rewrite E in E1. inv E1.
  destruct (vertex_source_Ok m (fT u) (rho h) W' (rho_lt h Hh)) as (v2 & E2 & I2 & C2). rewrite E' in E2. inv E2.
  assert (M : Permutation (members m v2) (flat_map parts (members n v1))).
  { apply NoDup_Permutation; [apply members_NoDup| |].
    - apply parts_all_NoDup; [apply members_NoDup|]. intros x Ix. now apply members_In in Ix.
    - intros y. rewrite members_In, in_flat_map, C2. rewrite (orbit_kept h y Hh). split.
      + intros (Hy & _ & x & Hx & Sx & Ix). exists x. split; auto. apply members_In. split; auto. apply C1. auto.
      + intros (x & Ix & Iy). apply members_In in Ix as [Hx Cx]. apply C1 in Cx. assert (Hy : y < m) by (eapply parts_lt; eauto). split; auto. split; auto. exists x. tauto. }
  split.
  - rewrite (angle_Ok n s v1 S0 I1), (angle_Ok m u v2 Su I2). f_equal.
    rewrite (Permutation_length (Permutation_filter' _ _ _ M)). apply count_parts. intros x Ix. apply members_In in Ix. apply crossings. tauto.
  - intros x Hx. destruct (scontains v1 x) eqn:Q.
    + apply C2. split; auto. apply orbit_kept; auto. exists x. split; auto. apply C1 in Q. split; [tauto|]. now left.
    + destruct (scontains v2 (rho x)) eqn:Q'; auto. exfalso. apply C2 in Q' as [_ Q']. apply orbit_kept in Q' as (y & Hy & Sy & Iy); auto.
      assert (y = x) by (apply (parts_inj y x (rho x)); auto; now left). subst y. assert (scontains v1 x = true) by (apply C1; auto). congruence.
Qed.
End angles.

Lemma iter_in (f : nat -> nat) l x k : In x l -> (forall y, In y l -> In (f y) l) -> In (Nat.iter k f x) l.
Proof. intros I H. induction k; cbn; auto. Qed.

(** A vertex with at most four corners has angle 1. *)
Lemma small_angle m u h v l : flat_surface m u -> closed_surface m u -> h < m -> vertex_source (fT u) h = Ok v -> In h l -> length l <= 4 ->
  (forall x, In x l -> In (nV (fT u) x) l) -> angle u v = Ok 1.
Proof.
  intros Su Cl Hh E Il Ll St. assert (W := fs_wf m u Su). destruct (vertex_source_Ok m (fT u) h W Hh) as (v' & E' & I & C). rewrite E in E'. inv E'.
  assert (N : inner_vertex u v'). { intros x Cx. apply Cl. now apply C in Cx. }
  destruct (corners_exist m u v' Su I N) as (alpha & A). destruct (angle_total m u v' alpha Su I N A) as (k & Ek & K1 & Sum & _).
  assert (Inc : incl (members m v') l).
  { intros x Ix. apply members_In in Ix as [_ Ix]. apply C in Ix as [_ (j & <-)]. now apply iter_in. }
  assert (Len : length (members m v') <= 4) by (apply Nat.le_trans with (length l); auto; apply NoDup_incl_length; auto; apply members_NoDup).
  assert (Bd : (rsum (map alpha (members m v')) < 4 * PI)%R).
  { assert (Q : forall r, (forall x, In x r -> x < m /\ scontains v' x = true) -> r <> [] -> (rsum (map alpha r) < INR (length r) * PI)%R).
    { intros r. induction r as [|x r IH]; intros H Ne; [congruence|]. destruct (H x (or_introl eq_refl)) as [Hx Cx].
      assert (T := A x Hx Cx). assert (D := corner_det m u x Su Hx (N x Cx)). destruct (det_nonzero _ _ D) as [Z _]. assert (P := turn_pos _ _ _ T Z D).
      cbn [map rsum length]. rewrite S_INR. destruct r as [|y r]; [cbn; lra|].
      assert (X := IH (fun z Iz => H z (or_intror Iz)) ltac:(congruence)). lra. }
    assert (Ne : members m v' <> []). { intros X. assert (Y : In h (members m v')) by (apply members_In; split; auto; apply C; split; auto; exists 0; auto). rewrite X in Y. destruct Y. }
    assert (X := Q (members m v') (fun x Ix => proj1 (members_In m v' x) Ix) Ne). assert (HP := PI_RGT_0). assert (L4 : (INR (length (members m v')) <= 4)%R).
    { replace 4%R with (INR 4) by (cbn; lra). now apply le_INR. } nra. }
  rewrite Sum in Bd. assert (HP := PI_RGT_0). assert (k < 2)%nat.
  { apply INR_lt. cbn [INR]. apply (Rmult_lt_reg_l (2 * PI)); lra. }
  rewrite Ek. f_equal. lia.
Qed.

Lemma face_closed n s u e v : flat_surface n s -> closed_surface n s -> e < n -> face_inserted n s u e v -> closed_surface (n + 6) u.
Proof.
  intros S0 Cl He [Su IF _ _] h Hh. assert (W := fs_wf n s S0). destruct (new_negs n (wf_even _ _ W)) as (N0 & N2 & N4 & _).
  unfold inserted_faces in IF. rewrite N0, N2, N4 in IF. destruct IF as (F1 & F2 & F3 & F4 & F5 & F6 & F7 & F8 & F9 & F10).
  assert (Hf := fF_lt n s e S0 He). assert (Hg := fF_lt n s _ S0 Hf). unfold fF in *.
  destruct (ins_cases n e (nF (fT s) e) (nF (fT s) (nF (fT s) e)) h Hh) as [(L & A & B & C)|[->|[->|[->|[->|[->|[->|[->|[->| ->]]]]]]]]].
  { rewrite F10; auto. - now apply Cl. - now apply not_in3. }
  all: rewrite ?F1, ?F2, ?F3, ?F4, ?F5, ?F6, ?F7, ?F8, ?F9; clear - He Hf Hg; lia.
Qed.

Lemma face_vertices n s u e v : flat_surface n s -> e < n -> fF s e <> e -> face_inserted n s u e v ->
  let f := fF s e in let g := fF s f in
  fV u e = n + 1 /\ fV u (n + 1) = fV s e /\ fV u f = n + 3 /\ fV u (n + 3) = fV s f /\ fV u g = n + 5 /\ fV u (n + 5) = fV s g /\
  fV u n = n + 2 /\ fV u (n + 2) = n + 4 /\ fV u (n + 4) = n /\
  forall h, h < n -> fF s h <> h -> h <> e -> h <> f -> h <> g -> fV u h = fV s h.
Proof.
  intros S0 He NB [Su IF _ _]. assert (W := fs_wf n s S0). assert (Wu := fs_wf _ u Su). destruct (new_negs n (wf_even _ _ W)) as (N0 & N2 & N4 & N1 & N3 & N5).
  cbv zeta. unfold inserted_faces in IF. rewrite N0, N2, N4 in IF. unfold fV, fF in *.
  assert (Hf := nF_lt n _ W e He). assert (Hg := nF_lt n _ W _ Hf). assert (Fg := wf_triangle _ _ W e He).
  assert (NBf := nonboundary_nF n _ W e He NB). assert (NBg := nonboundary_nF n _ W _ Hf NBf).
  remember (nF (fT s) e) as f eqn:Ff. remember (nF (fT s) f) as g eqn:Eg.
  destruct IF as (F1 & F2 & F3 & F4 & F5 & F6 & F7 & F8 & F9 & F10).
  rewrite !(nV_link' (n + 6) _ Wu); rewrite ?F1, ?F2, ?F3, ?F4, ?F5, ?F6, ?F7, ?F8, ?F9, ?F1, ?F2, ?F3, ?F4, ?F5, ?F6, ?F7, ?F8, ?F9; try (clear - He Hf Hg; lia).
  rewrite (nV_link' n _ W e He), (nV_link' n _ W f Hf), (nV_link' n _ W g Hg) by congruence. rewrite <- ?Ff, <- ?Eg, ?Fg, <- ?Ff, <- ?Eg.
  repeat (split; [congruence|]). intros h Hh Nh A B C.
  assert (H1 := nF_lt n _ W h Hh). assert (E1 : nF (fT u) h = nF (fT s) h) by (apply F10; auto; now apply not_in3).
  assert (Hh' : h < n + 6) by (clear - Hh; lia).
  rewrite (nV_link' (n + 6) _ Wu h Hh'), (nV_link' n _ W h Hh) by congruence. rewrite E1, F10; auto.
  assert (T := wf_triangle _ _ W h Hh). apply not_in3; intros X; rewrite X in T; congruence.
Qed.

Definition face_new (s : flat K) n e h : option nat :=
  if h =? e then Some (n + 1) else if h =? fF s e then Some (n + 3) else if h =? fF s (fF s e) then Some (n + 5) else None.

Theorem face_angles n s u e v : flat_surface n s -> closed_surface n s -> e < n -> face_inserted n s u e v ->
  (forall h w w', h < n -> vertex_source (fT s) h = Ok w -> vertex_source (fT u) h = Ok w' ->
     angle u w' = angle s w /\ forall x, x < n -> scontains w' x = scontains w x) /\
  (forall w, vertex_source (fT u) n = Ok w -> angle u w = Ok 1 /\ forall x, x < n -> scontains w x = false).
Proof.
  intros S0 Cl He FI. assert (W := fs_wf n s S0). assert (Su := fi_surface _ _ _ _ _ FI). assert (Clu := face_closed n s u e v S0 Cl He FI).
  destruct (face_vertices n s u e v S0 He (Cl e He) FI) as (V1 & V2 & V3 & V4 & V5 & V6 & V7 & V8 & V9 & V10). split.
  - intros h w w' Hh E E'. apply (angle_kept n (n + 6) s u (fun h => h) (face_new s n e)) with (h := h); auto.
    + intros; lia.
    + unfold face_new. intros x z Hx X. destruct (x =? e), (x =? fF s e), (x =? fF s (fF s e)); inv X; lia.
    + unfold face_new. intros x z y Hx Hy X. destruct (x =? e), (x =? fF s e), (x =? fF s (fF s e)); inv X; lia.
    + unfold face_new. intros x y z Hx Hy X Y.
      destruct (Nat.eqb_spec x e), (Nat.eqb_spec x (fF s e)), (Nat.eqb_spec x (fF s (fF s e))), (Nat.eqb_spec y e), (Nat.eqb_spec y (fF s e)), (Nat.eqb_spec y (fF s (fF s e)));
        try discriminate; try congruence; exfalso; rewrite <- Y in X; injection X as X; clear - X; lia.
    + intros x Hx. unfold face_new. destruct (Nat.eqb_spec x e) as [->|]; auto. destruct (Nat.eqb_spec x (fF s e)) as [->|]; auto.
      destruct (Nat.eqb_spec x (fF s (fF s e))) as [->|]; auto.
    + intros x Hx. exists 1%R. split; [lra|]. rewrite (fi_old _ _ _ _ _ FI) by auto. destruct (vv s x). apply pt_eq; cbn; ring.
  - intros w E. split.
    + apply (small_angle (n + 6) u n w [n; n + 2; n + 4]); auto; try lia; try (cbn; lia).
      intros x [<-|[<-|[<-|[]]]]; change (nV (fT u)) with (fV u); rewrite ?V7, ?V8, ?V9; cbn; auto.
    + intros x Hx. destruct (scontains w x) eqn:C; auto. exfalso.
      assert (Hn : n < n + 6) by lia. destruct (vertex_source_Ok (n + 6) (fT u) n (fs_wf _ _ Su) Hn) as (w' & E' & _ & C'). rewrite E in E'. inv E'.
      apply C' in C as [_ (k & Ek)]. assert (Q : In (Nat.iter k (nV (fT u)) n) [n; n + 2; n + 4]).
      { apply iter_in; [now left|]. intros y [<-|[<-|[<-|[]]]]; change (nV (fT u)) with (fV u); rewrite ?V7, ?V8, ?V9; cbn; auto. }
      rewrite Ek in Q. cbn in Q. lia.
Qed.

Lemma edge_closed n s u e v : flat_surface n s -> closed_surface n s -> e < n -> edge_inserted n s u e v -> closed_surface (n + 6) u.
Proof.
  intros S0 Cl He [Su IF _ _ _] h Hh. assert (W := fs_wf n s S0). destruct (new_negs n (wf_even _ _ W)) as (N0 & N2 & N4 & _).
  unfold edge_inserted_faces in IF. rewrite N0, N2, N4 in IF. destruct IF as (F1 & F2 & F3 & F4 & F5 & F6 & F7 & F8 & F9 & F10 & F11 & F12 & F13).
  assert (Hne := neg_ltn n _ W e He). assert (Fl := nonboundary_flippable n s e S0 He (Cl e He) (Cl _ Hne)).
  destruct (flip_six n (fT s) e W Fl) as (D6 & Hf & Hg & Hx & Hy & _).
  unfold fF in *.
  remember (nF (fT s) e) as f eqn:Ff. remember (nF (fT s) f) as g eqn:Eg. remember (nF (fT s) (neg e)) as x eqn:Ex. remember (nF (fT s) x) as y eqn:Ey.
  apply nodup6 in D6. destruct D6 as ((D1 & D2 & D3 & D4 & D5) & (D6 & D7 & D8 & D9) & (D10 & D11 & D12) & (D13 & D14) & D15).
  destruct (in_dec Nat.eq_dec h [e; f; g; neg e; x; y]) as [I|I].
  - destruct I as [<-|[<-|[<-|[<-|[<-|[<-|[]]]]]]]; rewrite ?F1, ?F2, ?F3, ?F4, ?F5, ?F6, ?F7, ?F8, ?F9, ?F10, ?F11, ?F12; try congruence; clear - He Hf Hg Hx Hy Hne; lia.
  - destruct (lt_dec h n) as [L|L].
    + rewrite F13 by auto. now apply Cl.
    + assert (C : h = n \/ h = n + 1 \/ h = n + 2 \/ h = n + 3 \/ h = n + 4 \/ h = n + 5) by (clear - Hh L; lia).
      destruct C as [->|[->|[->|[->|[->| ->]]]]]; rewrite ?F1, ?F2, ?F3, ?F4, ?F5, ?F6, ?F7, ?F8, ?F9, ?F10, ?F11, ?F12; clear - He Hf Hg Hx Hy Hne; lia.
Qed.

Definition edge_rho n e h : nat := if h =? e then n + 1 else if h =? neg e then n + 3 else h.
Definition edge_new (s : flat K) n e h : option nat :=
  if h =? fF s (fF s e) then Some (n + 5) else if h =? fF s (fF s (neg e)) then Some e else None.

Lemma edge_vertices n s u e v : flat_surface n s -> closed_surface n s -> e < n -> edge_inserted n s u e v ->
  (fV u n = neg e /\ fV u (neg e) = n + 2 /\ fV u (n + 2) = n + 4 /\ fV u (n + 4) = n) /\
  forall h, h < n -> match edge_new s n e h with Some z => fV u (edge_rho n e h) = z /\ fV u z = edge_rho n e (fV s h) | None => fV u (edge_rho n e h) = edge_rho n e (fV s h) end.
Proof.
  intros S0 Cl He [Su IF _ _ _]. assert (W := fs_wf n s S0). assert (Wu := fs_wf _ u Su). destruct (new_negs n (wf_even _ _ W)) as (N0 & N2 & N4 & N1 & N3 & N5).
  unfold edge_inserted_faces in IF. rewrite N0, N2, N4 in IF. destruct IF as (F1 & F2 & F3 & F4 & F5 & F6 & F7 & F8 & F9 & F10 & F11 & F12 & F13).
  assert (Hne := neg_ltn n _ W e He). assert (Fl := nonboundary_flippable n s e S0 He (Cl e He) (Cl _ Hne)).
  destruct (flip_six n (fT s) e W Fl) as (D6 & Hf & Hg & Hx & Hy & _ & Fg & Fy).
  unfold edge_new, fF, fV in *. unfold closed_surface, fF in Cl.
  remember (nF (fT s) e) as f eqn:Ff. remember (nF (fT s) f) as g eqn:Eg. remember (nF (fT s) (neg e)) as x eqn:Ex. remember (nF (fT s) x) as y eqn:Ey.
  apply nodup6 in D6. destruct D6 as ((D1 & D2 & D3 & D4 & D5) & (D6 & D7 & D8 & D9) & (D10 & D11 & D12) & (D13 & D14) & D15).
  assert (L : forall h a b, h < n + 6 -> nF (fT u) h = a -> a <> h -> nF (fT u) a = b -> nV (fT u) h = neg b).
  { intros h a b Hh Ea Na Eb. rewrite (nV_link' (n + 6) _ Wu h Hh) by congruence. congruence. }
  assert (Ls : forall h a b, h < n -> nF (fT s) h = a -> nF (fT s) a = b -> nV (fT s) h = neg b).
  { intros h a b Hh Ea Eb. rewrite (nV_link' n _ W h Hh) by now apply Cl. congruence. }
  assert (Vn : nV (fT u) n = neg e). { apply (L n x e); auto; clear - Hx; lia. }
  assert (Vne : nV (fT u) (neg e) = n + 2). { rewrite <- N3. apply (L (neg e) y (n + 3)); auto; clear - Hne; lia. }
  assert (V2 : nV (fT u) (n + 2) = n + 4). { rewrite <- N5. apply (L (n + 2) f (n + 5)); auto; clear - Hf; lia. }
  assert (V4 : nV (fT u) (n + 4) = n). { rewrite <- N1 at 2. apply (L (n + 4) g (n + 1)); auto; clear - Hg; lia. }
  split; [auto|]. clear Vn Vne V2 V4.
  assert (Rh : forall h, h <> e -> h <> neg e -> edge_rho n e h = h).
  { intros h A B. unfold edge_rho. apply Nat.eqb_neq in A, B. now rewrite A, B. }
  assert (Re : edge_rho n e e = n + 1) by (unfold edge_rho; now rewrite Nat.eqb_refl).
  assert (Rne : edge_rho n e (neg e) = n + 3).
  { unfold edge_rho. rewrite Nat.eqb_refl. destruct (Nat.eqb_spec (neg e) e); auto. congruence. }
  assert (Rn : forall h, h <> e -> h <> neg e -> edge_rho n e (neg h) = neg h).
  { intros h A B. apply Rh; intros X; [apply B|apply A]; rewrite <- (neg_neg h), X; auto using neg_neg. }
  intros h Hh. destruct (Nat.eqb_spec h g) as [->|Ng]; [|destruct (Nat.eqb_spec h y) as [->|Ny]].
  - rewrite (Rh g) by auto. rewrite (Ls g e f) by auto. rewrite Rn by auto. split.
    + rewrite <- N4. apply (L g (n + 1) (n + 4)); auto; clear - Hg; lia.
    + apply (L (n + 5) (n + 2) f); auto; clear; lia.
  - rewrite (Rh y) by auto. rewrite (Ls y (neg e) x) by auto. rewrite Rn by auto. split.
    + rewrite <- (neg_neg e) at 1. apply (L y (n + 3) (neg e)); auto; clear - Hy; lia.
    + apply (L e n x); auto; clear - He; lia.
  - destruct (Nat.eq_dec h e) as [->|Ne].
    { rewrite Re, (Ls e f g), Rn by auto. apply (L (n + 1) (n + 4) g); auto; clear; lia. }
    destruct (Nat.eq_dec h (neg e)) as [->|Nne].
    { rewrite Rne, (Ls (neg e) x y), Rn by auto. apply (L (n + 3) (neg e) y); auto; clear - Hne; lia. }
    rewrite (Rh h) by auto.
    destruct (Nat.eq_dec h f) as [->|Nf].
    { rewrite (Ls f g e) by auto. rewrite Rne, <- N2. apply (L f (n + 5) (n + 2)); auto; clear - Hf; lia. }
    destruct (Nat.eq_dec h x) as [->|Nx].
    { rewrite (Ls x y (neg e)), neg_neg, Re by auto. rewrite <- N0. apply (L x e n); auto; clear - Hx; lia. }
    assert (Hh' : h < n + 6) by (clear - Hh; lia). assert (H1 := nF_lt n _ W h Hh). assert (T := wf_triangle _ _ W h Hh).
    assert (I1 : ~ In h [e; f; g; neg e; x; y]) by (cbn [In]; intros [X|[X|[X|[X|[X|[X|[]]]]]]]; congruence).
    assert (I2 : ~ In (nF (fT s) h) [e; f; g; neg e; x; y]).
    { cbn [In]. intros [X|[X|[X|[X|[X|[X|[]]]]]]]; rewrite <- X in T; rewrite <- ?Ff, <- ?Eg, <- ?Ex, <- ?Ey, ?Fg, ?Fy in T; congruence. }
    rewrite (Ls h (nF (fT s) h) (nF (fT s) (nF (fT s) h))) by auto. rewrite Rn.
    + apply (L h (nF (fT s) h)); auto.
    + intros X. rewrite X in T. congruence.
    + intros X. rewrite X in T. congruence.
Qed.

Theorem edge_angles n s u e v : flat_surface n s -> closed_surface n s -> e < n -> inside_edge s e v -> edge_inserted n s u e v ->
  (forall h w w', h < n -> h <> e -> h <> neg e -> vertex_source (fT s) h = Ok w -> vertex_source (fT u) h = Ok w' ->
     angle u w' = angle s w /\ forall x, x < n -> x <> e -> x <> neg e -> scontains w' x = scontains w x) /\
  (forall w, vertex_source (fT u) n = Ok w -> angle u w = Ok 1 /\ forall x, x < n -> x <> neg e -> scontains w x = false).
Proof.
  intros S0 Cl He (r & Hr & Er) EI. assert (W := fs_wf n s S0). assert (Su := ei_surface _ _ _ _ _ EI). assert (Clu := edge_closed n s u e v S0 Cl He EI).
  destruct (edge_vertices n s u e v S0 Cl He EI) as ((V1 & V2 & V3 & V4) & St).
  destruct (new_negs n (wf_even _ _ W)) as (N0 & N2 & N4 & N1 & N3 & N5). assert (Hne := neg_ltn n _ W e He).
  assert (Rh : forall h, h <> e -> h <> neg e -> edge_rho n e h = h).
  { intros h A B. unfold edge_rho. apply Nat.eqb_neq in A, B. now rewrite A, B. }
  assert (Fl := nonboundary_flippable n s e S0 He (Cl e He) (Cl _ Hne)). destruct (flip_six n (fT s) e W Fl) as (D6 & Hf & Hg & Hx & Hy & _).
  apply nodup6 in D6. change (nF (fT s)) with (fF s) in *. split.
  - intros h w w' Hh A B E E'. destruct (angle_kept n (n + 6) s u (edge_rho n e) (edge_new s n e) S0 Su) with (h := h) (v := w) (v' := w') as [R1 R2]; auto.
    + unfold edge_rho. intros x Lx. destruct (x =? e), (x =? neg e); lia.
    + unfold edge_rho. intros x y Lx Ly. destruct (Nat.eqb_spec x e), (Nat.eqb_spec x (neg e)), (Nat.eqb_spec y e), (Nat.eqb_spec y (neg e)); intros X; try congruence; exfalso; clear - X Lx Ly; lia.
    + unfold edge_new. intros x z Lx X. destruct (x =? fF s (fF s e)), (x =? fF s (fF s (neg e))); inv X; lia.
    + unfold edge_new, edge_rho. intros x z y Lx Ly X.
      destruct (Nat.eqb_spec y e), (Nat.eqb_spec y (neg e)), (x =? fF s (fF s e)), (x =? fF s (fF s (neg e))); inv X; try congruence; clear - He Ly; lia.
    + unfold edge_new. intros x y z Lx Ly X Y.
      destruct (Nat.eqb_spec x (fF s (fF s e))), (Nat.eqb_spec x (fF s (fF s (neg e)))), (Nat.eqb_spec y (fF s (fF s e))), (Nat.eqb_spec y (fF s (fF s (neg e))));
        try discriminate; try congruence; exfalso; rewrite <- Y in X; injection X as X; clear - X He; lia.
    + intros x Lx. unfold edge_rho. destruct (Nat.eqb_spec x e) as [->|X1]; [|destruct (Nat.eqb_spec x (neg e)) as [->|X2]].
      * exists r. split; [tauto|]. rewrite <- N0, (ei_first _ _ _ _ _ EI). auto.
      * exists (1 - r)%R. split; [lra|]. rewrite <- N2, (fs_odd _ _ Su), (fs_odd n s S0) by (auto; lia). assert (X := ei_second _ _ _ _ _ EI). rewrite Er in X.
        clear - X. destruct (vv s e), (vv u (n + 2)). unfold padd, pneg, pscale in *. cbn [fst snd] in *. injection X as X Y. apply pt_eq; cbn [fst snd]; lra.
      * exists 1%R. split; [lra|]. rewrite (ei_old _ _ _ _ _ EI) by auto. destruct (vv s x). apply pt_eq; cbn; ring.
    + rewrite Rh; auto.
    + split; auto. intros x Lx A' B'. rewrite <- (R2 x Lx), Rh; auto.
  - intros w E. split.
    + apply (small_angle (n + 6) u n w [n; neg e; n + 2; n + 4]); auto; [clear; lia|now left|].
      intros x [<-|[<-|[<-|[<-|[]]]]]; change (nV (fT u)) with (fV u); rewrite ?V1, ?V2, ?V3, ?V4; cbn [In]; auto.
    + intros x Lx Nx. destruct (scontains w x) eqn:C; auto. exfalso.
      assert (Hn : n < n + 6) by lia. destruct (vertex_source_Ok (n + 6) (fT u) n (fs_wf _ _ Su) Hn) as (w' & E' & _ & C'). rewrite E in E'. inv E'.
      apply C' in C as [_ (k & Ek)]. assert (Q : In (Nat.iter k (nV (fT u)) n) [n; neg e; n + 2; n + 4]).
      { apply iter_in; [now left|]. intros y [<-|[<-|[<-|[<-|[]]]]]; change (nV (fT u)) with (fV u); rewrite ?V1, ?V2, ?V3, ?V4; cbn [In]; auto. }
      rewrite Ek in Q. cbn [In] in Q. clear - Q Lx Nx. destruct Q as [Q|[Q|[Q|[Q|[]]]]]; try congruence; lia.
Qed.
End kept.
