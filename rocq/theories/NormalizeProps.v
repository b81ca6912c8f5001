(** * Theorems about normalization matrices (C41) *)
From Coq Require Import ZArith Reals List Arith Bool Lia Lra Psatz.
From Verif Require Import Base HalfEdge HalfEdgeFacts Perm PermSpec PermFacts Combinatorial CombinatorialSpec CombinatorialFacts ExactReal Vector PlaneSpec
  VectorFacts FlatTri FlatSpec FlatFacts FlatSum FlatLinear VectorProps FlatProps PointSpec PointProps Normalize.
Import ListNotations.
Local Open Scope nat_scope.

(** The matrix maps a vector to another one, and its determinant. *)
Definition sends {K : ExactReal} (m : K * K * K * K) (p q : R * R) : Prop :=
  let '(a, b, c, d) := m in papply (den a) (den b) (den c) (den d) p = q.
Definition determinant {K : ExactReal} (m : K * K * K * K) : R :=
  let '(a, b, c, d) := m in (den a * den d - den b * den c)%R.

Section facts.
Context {K : ExactReal}.
Variable truediv : K -> K -> option K.
Hypothesis TD : exact_division truediv.
Implicit Types (s : flat K) (n e f : nat).

Lemma ndiv_cases (x y : K) : den y <> 0%R ->
  (exists z, ndiv truediv x y = Ok z /\ den z = (den x / den y)%R) \/
  (ndiv truediv x y = Throw /\ forall z : K, den z <> (den x / den y)%R).
Proof.
  intros Y. specialize (TD x y Y). unfold ndiv. destruct (truediv x y) as [z|].
  - left. exists z. split; auto. rewrite <- TD. field. auto.
  - right. split; auto. intros z E. apply (TD z). rewrite E. field. auto.
Qed.

(** The only matrix with [(1, 0)] and [(0, 1)] as the images. *)
Lemma inverse_unique (v w : R * R) (a b c d : R) : pdet v w <> 0%R ->
  papply a b c d v = (1, 0)%R -> papply a b c d w = (0, 1)%R ->
  a = (snd w / pdet v w)%R /\ b = (- (fst w / pdet v w))%R /\ c = (- (snd v / pdet v w))%R /\ d = (fst v / pdet v w)%R.
Proof.
  destruct v as [x y], w as [x' y']. unfold pdet, papply; cbn. intros D E1 E2. injection E1 as P Q. injection E2 as P' Q'.
  assert (forall z t : R, (z * (x * y' - y * x') = t)%R -> z = (t / (x * y' - y * x'))%R) as Z by (intros z t <-; field; auto).
  repeat split.
  - apply Z. transitivity (y' * (a * x + b * y) - y * (a * x' + b * y'))%R; [ring|rewrite P, P'; ring].
  - rewrite <- (Ropp_involutive b). f_equal. apply Z. transitivity (x' * (a * x + b * y) - x * (a * x' + b * y'))%R; [ring|rewrite P, P'; ring].
  - rewrite <- (Ropp_involutive c). f_equal. apply Z. transitivity (y * (c * x' + d * y') - y' * (c * x + d * y))%R; [ring|rewrite Q, Q'; ring].
  - apply Z. transitivity (x * (c * x' + d * y') - x' * (c * x + d * y))%R; [ring|rewrite Q, Q'; ring].
Qed.

Lemma orthonormalize_spec n s e f : flat_surface n s -> e < n -> f < n -> pdet (vv s e) (vv s f) <> 0%R ->
  (exists a b c d, orthonormalize truediv s e f = Ok (a, b, c, d) /\
     den a = (snd (vv s f) / pdet (vv s e) (vv s f))%R /\ den b = (- (fst (vv s f) / pdet (vv s e) (vv s f)))%R /\
     den c = (- (snd (vv s e) / pdet (vv s e) (vv s f)))%R /\ den d = (fst (vv s e) / pdet (vv s e) (vv s f))%R) \/
  (orthonormalize truediv s e f = Throw /\ forall m : K * K * K * K, ~ (sends m (vv s e) (1, 0)%R /\ sends m (vv s f) (0, 1)%R)).
Proof.
  intros S He Hf D. unfold orthonormalize. rewrite !from_he_Ok by (rewrite (fs_length n s S); auto). cbn [bind].
  change (vv s e) with (vden (vat' s e)) in *. change (vv s f) with (vden (vat' s f)) in *.
  set (v := vat' s e) in *. set (w := vat' s f) in *. set (t := (vx v * vy w - vy v * vx w)%X).
  assert (T : den t = pdet (vden v) (vden w)) by (unfold t; rewrite den_sub, !den_mul; reflexivity).
  assert (T0 : den t <> 0%R) by congruence.
  assert (U := fun a b c d : K => inverse_unique (vden v) (vden w) (den a) (den b) (den c) (den d) D).
  rewrite <- T in *. cbn [vden fst snd] in *.
  destruct (ndiv_cases (vy w) t T0) as [(a & -> & A)|[-> A]]; cbn [bind].
  2: { right. split; auto. intros [[[a b] c] d] [P Q]. apply (A a). apply (U a b c d P Q). }
  destruct (ndiv_cases (vx w) t T0) as [(b & -> & B)|[-> B]]; cbn [bind].
  2: { right. split; auto. intros [[[a' b] c] d] [P Q]. destruct (U a' b c d P Q) as (_ & X & _). apply (B (ropp b)). rewrite den_opp, X. ring. }
  destruct (ndiv_cases (vy v) t T0) as [(c & -> & C)|[-> C]]; cbn [bind].
  2: { right. split; auto. intros [[[a' b'] c] d] [P Q]. destruct (U a' b' c d P Q) as (_ & _ & X & _). apply (C (ropp c)). rewrite den_opp, X. ring. }
  destruct (ndiv_cases (vx v) t T0) as [(d & -> & E)|[-> E]]; cbn [bind].
  2: { right. split; auto. intros [[[a' b'] c'] d] [P Q]. apply (E d). apply (U a' b' c' d P Q). }
  left. exists a, (ropp b), (ropp c), d. rewrite !den_opp. repeat split; congruence.
Qed.

Lemma orthogonalize_spec n s e f : flat_surface n s -> e < n -> f < n -> pdet (vv s e) (vv s f) <> 0%R ->
  (exists a b c d, orthogonalize truediv s e f = Ok (a, b, c, d) /\
     den a = (snd (vv s f) / pdet (vv s e) (vv s f))%R /\ den b = (- (fst (vv s f) / pdet (vv s e) (vv s f)))%R /\
     den c = (- (snd (vv s e) / pdet (vv s e) (vv s f)) * Rabs (pdet (vv s e) (vv s f)))%R /\
     den d = (fst (vv s e) / pdet (vv s e) (vv s f) * Rabs (pdet (vv s e) (vv s f)))%R) \/
  (orthogonalize truediv s e f = Throw /\ forall m : K * K * K * K, ~ (sends m (vv s e) (1, 0)%R /\ sends m (vv s f) (0, 1)%R)).
Proof.
  intros S He Hf D. unfold orthogonalize. destruct (orthonormalize_spec n s e f S He Hf D) as [(a & b & c & d & -> & A & B & C & E)|[-> N]].
  2: { right. split; auto. }
  left. cbn [bind]. set (t := (a * d - b * c)%X). set (t' := if (t <? rofZ 0)%X then (- t)%X else t).
  assert (T : den t = (/ pdet (vv s e) (vv s f))%R).
  { unfold t. rewrite den_sub, !den_mul, A, B, C, E. unfold pdet in *. field. auto. }
  assert (T' : den t' = (/ Rabs (pdet (vv s e) (vv s f)))%R).
  { unfold t'. pose proof (rltb_spec K t (rofZ 0)) as L. rewrite den_ofZ in L.
    destruct (rltb t (rofZ 0)).
    - rewrite den_opp, T. assert (Q : (den t < 0)%R) by (apply L; auto). rewrite T in Q.
      assert (N : (pdet (vv s e) (vv s f) < 0)%R).
      { destruct (Rtotal_order (pdet (vv s e) (vv s f)) 0) as [|[|P]]; auto; [contradiction|]. apply Rinv_0_lt_compat in P. lra. }
      rewrite Rabs_left by auto. field. auto.
    - assert (Q : ~ (den t < 0)%R) by (intros X; apply L in X; discriminate). rewrite T in *.
      assert (N : (0 < pdet (vv s e) (vv s f))%R).
      { destruct (Rtotal_order (pdet (vv s e) (vv s f)) 0) as [P|[|]]; auto; [|contradiction]. apply Rinv_lt_0_compat in P. lra. }
      rewrite Rabs_right by lra. auto. }
  assert (X : Rabs (pdet (vv s e) (vv s f)) <> 0%R) by (apply Rabs_no_R0; auto).
  assert (X' : den t' <> 0%R) by (rewrite T'; apply Rinv_neq_0_compat; auto).
  assert (PA : exists z : K, den z = Rabs (pdet (vv s e) (vv s f))).
  { change (vv s e) with (vden (vat' s e)). change (vv s f) with (vden (vat' s f)). set (v := vat' s e). set (w := vat' s f).
    unfold Rabs. destruct Rcase_abs; [exists (- (vx v * vy w - vy v * vx w))%X; rewrite den_opp|exists (vx v * vy w - vy v * vx w)%X]; rewrite den_sub, !den_mul; reflexivity. }
  destruct PA as (z & Z).
  destruct (ndiv_cases c t' X') as [(c' & -> & C')|[_ Q]].
  2: { exfalso. apply (Q (rmul c z)). rewrite den_mul, Z, T'. field. auto. }
  cbn [bind]. destruct (ndiv_cases d t' X') as [(d' & -> & D')|[_ Q]].
  2: { exfalso. apply (Q (rmul d z)). rewrite den_mul, Z, T'. field. auto. }
  cbn [bind]. exists a, b, c', d'. split; auto. split; auto. split; auto. rewrite C', D', C, E, T'. split; field; auto.
Qed.

Lemma ortho_images (v w : R * R) k : pdet v w <> 0%R ->
  papply (snd w / pdet v w) (- (fst w / pdet v w)) (- (snd v / pdet v w) * k) (fst v / pdet v w * k) v = (1, 0)%R /\
  papply (snd w / pdet v w) (- (fst w / pdet v w)) (- (snd v / pdet v w) * k) (fst v / pdet v w * k) w = (0, k)%R.
Proof. destruct v as [x y], w as [x' y']. unfold papply, pdet; cbn. intros D. split; f_equal; field; auto. Qed.

(** The turn at a corner is counterclockwise. *)
Lemma nextV_turn n s e : flat_surface n s -> closed_surface n s -> e < n -> (0 < pdet (vv s e) (vv s (nV (fT s) e)))%R.
Proof.
  intros S C He. assert (W := fs_wf n s S). assert (B : fF s e <> e) by (apply C; auto).
  rewrite (nV_link' n (fT s) W) by auto. change (nF (fT s) (nF (fT s) e)) with (fF s (fF s e)).
  assert (H1 := fF_lt n s e S He). assert (H2 := fF_lt n s _ S H1).
  destruct (fs_flat n s S e He B) as [Z D]. rewrite (fs_odd n s S) by auto.
  revert Z D. destruct (vv s e) as [x y], (vv s (fF s e)) as [x' y'], (vv s (fF s (fF s e))) as [x'' y''].
  unfold padd, pneg, pdet; cbn. intros Z D. injection Z as Z1 Z2.
  replace x'' with (- x - x')%R by lra. replace y'' with (- y - y')%R by lra. lra.
Qed.
Lemma previousV_turn n s e : flat_surface n s -> closed_surface n s -> e < n -> (pdet (vv s e) (vv s (pV (fT s) e)) < 0)%R.
Proof.
  intros S C He. assert (W := fs_wf n s S). assert (Hp := pV_lt n _ W e He). assert (T := nextV_turn n s _ S C Hp).
  rewrite (nV_pV n _ W e He) in T. unfold pdet in *. lra.
Qed.

End facts.

(** ** C41: normalization matrices *)
(** The matrix for GL(2) maps the half edges to the standard basis; it is only refused if no matrix over the ring of the
    coordinates does. *)
Theorem C41_orthonormal : forall (K : ExactReal) truediv n (s : flat K) e f, exact_division truediv -> flat_surface n s -> e < n -> f < n ->
  pdet (vv s e) (vv s f) <> 0%R ->
  match orthonormalize truediv s e f with
  | Ok m => sends m (vv s e) (1, 0)%R /\ sends m (vv s f) (0, 1)%R
  | Throw => forall m : K * K * K * K, ~ (sends m (vv s e) (1, 0)%R /\ sends m (vv s f) (0, 1)%R)
  | _ => False
  end.
Proof.
  intros K td n s e f TD S He Hf D. destruct (orthonormalize_spec td TD n s e f S He Hf D) as [(a & b & c & d & -> & A & B & C & E)|[-> N]]; auto.
  cbn [sends]. destruct (ortho_images (vv s e) (vv s f) 1 D) as [I J]. rewrite !Rmult_1_r in I, J. rewrite A, B, C, E. auto.
Qed.
Print Assumptions C41_orthonormal.

(** The matrix for SL(2) has determinant 1 or -1, depending on the orientation of the half edges, and maps the half edges to
    the axes.  It is refused exactly when the matrix for GL(2) is. *)
Theorem C41_orthogonal : forall (K : ExactReal) truediv n (s : flat K) e f, exact_division truediv -> flat_surface n s -> e < n -> f < n ->
  pdet (vv s e) (vv s f) <> 0%R ->
  match orthogonalize truediv s e f with
  | Ok m => sends m (vv s e) (1, 0)%R /\ sends m (vv s f) (0, Rabs (pdet (vv s e) (vv s f)))%R /\
      determinant m = (if Rlt_dec (pdet (vv s e) (vv s f)) 0 then -1 else 1)%R
  | Throw => forall m : K * K * K * K, ~ (sends m (vv s e) (1, 0)%R /\ sends m (vv s f) (0, 1)%R)
  | _ => False
  end.
Proof.
  intros K td n s e f TD S He Hf D. destruct (orthogonalize_spec td TD n s e f S He Hf D) as [(a & b & c & d & -> & A & B & C & E)|[-> N]]; auto.
  cbn [sends determinant]. destruct (ortho_images (vv s e) (vv s f) (Rabs (pdet (vv s e) (vv s f))) D) as [I J]. rewrite A, B, C, E. split; auto. split; auto.
  clear - D. destruct (vv s e) as [x y], (vv s f) as [x' y']. unfold pdet in *; cbn in *. set (t := (x * y' - y * x')%R) in *.
  destruct (Rlt_dec t 0); [rewrite Rabs_left by auto|rewrite Rabs_right by lra]; unfold t in *; field; auto.
Qed.
Print Assumptions C41_orthogonal.

(** Some surfaces are refused for SL(2) though their normalization exists over the ring of the coordinates: a division of the
    matrix for GL(2) is not exact. *)
Definition tall_vectors : list (vec ExactZ) := [zv 1 0; zv 0 2; zv (-1) (-2)].
Definition tall_s : flat ExactZ := mkFlat torus_t [zv 1 0; zv (-1) 0; zv 0 2; zv 0 (-2); zv (-1) (-2); zv 1 2].
Lemma tall_flat : flat_surface 6 tall_s /\ closed_surface 6 tall_s.
Proof.
  assert (Su : suitable 6 torus_t tall_vectors).
  { split; [reflexivity|]. intros e He _. do 6 (destruct e as [|e]; [cbn; unfold padd, pdet, pneg; cbn; split; [f_equal; lra|lra]|]). lia. }
  destruct (proj1 (C19_constructor _ 6 torus_t _ torus_wf) Su) as (s' & F & S & _).
  assert (F' : make_flat_list torus_t tall_vectors = Ok tall_s) by reflexivity.
  replace s' with tall_s in S by congruence. split; auto. intros e He. do 6 (destruct e as [|e]; [discriminate|]). lia.
Qed.
Theorem C41_orthogonal_refuted : exists (s : flat ExactZ) e f, flat_surface 6 s /\ closed_surface 6 s /\ exact_division zdiv /\ e < 6 /\ f < 6 /\
  (exists (m : ExactZ * ExactZ * ExactZ * ExactZ) y, sends m (vv s e) (1, 0)%R /\ sends m (vv s f) (0, y)%R /\ determinant m = 1%R) /\
  orthogonalize zdiv s e f = Throw.
Proof.
  exists tall_s, 0, 2. destruct tall_flat as [S C]. repeat (split; [assumption || apply zdiv_exact || lia|]). split; [|reflexivity].
  exists (1%Z, 0%Z, 0%Z, 1%Z), 2%R. cbn. unfold papply; cbn. repeat split; try (f_equal; lra); lra.
Qed.
Print Assumptions C41_orthogonal_refuted.

(** Deforming a surface with a matrix of the group does not change the normalized surface. *)
Definition in_group (g : group) (t : R) : Prop := match g with TRIVIAL => False | SL => t = 1%R \/ t = (-1)%R | GL => t <> 0%R end.
Theorem C41_invariant : forall (K : ExactReal) truediv n (s u : flat K) (a b c d : K) g e f m m', exact_division truediv ->
  flat_surface n s -> closed_surface n s -> e < n -> f < n -> pdet (vv s e) (vv s f) <> 0%R ->
  in_group g (den a * den d - den b * den c) -> apply_matrix s a b c d = Ok u ->
  normalization truediv g s e f = Ok m -> normalization truediv g u e f = Ok m' ->
  forall p q r, sends (a, b, c, d) p q -> sends m p r -> sends m' q r.
Proof.
  intros K td n s u a b c d g e f m m' TD S C He Hf D G Eu M M' p q r P Q.
  assert (T : mdet (den a) (den b) (den c) (den d) <> 0%R) by (unfold mdet; destruct g; cbn in G; [contradiction|lra|auto]).
  destruct (apply_matrix_Ok n s a b c d S C T) as (u' & Eu' & Su & Cu & V & _). rewrite Eu in Eu'. injection Eu' as <-.
  assert (D' : pdet (vv u e) (vv u f) <> 0%R) by (rewrite !V, pdet_papply by auto; apply Rmult_integral_contrapositive_currified; auto).
  cbn [sends] in P. subst q. unfold mdet in T. destruct g; cbn in G, M, M'; [contradiction| |].
  - destruct (orthogonalize_spec td TD n s e f S He Hf D) as [(x & y & z & t & X & E1 & E2 & E3 & E4)|[X _]]; rewrite X in M; [injection M as <-|discriminate].
    destruct (orthogonalize_spec td TD n u e f Su He Hf D') as [(x' & y' & z' & t' & X' & F1 & F2 & F3 & F4)|[X' _]]; rewrite X' in M'; [injection M' as <-|discriminate].
    cbn [sends] in *. subst r. rewrite !V in F1, F2, F3, F4 by auto. rewrite !pdet_papply in F1, F2, F3, F4.
    assert (AB : Rabs ((den a * den d - den b * den c) * pdet (vv s e) (vv s f)) = Rabs (pdet (vv s e) (vv s f))).
    { rewrite Rabs_mult. destruct G as [-> | ->]; [rewrite Rabs_R1; ring|]. rewrite Rabs_left by lra. ring. }
    rewrite AB in F3, F4. rewrite E1, E2, E3, E4, F1, F2, F3, F4. clear - D T.
    destruct (vv s e) as [x y], (vv s f) as [x' y'], p as [p q]. unfold papply, pdet in *; cbn [fst snd] in *.
    set (k := Rabs _). clearbody k. f_equal; field; split; auto.
  - destruct (orthonormalize_spec td TD n s e f S He Hf D) as [(x & y & z & t & X & E1 & E2 & E3 & E4)|[X _]]; rewrite X in M; [injection M as <-|discriminate].
    destruct (orthonormalize_spec td TD n u e f Su He Hf D') as [(x' & y' & z' & t' & X' & F1 & F2 & F3 & F4)|[X' _]]; rewrite X' in M'; [injection M' as <-|discriminate].
    cbn [sends] in *. subst r. rewrite !V in F1, F2, F3, F4 by auto. rewrite !pdet_papply in F1, F2, F3, F4.
    rewrite E1, E2, E3, E4, F1, F2, F3, F4. clear - D T.
    destruct (vv s e) as [x y], (vv s f) as [x' y'], p as [p q]. unfold papply, pdet in *; cbn [fst snd] in *. f_equal; field; split; auto.
Qed.
Print Assumptions C41_invariant.

(** The walkers that compare surfaces start at each half edge, with a matrix that maps it to the x axis and that keeps the
    orientation and, if the orientation does not matter, also with one that does not. *)
Theorem C41_walkers : forall (K : ExactReal) truediv n (s : flat K) g oriented l, exact_division truediv -> flat_surface n s -> closed_surface n s ->
  g <> TRIVIAL -> walker_matrices truediv g oriented s = Ok l ->
  length l = (if oriented then n else 2 * n) /\
  (forall e m, In (e, m) l -> e < n /\ sends m (vv s e) (1, 0)%R /\ (oriented = true -> 0 < determinant m)%R) /\
  (forall e, e < n -> exists m, In (e, m) l /\ (0 < determinant m)%R) /\
  (oriented = false -> forall e, e < n -> exists m, In (e, m) l /\ (determinant m < 0)%R).
Proof.
  intros K td n s g o l TD S C G E. assert (W := fs_wf n s S). unfold walker_matrices in E. apply bind_Ok in E as (L & M & E). injection E as <-.
  apply omap_Ok in M. unfold tsize, psize in M. rewrite (fwd_len _ _ (wfV _ _ W)) in M.
  assert (N : forall e f m, e < n -> f < n -> pdet (vv s e) (vv s f) <> 0%R -> normalization td g s e f = Ok m ->
    sends m (vv s e) (1, 0)%R /\ (0 < determinant m * pdet (vv s e) (vv s f))%R).
  { intros e f m He Hf D X. destruct g; [contradiction| |]; cbn in X.
    - assert (Q := C41_orthogonal K td n s e f TD S He Hf D). rewrite X in Q. destruct Q as (Q1 & Q2 & ->). split; auto. destruct Rlt_dec; lra.
    - assert (Q := C41_orthonormal K td n s e f TD S He Hf D). rewrite X in Q. destruct Q as (Q1 & Q2). split; auto.
      destruct m as [[[a b] c] d]. cbn [sends determinant] in *.
      assert (Y := pdet_papply (den a) (den b) (den c) (den d) (vv s e) (vv s f)). rewrite Q1, Q2 in Y. rewrite <- Y. unfold pdet; cbn; lra. }
  assert (Q : forall h r, h < n -> (do next <- nextAtVertex (fT s) h;
    do m <- normalization td g s h next;
    if o then Ok [(h, m)] else
      do previous <- previousAtVertex (fT s) h; do m' <- normalization td g s h previous; Ok [(h, m); (h, m')]) = Ok r ->
    exists m, sends m (vv s h) (1, 0)%R /\ (0 < determinant m)%R /\
      ((o = true /\ r = [(h, m)]) \/ (o = false /\ exists m', sends m' (vv s h) (1, 0)%R /\ (determinant m' < 0)%R /\ r = [(h, m); (h, m')]))).
  { intros h r Hh X. rewrite (nextV_Ok n), (prevV_Ok n) in X by auto. cbn [bind] in X.
    assert (D1 := nextV_turn n s h S C Hh). assert (D2 := previousV_turn n s h S C Hh).
    apply bind_Ok in X as (m & Y & X).
    destruct (N h (nV (fT s) h) m) as [P1 P2]; auto using (nV_lt n (fT s) W); [lra|].
    exists m. split; auto. split; [apply (Rmult_lt_reg_r (pdet (vv s h) (vv s (nV (fT s) h)))); lra|]. destruct o; [injection X as <-; auto|].
    apply bind_Ok in X as (m' & Y' & X). injection X as <-.
    destruct (N h (pV (fT s) h) m') as [P1' P2']; auto using (pV_lt n (fT s) W); [lra|].
    right. split; auto. exists m'. split; auto. split; auto. clear - P2' D2. nra. }
  assert (I : forall n0 m0, n0 + m0 <= n -> forall L, Forall2 (fun h r => (do next <- nextAtVertex (fT s) h;
    do m <- normalization td g s h next;
    if o then Ok [(h, m)] else
      do previous <- previousAtVertex (fT s) h; do m' <- normalization td g s h previous; Ok [(h, m); (h, m')]) = Ok r) (seq n0 m0) L ->
    length (concat L) = (if o then m0 else 2 * m0) /\
    (forall e m, In (e, m) (concat L) -> e < n /\ sends m (vv s e) (1, 0)%R /\ (o = true -> 0 < determinant m)%R) /\
    (forall e, n0 <= e < n0 + m0 -> exists m, In (e, m) (concat L) /\ (0 < determinant m)%R) /\
    (o = false -> forall e, n0 <= e < n0 + m0 -> exists m, In (e, m) (concat L) /\ (determinant m < 0)%R)).
  { clear L M. intros n0 m0. revert n0. induction m0 as [|m0 IH]; intros n0 H L M; cbn [seq] in M; inversion M; subst; clear M.
    - cbn. destruct o; repeat split; intros; try contradiction; lia.
    - match goal with X : Forall2 _ _ _ |- _ => destruct (IH (Datatypes.S n0) ltac:(lia) _ X) as (I1 & I2 & I3 & I4) end.
      match goal with X : _ = Ok y |- _ => destruct (Q n0 y ltac:(lia) X) as (m & A & B & R) end.
      cbn [concat]. rewrite app_length, I1.
      assert (Z : forall e, n0 <= e < n0 + Datatypes.S m0 -> e = n0 \/ Datatypes.S n0 <= e < Datatypes.S n0 + m0) by lia.
      destruct R as [[-> ->]|(-> & m' & A' & B' & ->)]; cbn [length].
      + split; [lia|]. split; [|split; [|discriminate]].
        * intros e x [X|X]; [injection X as <- <-; split; [lia|auto]|auto].
        * intros e X. destruct (Z e X) as [->|Y]; [exists m; cbn; auto|]. destruct (I3 e Y) as (x & ? & ?). exists x. cbn. auto.
      + split; [lia|]. split; [|split].
        * intros e x [X|[X|X]]; [injection X as <- <-; split; [lia|split; [auto|discriminate]]|injection X as <- <-; split; [lia|split; [auto|discriminate]]|auto].
        * intros e X. destruct (Z e X) as [->|Y]; [exists m; cbn; auto|]. destruct (I3 e Y) as (x & ? & ?). exists x. cbn. auto.
        * intros _ e X. destruct (Z e X) as [->|Y]; [exists m'; cbn; auto|]. destruct (I4 eq_refl e Y) as (x & ? & ?). exists x. cbn. auto. }
  destruct (I 0 n (le_n n) L M) as (I1 & I2 & I3 & I4). split; auto. split; auto. split; [intros e He; apply I3; lia|intros O e He; apply I4; auto; lia].
Qed.
Print Assumptions C41_walkers.

Example C41_ex : flat_surface 6 sheared_s /\ closed_surface 6 sheared_s /\ exact_division zdiv /\
  pdet (vv sheared_s 0) (vv sheared_s 2) <> 0%R /\
  orthonormalize zdiv sheared_s 0 2 = Ok (1%Z, (-3)%Z, 0%Z, 1%Z) /\ orthogonalize zdiv sheared_s 0 4 = Ok (1%Z, (-4)%Z, 0%Z, (-1)%Z) /\
  orthonormalize zdiv tall_s 0 2 = Throw /\
  (exists l, walker_matrices zdiv SL false sheared_s = Ok l /\ length l = 12) /\
  apply_matrix torus_s (1%Z : ExactZ) 3%Z 0%Z 1%Z = Ok sheared_s /\ normalization zdiv SL torus_s 0 2 = Ok (1%Z, 0%Z, 0%Z, 1%Z).
Proof.
  destruct sheared_flat as (_ & S & C). split; auto. split; auto. split; [apply zdiv_exact|].
  split; [cbn; unfold pdet; cbn; lra|]. repeat (split; [reflexivity|]). split; [eexists; split; reflexivity|]. split; reflexivity.
Qed.
