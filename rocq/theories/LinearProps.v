(** * Properties of deformations by linear maps *)
From Coq Require Import ZArith QArith Reals List Arith Bool Lia Lra Psatz Relations.
From Verif Require Import Base HalfEdge HalfEdgeFacts Perm Combinatorial CombinatorialSpec CombinatorialFacts ExactReal Vector PlaneSpec Plane VectorFacts VectorProps
  FlatTri FlatSpec FlatFacts FlatLinear FlatOps FlatProps Point PointSpec PointFacts PointOps PointEq PointHash PointPlane PointFlip PointFlipFacts PointProps Linear.
Import ListNotations.
Local Open Scope R_scope.

(** The product of two matrices is the identity. *)
Definition inverse_matrices (a b c d p q r t : R) : Prop :=
  a * p + b * r = 1 /\ a * q + b * t = 0 /\ c * p + d * r = 0 /\ c * q + d * t = 1.

(** ** C32: sections of linear deformations *)
Lemma section_ok (K : ExactReal) truediv (a b c d : K) : exact_division truediv -> den a * den d - den b * den c <> 0 ->
  (exists a' b' c' d', linear_section truediv a b c d = Ok (a', b', c', d') /\
     let det := den a * den d - den b * den c in
     den a' * det = den a /\ den b' * det = den b /\ den c' * det = den c /\ den d' * det = den d) \/
  (linear_section truediv a b c d = Throw /\
     let det := den a * den d - den b * den c in
     forall a' b' c' d' : K, ~ (den a' * det = den a /\ den b' * det = den b /\ den c' * det = den c /\ den d' * det = den d)).
Proof.
  intros D Z. unfold linear_section.
  assert (E : den (a * d - b * c)%X = den a * den d - den b * den c) by (now rewrite den_sub, !den_mul).
  assert (Z' : den (a * d - b * c)%X <> 0) by (now rewrite E).
  pose proof (D a _ Z') as Da. pose proof (D b _ Z') as Db. pose proof (D c _ Z') as Dc. pose proof (D d _ Z') as Dd. rewrite E in *.
  destruct (truediv a _) as [a'|]; [|right; split; [reflexivity|intros ? ? ? ? (X & _); exact (Da _ X)]].
  destruct (truediv b _) as [b'|]; [|right; split; [reflexivity|intros ? ? ? ? (_ & X & _); exact (Db _ X)]].
  destruct (truediv c _) as [c'|]; [|right; split; [reflexivity|intros ? ? ? ? (_ & _ & X & _); exact (Dc _ X)]].
  destruct (truediv d _) as [d'|]; [|right; split; [reflexivity|intros ? ? ? ? (_ & _ & _ & X); exact (Dd _ X)]].
  left. exists a', b', c', d'. auto.
Qed.

(** The matrix of the section is not the inverse matrix: the section of a rotation by a quarter turn is the same rotation. *)
Theorem C32_section_refuted : exists (a b c d a' b' c' d' : ExactZ),
  den a * den d - den b * den c = 1 /\ linear_section zdiv a b c d = Ok (a', b', c', d') /\
  ~ inverse_matrices (den a) (den b) (den c) (den d) (den a') (den b') (den c') (den d').
Proof.
  exists 0%Z, (-1)%Z, 1%Z, 0%Z, 0%Z, (-1)%Z, 1%Z, 0%Z. split; [cbn; lra|]. split; [reflexivity|]. unfold inverse_matrices. cbn. lra.
Qed.
Print Assumptions C32_section_refuted.

Lemma scalar_inverse a b c d a' b' c' d' : let det := a * d - b * c in det <> 0 ->
  a' * det = a -> b' * det = b -> c' * det = c -> d' * det = d ->
  (inverse_matrices a b c d a' b' c' d' <-> b = 0 /\ c = 0 /\ a = d).
Proof.
  intros det Z Ea Eb Ec Ed. unfold inverse_matrices.
  assert (M : forall x y z w, (x * y + z * w) * det = x * (y * det) + z * (w * det)) by (intros; ring).
  assert (X : forall x y, x * det = y * det -> x = y) by (intros x y E; now apply Rmult_eq_reg_r in E).
  split.
  - intros (I1 & I2 & I3 & I4).
    apply (f_equal (fun x => x * det)) in I1, I2, I3, I4. cbv beta in *. rewrite M, Ea, Ec in I1, I3. rewrite M, Eb, Ed in I2, I4. clear M X Ea Eb Ec Ed. unfold det in *. clear det.
    assert (B : b * (a + d) = 0) by lra. assert (C : c * (a + d) = 0) by lra.
    assert (N : a + d <> 0) by (intros Y; assert (d = - a) by lra; subst d; apply Z; lra).
    apply Rmult_integral in B as [B|B]; [|contradiction]. apply Rmult_integral in C as [C|C]; [|contradiction]. subst b c.
    assert (a * (a - d) = 0) as Y by lra. apply Rmult_integral in Y as [Y|Y]; [subst a; exfalso; apply Z; ring|]. split; [|split]; lra.
  - intros (B & C & A). repeat split; apply X; rewrite M, ?Ea, ?Eb, ?Ec, ?Ed; unfold det; rewrite A, B, C; ring.
Qed.

(** It is the inverse matrix exactly for multiples of the identity. *)
Theorem C32_section_scalar : forall (K : ExactReal) truediv (a b c d a' b' c' d' : K), exact_division truediv -> den a * den d - den b * den c <> 0 ->
  linear_section truediv a b c d = Ok (a', b', c', d') ->
  (inverse_matrices (den a) (den b) (den c) (den d) (den a') (den b') (den c') (den d') <-> den b = 0 /\ den c = 0 /\ den a = den d).
Proof.
  intros K truediv a b c d a' b' c' d' D Z E.
  destruct (section_ok K truediv a b c d D Z) as [(? & ? & ? & ? & E' & Ea & Eb & Ec & Ed)|[E' _]]; rewrite E in E'; [injection E' as <- <- <- <-|discriminate].
  now apply scalar_inverse.
Qed.
Print Assumptions C32_section_scalar.

(** The section exists exactly if the matrix can be inverted over the base ring. *)
Theorem C32_section_exists : forall (K : ExactReal) truediv (a b c d : K), exact_division truediv -> den a * den d - den b * den c <> 0 ->
  ((exists m, linear_section truediv a b c d = Ok m) <->
   (exists p q r t : K, inverse_matrices (den a) (den b) (den c) (den d) (den p) (den q) (den r) (den t))) /\
  ((forall m, linear_section truediv a b c d <> Ok m) -> linear_section truediv a b c d = Throw).
Proof.
  intros K truediv a b c d D Z. destruct (section_ok K truediv a b c d D Z) as [(a' & b' & c' & d' & E & Ea & Eb & Ec & Ed)|[E N]]; rewrite E; cbv zeta in *.
  - split; [|intros H; now specialize (H _ eq_refl)]. split; [|eauto]. intros _.
    exists d', (ropp b'), (ropp c'), a'. unfold inverse_matrices. rewrite !den_opp.
    set (det := den a * den d - den b * den c) in *.
    assert (X : forall x y, x * det = y * det -> x = y) by (intros x y Q; now apply Rmult_eq_reg_r in Q).
    repeat split; apply X.
    + replace ((den a * den d' + den b * - den c') * det) with (den a * (den d' * det) - den b * (den c' * det)) by ring. rewrite Ed, Ec. unfold det. ring.
    + replace ((den a * - den b' + den b * den a') * det) with (den b * (den a' * det) - den a * (den b' * det)) by ring. rewrite Ea, Eb. ring.
    + replace ((den c * den d' + den d * - den c') * det) with (den c * (den d' * det) - den d * (den c' * det)) by ring. rewrite Ed, Ec. ring.
    + replace ((den c * - den b' + den d * den a') * det) with (den d * (den a' * det) - den c * (den b' * det)) by ring. rewrite Ea, Eb. unfold det. ring.
  - split; [|auto]. split; [intros [m [=]]|]. intros (p & q & r & t & I1 & I2 & I3 & I4). exfalso.
    apply (N t (ropp q) (ropp r) p). rewrite !den_opp. clear N E.
    repeat split.
    + transitivity (den a * (den c * den q + den d * den t) - den c * (den a * den q + den b * den t)); [ring|]. rewrite I2, I4. ring.
    + transitivity (den b * (den c * den q + den d * den t) - den d * (den a * den q + den b * den t)); [ring|]. rewrite I2, I4. ring.
    + transitivity (den c * (den a * den p + den b * den r) - den a * (den c * den p + den d * den r)); [ring|]. rewrite I1, I3. ring.
    + transitivity (den d * (den a * den p + den b * den r) - den b * (den c * den p + den d * den r)); [ring|]. rewrite I1, I3. ring.
Qed.
Print Assumptions C32_section_exists.

(** The orientation of the section, which decides on which side images of paths are looked for, is correct. *)
Theorem C32_section_orientation : forall (K : ExactReal) truediv (a b c d a' b' c' d' : K), exact_division truediv -> den a * den d - den b * den c <> 0 ->
  linear_section truediv a b c d = Ok (a', b', c', d') ->
  (den a' * den d' - den b' * den c') * (den a * den d - den b * den c) = 1 /\ linear_positive a' b' c' d' = linear_positive a b c d.
Proof.
  intros K truediv a b c d a' b' c' d' D Z E.
  destruct (section_ok K truediv a b c d D Z) as [(? & ? & ? & ? & E' & Ea & Eb & Ec & Ed)|[E' _]]; rewrite E in E'; [injection E' as <- <- <- <-|discriminate].
  cbv zeta in *. set (det := den a * den d - den b * den c) in *.
  assert (P : (den a' * den d' - den b' * den c') * det = 1).
  { apply (Rmult_eq_reg_r det); auto. replace ((den a' * den d' - den b' * den c') * det * det) with ((den a' * det) * (den d' * det) - (den b' * det) * (den c' * det)) by ring.
    rewrite Ea, Eb, Ec, Ed. unfold det. ring. }
  split; auto. unfold linear_positive.
  apply eq_true_iff_eq. rewrite !lt0b_spec, !den_sub, !den_mul. fold det. set (x := den a' * den d' - den b' * den c') in *.
  split; intros Y; nra.
Qed.
Print Assumptions C32_section_orientation.

Example C32_ex : exact_division zdiv /\ linear_section zdiv (2%Z : ExactZ) (1%Z : ExactZ) (1%Z : ExactZ) (1%Z : ExactZ) = Ok (2%Z, 1%Z, 1%Z, 1%Z) /\
  linear_section zdiv ((-1)%Z : ExactZ) (0%Z : ExactZ) (0%Z : ExactZ) ((-1)%Z : ExactZ) = Ok ((-1)%Z, 0%Z, 0%Z, (-1)%Z) /\
  linear_section zdiv (2%Z : ExactZ) (0%Z : ExactZ) (0%Z : ExactZ) (1%Z : ExactZ) = Throw.
Proof. split; [apply zdiv_exact|]. repeat (split; [reflexivity|]). reflexivity. Qed.

(** ** C53: linear maps map points *)
(** The point [(h, w)] of [s] is mapped to the point [(k, w')] of [u]: if orientation is preserved, then the triangle at [h] is mapped to the
    triangle at [h], otherwise to the triangle at [-h], which starts at the image of the end of [h]. *)
Definition linear_image {K : ExactReal} (n : nat) (s u : flat K) (a b c d : R) (r r' : rep) : Prop :=
  let m := papply a b c d in
  (fst r < n)%nat /\ weights (snd r) /\ weights (snd r') /\
  ((0 < a * d - b * c /\ fst r' = fst r /\ place u (fst r') (snd r') = m (place s (fst r) (snd r))) \/
   (a * d - b * c < 0 /\ fst r' = neg (fst r) /\ padd (m (vv s (fst r))) (place u (fst r') (snd r')) = m (place s (fst r) (snd r)))).

Lemma place_linear {K : ExactReal} (s u : flat K) a b c d h w : vv u h = papply a b c d (vv s h) -> vv u (fF s h) = papply a b c d (vv s (fF s h)) -> fF u h = fF s h ->
  place u h w = papply a b c d (place s h w).
Proof.
  intros A B F. destruct w as [[x y] z]. unfold place. rewrite F, A, B. unfold papply, padd, pscale; cbn [fst snd]. apply pt_eq; cbn [fst snd]; ring.
Qed.
Lemma place_reflected {K : ExactReal} n (s u : flat K) a b c d h x y z : flat_surface n s -> closed_surface n s -> flat_surface n u -> closed_surface n u ->
  (forall e, (e < n)%nat -> vv u e = papply a b c d (vv s e)) -> (forall e, (e < n)%nat -> fF u (neg (fF s e)) = neg e) -> (h < n)%nat -> x + y + z <> 0 ->
  padd (papply a b c d (vv s h)) (place u (neg h) (y, x, z)) = papply a b c d (place s h (x, y, z)).
Proof.
  intros S C U Cu V F H N. assert (H1 := F_lt n s S _ H). assert (H2 := F_lt n s S _ H1).
  assert (E : fF u (neg h) = neg (fF s (fF s h))) by (rewrite <- (F _ H2); now rewrite (FFF n s S)).
  unfold place. rewrite E, !V by (apply (neg_lt n s S); auto).
  destruct (vv_neg n s S h H) as [X1 Y1]. destruct (vv_neg n s S _ H2) as [X2 Y2]. destruct (closes n s S C h H) as [X Y].
  apply pt_eq; unfold papply, padd, pscale; cbn [fst snd]; rewrite X1, Y1, X2, Y2;
    (replace (fst (vv s (fF s (fF s h)))) with (- fst (vv s h) - fst (vv s (fF s h))) by lra); (replace (snd (vv s (fF s (fF s h)))) with (- snd (vv s h) - snd (vv s (fF s h))) by lra); field; lra.
Qed.

Definition mirror (r : rep) : rep := (neg (fst r), let '(a, b, c) := snd r in (b, a, c)).
Lemma mirror_same {K : ExactReal} n (s u : flat K) r r' : flat_surface n s -> (forall e, (e < n)%nat -> fF u (neg (fF s e)) = neg e) ->
  same_point n s r r' -> same_point n u (mirror r) (mirror r').
Proof.
  intros S F I. induction I as [r r' I|r|r r' _ I|r r' r'' _ I _ I']; [|apply rst_refl|now apply rst_sym|eapply rst_trans; eauto].
  assert (NL := neg_lt n s S). assert (FL := F_lt n s S).
  destruct I as [h a b c k H Q Hk|h a b c H Q|h a b H Q]; unfold mirror; cbn [fst snd].
  - apply rst_step. constructor; auto. unfold weights in *; lra.
  - apply rst_sym. apply rst_step. rewrite <- (F h H). constructor; auto. unfold weights in *; lra.
  - apply rst_step. constructor; auto. unfold weights in *; lra.
Qed.
Lemma same_faces {K : ExactReal} n (s u : flat K) r r' : (forall e, (e < n)%nat -> fF u e = fF s e) -> same_point n s r r' -> same_point n u r r'.
Proof.
  intros F I. induction I as [r r' I|r|r r' _ I|r r' r'' _ I _ I']; [|apply rst_refl|now apply rst_sym|eapply rst_trans; eauto].
  apply rst_step. destruct I as [h a b c k H Q Hk|h a b c H Q|h a b H Q]; [now constructor| |now constructor]. rewrite <- (F h H). now constructor.
Qed.

Lemma linear_point_ok (K : ExactReal) n (s u : flat K) p : flat_surface n s -> closed_surface n s -> flat_surface n u -> closed_surface n u -> normal n p ->
  linear_point s u p = Ok p.
Proof.
  intros S C U Cu N. unfold linear_point. rewrite (coordinates_self n s S C p N). cbn [bind].
  unfold make_point_array, make_point. rewrite (normalize_normal n u U Cu); [now destruct p|]. now destruct p.
Qed.

(** Every point has an image and all its images are the same point of the codomain. *)
Lemma linear_image_exists (K : ExactReal) n (s u : flat K) (a b c d : K) r : flat_surface n s -> closed_surface n s ->
  apply_matrix s a b c d = Ok u -> den a * den d - den b * den c <> 0 -> (fst r < n)%nat -> weights (snd r) ->
  linear_image n s u (den a) (den b) (den c) (den d) r (if Rlt_dec 0 (den a * den d - den b * den c) then r else mirror r).
Proof.
  intros S C E D H Q. destruct (apply_matrix_Ok n s a b c d S C D) as (u' & E' & U & Cu & Ev & P & M).
  rewrite E in E'. injection E' as <-. unfold mdet in *. destruct r as [h [[x y] z]]. cbn [fst snd] in *. unfold linear_image; cbn [fst snd]. split; auto. split; auto.
  assert (H1 := F_lt n s S _ H). destruct (Rlt_dec _ _) as [Pos|Pos]; cbn [fst snd mirror].
  - split; auto. left. split; auto. split; auto. apply place_linear; auto.
  - split; [unfold weights in *; lra|]. right. split; [lra|]. split; auto. apply (place_reflected n); auto; [apply M; lra|unfold weights in Q; lra].
Qed.
Lemma linear_image_same (K : ExactReal) n (s u : flat K) (a b c d : K) r r' : flat_surface n s -> closed_surface n s ->
  apply_matrix s a b c d = Ok u -> den a * den d - den b * den c <> 0 -> linear_image n s u (den a) (den b) (den c) (den d) r r' ->
  same_point n u r' (if Rlt_dec 0 (den a * den d - den b * den c) then r else mirror r).
Proof.
  intros S C E D I. pose proof I as (H & Q & Q' & _). assert (I' := linear_image_exists K n s u a b c d r S C E D H Q).
  destruct (apply_matrix_Ok n s a b c d S C D) as (u' & E' & U & Cu & _). rewrite E in E'. injection E' as <-.
  set (t := if Rlt_dec 0 (den a * den d - den b * den c) then r else mirror r) in *. clearbody t.
  assert (fst r' = fst t /\ (fst r' < n)%nat /\ place u (fst r') (snd r') = place u (fst t) (snd t) /\ weights (snd t)) as (A & B & P & Qt).
  { destruct I as (_ & _ & _ & [(X & F & P)|(X & F & P)]), I' as (_ & _ & Qt & [(X' & F' & P')|(X' & F' & P')]); try lra; (split; [congruence|]); (split; [rewrite F; auto; now apply (neg_lt n s S)|]); (split; [|exact Qt]).
    - congruence.
    - apply (padd_inj (papply (den a) (den b) (den c) (den d) (vv s (fst r)))). congruence. }
  destruct r' as [h' [[x y] z]], t as [h [[x' y'] z']]. cbn [fst snd] in *. subst h'.
  unfold weights in Q', Qt. destruct (place_unique n u U Cu h x y z x' y' z' B) as (P1 & P2 & P3); [lra|lra|exact P|].
  apply sp_prop; auto; unfold weights; auto.
Qed.

Theorem C53_preserving : forall (K : ExactReal) n (s u : flat K) (a b c d : K) p, flat_surface n s -> closed_surface n s ->
  0 < den a * den d - den b * den c -> apply_matrix s a b c d = Ok u -> normal n p ->
  exists q, linear_point s u p = Ok q /\ normal n q /\
    (exists r', linear_image n s u (den a) (den b) (den c) (den d) (location p) r') /\
    forall r r', same_point n s r (location p) -> linear_image n s u (den a) (den b) (den c) (den d) r r' -> same_point n u r' (location q).
Proof.
  intros K n s u a b c d p S C D E N. assert (D' : den a * den d - den b * den c <> 0) by lra.
  destruct (apply_matrix_Ok n s a b c d S C D') as (u' & E' & U & Cu & _ & P & _). rewrite E in E'. injection E' as <-.
  exists p. split; [now apply (linear_point_ok K n)|]. split; auto. split.
  - eexists. apply linear_image_exists; auto; [apply N|now apply normal_weights with n].
  - intros r r' Sm I. assert (J := linear_image_same K n s u a b c d r r' S C E D' I). destruct (Rlt_dec _ _) as [_|]; [|lra].
    eapply rst_trans; [exact J|]. apply (same_faces n s); auto.
Qed.
Print Assumptions C53_preserving.

(** If the matrix reverses the orientation, then points on edges and vertices are mapped correctly, ... *)
Theorem C53_reversing_edge : forall (K : ExactReal) n (s u : flat K) (a b c d : K) p, flat_surface n s -> closed_surface n s ->
  den a * den d - den b * den c < 0 -> apply_matrix s a b c d = Ok u -> normal n p -> den (pc p) = 0 ->
  exists q, linear_point s u p = Ok q /\ normal n q /\
    (exists r', linear_image n s u (den a) (den b) (den c) (den d) (location p) r') /\
    forall r r', same_point n s r (location p) -> linear_image n s u (den a) (den b) (den c) (den d) r r' -> same_point n u r' (location q).
Proof.
  intros K n s u a b c d p S C D E N Z. assert (D' : den a * den d - den b * den c <> 0) by lra.
  destruct (apply_matrix_Ok n s a b c d S C D') as (u' & E' & U & Cu & _ & _ & M). rewrite E in E'. injection E' as <-.
  exists p. split; [now apply (linear_point_ok K n)|]. split; auto. split.
  - eexists. apply linear_image_exists; auto; [apply N|now apply normal_weights with n].
  - intros r r' Sm I. assert (J := linear_image_same K n s u a b c d r r' S C E D' I). destruct (Rlt_dec _ _) as [|_]; [lra|].
    eapply rst_trans; [exact J|]. eapply rst_trans; [apply (mirror_same n s); eauto; now apply M|].
    unfold location, mirror; cbn [fst snd]. rewrite Z. apply rst_sym. apply sp_glue; [apply N|]. assert (Q := normal_weights n p N). unfold pweights in Q. now rewrite Z in Q.
Qed.
Print Assumptions C53_reversing_edge.

(** ... and points inside faces are always mapped to a point of another face. *)
Theorem C53_reversing_interior : forall (K : ExactReal) n (s u : flat K) (a b c d : K) p, flat_surface n s -> closed_surface n s ->
  den a * den d - den b * den c < 0 -> apply_matrix s a b c d = Ok u -> normal n p -> 0 < den (pc p) ->
  exists q, linear_point s u p = Ok q /\ normal n q /\
    (exists r', linear_image n s u (den a) (den b) (den c) (den d) (location p) r') /\
    forall r', linear_image n s u (den a) (den b) (den c) (den d) (location p) r' -> ~ same_point n u r' (location q).
Proof.
  intros K n s u a b c d p S C D E N Z. assert (D' : den a * den d - den b * den c <> 0) by lra.
  destruct (apply_matrix_Ok n s a b c d S C D') as (u' & E' & U & Cu & _ & _ & M). rewrite E in E'. injection E' as <-.
  exists p. split; [now apply (linear_point_ok K n)|]. split; auto. split.
  - eexists. apply linear_image_exists; auto; [apply N|now apply normal_weights with n].
  - intros r' I Sm. assert (J := linear_image_same K n s u a b c d _ r' S C E D' I). destruct (Rlt_dec _ _) as [|_]; [lra|].
    assert (X : same_point n u (mirror (location p)) (location p)) by (eapply rst_trans; [apply rst_sym; exact J|exact Sm]).
    assert (H : (pface p < n)%nat) by apply N. assert (Hn := neg_lt n s S _ H).
    assert (T : touches u p (neg (pface p))).
    { apply (touches_iff n u U Cu); auto. exists (den (pb p), den (pa p), den (pc p)). split; auto. assert (Q := normal_weights n p N). unfold pweights, weights in *. lra. }
    assert (H' := neg_lt n u U _ H). destruct (F_neg n u U Cu _ H') as [F1 F2]. rewrite neg_neg in F1, F2. pose proof (neg_ne (pface p)).
    assert (0 < den (pb p)) by (apply N; auto). unfold touches in T. destruct T as [[T|[T|T]]|[(T & _)|(_ & T & _)]]; try congruence; lra.
Qed.
Print Assumptions C53_reversing_interior.

Definition mirrored_t : tri := Eval vm_compute in match apply_matrix torus_s (-1)%Z 0%Z 0%Z 1%Z with Ok u => fT u | _ => torus_t end.
Definition mirrored_torus : flat ExactZ := mkFlat mirrored_t [zv (-1) 0; zv 1 0; zv 0 1; zv 0 (-1); zv 1 (-1); zv (-1) 1].
Theorem C53_refuted : exists (s u : flat ExactZ) (a b c d : ExactZ) p q r', flat_surface 6 s /\ closed_surface 6 s /\ apply_matrix s a b c d = Ok u /\ normal 6 p /\
  linear_point s u p = Ok q /\ linear_image 6 s u (den a) (den b) (den c) (den d) (location p) r' /\ ~ same_point 6 u r' (location q).
Proof.
  destruct torus_flat as (_ & S & C). assert (D : den ((-1)%Z : ExactZ) * den (1%Z : ExactZ) - den (0%Z : ExactZ) * den (0%Z : ExactZ) < 0) by (cbn; lra).
  assert (N : normal 6 (zp 0 2 1 1)) by normal_ex.
  destruct (C53_reversing_interior ExactZ 6 torus_s mirrored_torus (-1)%Z 0%Z 0%Z 1%Z (zp 0 2 1 1) S C D eq_refl N) as (q & E & _ & (r' & I) & F); [cbn; lra|].
  exists torus_s, mirrored_torus, (-1)%Z, 0%Z, 0%Z, 1%Z, (zp 0 2 1 1), q, r'. repeat (split; auto).
Qed.
Print Assumptions C53_refuted.

(** [trivial] recognizes the identity. *)
Theorem C53_trivial : forall (K : ExactReal) n (s u : flat K) (a b c d : K), flat_surface n s -> closed_surface n s ->
  den a * den d - den b * den c <> 0 -> apply_matrix s a b c d = Ok u ->
  exists t, linear_trivial s u a b c d = Ok t /\ (t = true <-> forall x, papply (den a) (den b) (den c) (den d) x = x).
Proof.
  intros K n s u a b c d S C D E. destruct (apply_matrix_Ok n s a b c d S C D) as (u' & E' & U & Cu & V & P & _). rewrite E in E'. injection E' as <-.
  assert (I : den a = 1 /\ den b = 0 /\ den c = 0 /\ den d = 1 <-> forall x, papply (den a) (den b) (den c) (den d) x = x).
  { split.
    - intros (-> & -> & -> & ->) [x y]. unfold papply; cbn [fst snd]. apply pt_eq; cbn [fst snd]; ring.
    - intros H. assert (X := H (1, 0)). assert (Y := H (0, 1)). unfold papply in X, Y; cbn [fst snd] in X, Y.
      assert (X1 := f_equal fst X). assert (X2 := f_equal snd X). assert (Y1 := f_equal fst Y). assert (Y2 := f_equal snd Y). cbn [fst snd] in *. lra. }
  unfold linear_trivial. destruct (reqb_reflect a (rofZ 1)) as [A|A], (reqb_reflect b (rofZ 0)) as [B|B], (reqb_reflect c (rofZ 0)) as [C'|C'], (reqb_reflect d (rofZ 1)) as [D'|D'];
    rewrite den_ofZ in A, B, C', D'; cbn [andb];
    try (exists false; split; [reflexivity|]; split; [discriminate|]; intros H; apply I in H; destruct H as (H1 & H2 & H3 & H4); contradiction).
  destruct (flat_eqb_spec n n s u S U) as (t & -> & T). exists t. split; auto. split; [intros _; apply I; auto|]. intros H. apply T. split; auto.
  assert (Pos : mdet (den a) (den b) (den c) (den d) > 0) by (unfold mdet; rewrite A, B, C', D'; cbn; lra).
  split; intros e He; [|now rewrite V, H].
  rewrite (nV_link' n _ (fs_wf n s S)), (nV_link' n _ (fs_wf n u U)) by (auto; first [now apply C|now apply Cu]).
  change (nF (fT s)) with (fF s). change (nF (fT u)) with (fF u). assert (H1 := F_lt n s S e He). now rewrite (P Pos e He), (P Pos _ H1).
Qed.
Print Assumptions C53_trivial.

Definition sheared_torus : flat ExactZ := mkFlat torus_t [zv 1 0; zv (-1) 0; zv 2 1; zv (-2) (-1); zv (-3) (-1); zv 3 1].
Example C53_ex : flat_surface 6 torus_s /\ closed_surface 6 torus_s /\ normal 6 (zp 0 2 1 1) /\ normal 6 (zp 0 2 1 0) /\
  apply_matrix torus_s (1%Z : ExactZ) (2%Z : ExactZ) (0%Z : ExactZ) (1%Z : ExactZ) = Ok sheared_torus /\ linear_point torus_s sheared_torus (zp 0 2 1 1) = Ok (zp 0 2 1 1) /\
  apply_matrix torus_s ((-1)%Z : ExactZ) (0%Z : ExactZ) (0%Z : ExactZ) (1%Z : ExactZ) = Ok mirrored_torus /\ linear_point torus_s mirrored_torus (zp 0 2 1 0) = Ok (zp 0 2 1 0).
Proof.
  destruct torus_flat as (F & S & C). split; [assumption|]. split; [assumption|]. split; [normal_ex|]. split; [normal_ex|].
  do 3 (split; [reflexivity|]). reflexivity.
Qed.
