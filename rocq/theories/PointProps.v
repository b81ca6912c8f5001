(** * Properties of points *)
From Coq Require Import ZArith Reals List Arith Bool Lia Lra Psatz Relations.
From Verif Require Import Base HalfEdge HalfEdgeFacts Perm PermSpec PermFacts IndexedSet IndexedSetSpec IndexedSetFacts Combinatorial
  CombinatorialSpec CombinatorialFacts CombinatorialHistory ExactReal Vector PlaneSpec Plane VectorFacts VectorProps FlatTri FlatSpec FlatFacts
  FlatProps FlatAngleProps Point PointSpec PointFacts PointOps PointEq PointHash PointPlane PointFlip PointFlipFacts.
Import ListNotations.
Local Open Scope nat_scope.

(** Points for the examples. *)
Definition zp (f : nat) (a b c : Z) : point ExactZ := @mkPoint ExactZ f a b c.
Ltac normal_ex := unfold normal, zp; cbn; repeat split; try lia; lra.

(** ** C28: points are equal when they are the same point of the surface *)
(** The constructor accepts exactly the coordinates that describe a point. *)
Theorem C28_constructor : forall (K : ExactReal) n (s : flat K) f (a b c : K), flat_surface n s -> closed_surface n s -> f < n ->
  (weights (den a, den b, den c) ->
     exists p, make_point s f a b c = Ok p /\ normal n p /\ same_point n s (f, (den a, den b, den c)) (location p)) /\
  (~ weights (den a, den b, den c) -> make_point s f a b c = Throw).
Proof.
  intros K n s f a b c S C Hf. split; intros W.
  - destruct (normalize_ok n s S C (mkPoint f a b c) Hf W) as (q & E & N & T). exists q. repeat (split; auto).
    exact (turned_sp n s S (mkPoint f a b c) q Hf W T).
  - now apply (normalize_throw s (mkPoint f a b c)).
Qed.
Print Assumptions C28_constructor.

Theorem C28_constructor_vertex : forall (K : ExactReal) n (s : flat K) v, flat_surface n s -> closed_surface n s -> In v (tverts (fT s)) ->
  exists p, make_point_vertex s v = Ok p /\ normal n p /\
    forall h, h < n -> (scontains v h = true <-> same_point n s (h, (1, 0, 0)%R) (location p)).
Proof.
  intros K n s v S C I. assert (W := fs_wf n s S). destruct (wf_vertices _ _ W) as (X1 & X2 & X3 & X4).
  destruct (In_nth _ _ [] I) as (i & Hi & Ei). destruct (X2 i Hi) as (x & Hx & Cx). rewrite Ei in Cx.
  assert (Cb := sbegin_first v x Cx).
  assert (Hb : sbegin v < n /\ forall h, h < n -> (scontains v h = true <-> same_vertex (fT s) (sbegin v) h)).
  { rewrite <- Ei in Cb |- *. destruct Cb as [Cb _]. pose proof (proj1 (X4 i _ _ Hi Cb) Cb) as (L & _). split; auto. intros h Hh. rewrite (X4 i _ h Hi Cb). tauto. }
  destruct Hb as [Hb Hv]. destruct (C28_constructor K n s (sbegin v) (rofZ 1) (rofZ 0) (rofZ 0) S C Hb) as [A _].
  rewrite !den_ofZ in A. destruct A as (p & E & N & T). { unfold weights. lra. }
  exists p. split; auto. split; auto. intros h Hh. rewrite Hv by auto. rewrite <- (vertex_same n s S C (sbegin v) h 1 1) by (auto; lra).
  split; intros Q; [eapply sp_trans; [apply sp_sym; exact Q|exact T]|eapply sp_trans; [exact T|apply sp_sym; exact Q]].
Qed.
Print Assumptions C28_constructor_vertex.

(** [==] decides whether two points are the same point of the surface. *)
Theorem C28_equality : forall (K : ExactReal) n (s : flat K) p q, flat_surface n s -> closed_surface n s -> normal n p -> normal n q ->
  exists b, point_eqb s p q = Ok b /\ (b = true <-> same_point n s (location p) (location q)).
Proof. intros K n s p q S C. now apply point_eqb_ok. Qed.
Print Assumptions C28_equality.

(** Equal points have the same hash. *)
Theorem C28_hash : forall (K : ExactReal) (H : hashing) (quot : K -> K -> hash_size H) n (s : flat K) p q,
  flat_surface n s -> closed_surface n s -> depends_on_ratio quot -> normal n p -> normal n q -> point_eqb s p q = Ok true ->
  exists x, point_hash H quot s p = Ok x /\ point_hash H quot s q = Ok x.
Proof.
  intros K H quot n s p q S C R Np Nq E. apply (hash_ok n s S C); auto.
  destruct (point_eqb_ok n s S C p q Np Nq) as (b & E' & B). rewrite E in E'. injection E' as <-. now apply B.
Qed.
Print Assumptions C28_hash.
(** The binary digits that are used for number fields only depend on the quotient. *)
Theorem C28_hash_digits : forall (K : ExactReal), depends_on_ratio (@quot_digits K).
Proof. apply quot_digits_ratio. Qed.
Print Assumptions C28_hash_digits.

(** [in], [on], [vertex] and [coordinates]. *)
Theorem C28_in : forall (K : ExactReal) n (s : flat K) p f, flat_surface n s -> closed_surface n s -> normal n p -> f < n ->
  exists b, point_in s p f = Ok b /\ (b = true <-> exists w, weights w /\ same_point n s (f, w) (location p)).
Proof.
  intros K n s p f S C N Hf. destruct (in_ok n s S C p f N Hf) as (b & E & B). exists b. split; auto. rewrite B. now apply (touches_iff n s S C).
Qed.
Print Assumptions C28_in.
Theorem C28_on : forall (K : ExactReal) n (s : flat K) p h, flat_surface n s -> closed_surface n s -> normal n p -> h < n ->
  exists b, point_on s p (edge_of h) = Ok b /\
    (b = true <-> exists u v, weights (u, v, 0%R) /\ same_point n s (h, (u, v, 0%R)) (location p)).
Proof. intros K n s p h S C. now apply on_iff. Qed.
Print Assumptions C28_on.
Theorem C28_vertex : forall (K : ExactReal) n (s : flat K) p, flat_surface n s -> closed_surface n s -> normal n p ->
  exists o, point_vertex s p = Ok o /\
    forall h, h < n -> (same_point n s (h, (1, 0, 0)%R) (location p) <-> exists v, o = Some v /\ scontains v h = true).
Proof. intros K n s p S C. now apply vertex_iff. Qed.
Print Assumptions C28_vertex.
Theorem C28_coordinates : forall (K : ExactReal) n (s : flat K) p f, flat_surface n s -> closed_surface n s -> normal n p -> f < n ->
  (point_in s p f = Ok true -> exists w, coordinates s p f = Ok w /\ weights (tden w) /\ same_point n s (f, tden w) (location p)) /\
  (point_in s p f = Ok false -> coordinates s p f = Throw).
Proof.
  intros K n s p f S C N Hf. destruct (in_ok n s S C p f N Hf) as (b & E & B). rewrite E. split; intros [= ->].
  - apply (coordinates_ok n s S C); auto. now apply B.
  - unfold coordinates. now rewrite E.
Qed.
Print Assumptions C28_coordinates.

(** An L shaped surface with one vertex and a midpoint of an edge, written in both faces. *)
Example C28_ex : flat_surface 18 L_s /\ closed_surface 18 L_s /\ In (repeat true 18) (tverts (fT L_s)) /\
  normal 18 (zp 12 2 1 0) /\ normal 18 (zp 13 2 4 0) /\ normal 18 (zp 0 1 1 1) /\
  point_eqb L_s (zp 12 2 1 0) (zp 13 2 4 0) = Ok true /\ point_eqb L_s (zp 12 2 1 0) (zp 13 4 2 0) = Ok false /\
  point_eqb L_s (zp 0 1 1 1) (zp 8 3 3 3) = Ok true /\
  @make_point ExactZ L_s 5 0%Z 3%Z 6%Z = Ok (zp 7 3 6 0) /\ @make_point ExactZ L_s 5 0%Z (-3)%Z 6%Z = Throw /\
  @make_point_vertex ExactZ L_s (repeat true 18) = Ok (zp 0 1 0 0) /\
  point_in L_s (zp 12 2 1 0) 8 = Ok true /\ coordinates L_s (zp 12 2 1 0) 8 = Ok (0%Z, 1%Z, 2%Z) /\ point_in L_s (zp 12 2 1 0) 1 = Ok false.
Proof.
  destruct L_flat as (F & S & C). split; [assumption|]. split; [assumption|]. split; [left; reflexivity|].
  split; [normal_ex|]. split; [normal_ex|]. split; [normal_ex|]. repeat (split; [reflexivity|]). reflexivity.
Qed.

(** ** C29: vectors and barycentric coordinates *)
(** [vector] is the position of the point in the plane where the given half edge starts at the origin. *)
Theorem C29_vector : forall (K : ExactReal) truediv n (s : flat K) p f, flat_surface n s -> closed_surface n s -> exact_division truediv ->
  normal n p -> f < n ->
  (point_in s p f = Ok true -> exists w, weights w /\ same_point n s (f, w) (location p) /\
    ((exists v, point_vector truediv s p f = Ok v /\ vden v = place s f w) \/
     (point_vector truediv s p f = Throw /\ forall v : vec K, vden v <> place s f w))) /\
  (point_in s p f = Ok false -> point_vector truediv s p f = Throw).
Proof.
  intros K truediv n s p f S C D N Hf. destruct (in_ok n s S C p f N Hf) as (b & E & B). rewrite E. split; intros [= ->].
  - apply (vector_ok n s S C truediv D); auto. now apply B.
  - unfold point_vector, coordinates. now rewrite E.
Qed.
Print Assumptions C29_vector.

(** The constructor from a vector in the triangle and [vector] are inverse to each other. *)
Theorem C29_roundtrip : forall (K : ExactReal) truediv n (s : flat K) f (v : vec K), flat_surface n s -> closed_surface n s -> exact_division truediv ->
  f < n -> (exists w, weights w /\ place s f w = vden v) ->
  exists p, make_point_vector truediv s f v = Ok (Some p) /\ normal n p /\
    (exists w, weights w /\ place s f w = vden v /\ same_point n s (f, w) (location p)) /\
    exists v', point_vector truediv s p f = Ok v' /\ vden v' = vden v.
Proof. intros K truediv n s f v S C D. now apply make_point_vector_ok. Qed.
Print Assumptions C29_roundtrip.

(** Coordinates with respect to the triangle on the other side of an edge describe the same point of the plane, and are coordinates of the
    same point of the surface if they are not negative. *)
Theorem C29_crossed : forall (K : ExactReal) n (s : flat K) p, flat_surface n s -> closed_surface n s -> pface p < n ->
  (0 < den (pa p) + den (pb p) + den (pc p))%R ->
  exists w, crossed s p = Ok w /\ (0 < sum3 (tden w))%R /\
    padd (vv s (pface p)) (place s (neg (pface p)) (tden w)) = place s (pface p) (den (pa p), den (pb p), den (pc p)) /\
    (weights (snd (location p)) -> weights (tden w) -> same_point n s (location p) (neg (pface p), tden w)).
Proof.
  intros K n s p S C H Z. destruct (crossed_ok n s S C p H) as (w & E & T & P). exists w. split; auto. split; [|split].
  - rewrite T. apply Rmult_lt_0_compat; auto. apply (area_pos n s S C). now apply (neg_lt n s S).
  - apply P. lra.
  - intros W W'. apply (same_place_across n s S C); auto. symmetry. apply P. lra.
Qed.
Print Assumptions C29_crossed.

(** Translations that do not leave the triangle. *)
Theorem C29_translate_in_face : forall (K : ExactReal) truediv n (s : flat K) p (d : vec K) q, flat_surface n s -> closed_surface n s -> exact_division truediv ->
  normal n p -> translate truediv s p d = Ok (Some q) ->
  normal n q /\ exists f w w', weights w /\ weights w' /\ same_point n s (f, w) (location p) /\ same_point n s (f, w') (location q) /\
    place s f w' = padd (place s f w) (vden d).
Proof. intros K truediv n s p d q S C D. now apply translate_ok. Qed.
Print Assumptions C29_translate_in_face.

(** Division of integers. *)
Definition zdiv (x y : ExactZ) : option ExactZ := if Z.eqb y 0 then None else if Z.eqb (x mod y) 0 then Some (x / y)%Z else None.
Lemma zdiv_exact : exact_division zdiv.
Proof.
  intros x y Hy. unfold zdiv. cbn in *. destruct (Z.eqb_spec y 0) as [->|Ny]; [lra|].
  destruct (Z.eqb_spec (x mod y) 0) as [E|E].
  - rewrite <- mult_IZR. f_equal. rewrite (Z.div_mod x y Ny) at 2. rewrite E. ring.
  - intros z Z. rewrite <- mult_IZR in Z. apply eq_IZR in Z. apply E. rewrite <- Z. apply Z.mod_mul. auto.
Qed.
(** A torus that is three units long. *)
Definition big_vectors : list (vec ExactZ) := [zv 3 0; zv 0 3; zv (-3) (-3)].
Definition big_s : flat ExactZ := mkFlat torus_t [zv 3 0; zv (-3) 0; zv 0 3; zv 0 (-3); zv (-3) (-3); zv 3 3].
Lemma big_flat : flat_surface 6 big_s /\ closed_surface 6 big_s.
Proof.
  assert (Su : suitable 6 torus_t big_vectors).
  { split; [reflexivity|]. intros e He _. do 6 (destruct e as [|e]; [cbn; unfold padd, pdet, pneg; cbn; split; [f_equal; lra|lra]|]). lia. }
  destruct (proj1 (C19_constructor _ 6 torus_t _ torus_wf) Su) as (s' & F & S & _).
  assert (F' : make_flat_list torus_t big_vectors = Ok big_s) by reflexivity.
  replace s' with big_s in S by congruence. split; auto. intros e He. do 6 (destruct e as [|e]; [discriminate|]). lia.
Qed.
Example C29_ex : flat_surface 6 big_s /\ closed_surface 6 big_s /\ exact_division zdiv /\ (exists w, weights w /\ place big_s 0 w = vden (zv 2 1)) /\
  normal 6 (zp 0 3 3 3) /\ point_vector zdiv big_s (zp 0 3 3 3) 0 = Ok (zv 2 1) /\ point_vector zdiv big_s (zp 0 1 1 3) 0 = Throw /\
  make_point_vector zdiv big_s 0 (zv 2 1) = Ok (Some (zp 0 3 3 3)) /\
  crossed big_s (zp 0 2 1 0) = Ok (9%Z, 18%Z, 0%Z) /\ crossed big_s (zp 0 1 1 1) = Ok (18%Z, 18%Z, (-9)%Z) /\
  translate zdiv big_s (zp 0 3 3 3) (zv 1 0) = Ok (Some (zp 2 6 3 0)).
Proof.
  destruct big_flat as (S & C). split; [assumption|]. split; [assumption|]. split; [apply zdiv_exact|].
  split; [exists (1, 1, 1)%R; split; [unfold weights; lra|]; apply pt_eq; unfold place, padd, pscale; cbn; field|].
  split; [normal_ex|]. repeat (split; [reflexivity|]). reflexivity.
Qed.

(** ** C30: flips map points to the same points *)
(** A flip cuts a quadrilateral into two other triangles: this is a bijection of the points of the two surfaces, ... *)
Theorem C30_bijection : forall (K : ExactReal) n (s s' : flat K) e, flat_surface n s -> closed_surface n s -> e < n -> fflip s e = (s', Ok tt) ->
  (forall r, fst r < n -> weights (snd r) -> exists r', flip_image n s s' e r r') /\
  (forall r', fst r' < n -> weights (snd r') -> exists r, flip_image n s s' e r r') /\
  (forall r1 r2 r1' r2', flip_image n s s' e r1 r1' -> flip_image n s s' e r2 r2' -> (same_point n s r1 r2 <-> same_point n s' r1' r2')).
Proof.
  intros K n s s' e S C He E. split; [|split].
  - intros r. now apply flip_image_total.
  - intros r. now apply flip_image_onto.
  - intros. now apply (flip_image_sp n s s' e).
Qed.
Print Assumptions C30_bijection.
(** ... and the deformation computes the image of a point under it. *)
Theorem C30_image : forall (K : ExactReal) n (s s' : flat K) e p, flat_surface n s -> closed_surface n s -> e < n -> fflip s e = (s', Ok tt) -> normal n p ->
  exists q, flip_point s s' e p = Ok q /\ normal n q /\
    forall r r', same_point n s r (location p) -> flip_image n s s' e r r' -> same_point n s' r' (location q).
Proof.
  intros K n s s' e p S C He E N. destruct (flip_point_spec n s s' e p S C He E N) as (q & Eq & Nq & H). exists q. split; auto. split; auto.
  intros r r' R I. destruct (normal_valid n p N) as [V W]. destruct (flip_image_total n s s' e (location p) S C He E V W) as (t & T).
  eapply sp_trans; [|apply H; exact T]. now apply (flip_image_sp n s s' e r (location p)).
Qed.
Print Assumptions C30_image.
(** The section of the deformation maps the image back to an equal point. *)
Theorem C30_section : forall (K : ExactReal) n (s s' : flat K) e p, flat_surface n s -> closed_surface n s -> e < n -> fflip s e = (s', Ok tt) -> normal n p ->
  exists q p', flip_point s s' e p = Ok q /\ flip_point s' s e q = Ok p' /\ point_eqb s p p' = Ok true.
Proof.
  intros K n s s' e p S C He E N. destruct (flip_point_spec n s s' e p S C He E N) as (q & Eq & Nq & H).
  destruct (flip_point_back n s s' e q S C He E Nq) as (p' & Ep & Np & H'). exists q, p'. split; auto. split; auto.
  destruct (point_eqb_ok n s S C p p' N Np) as (b & Eb & B). rewrite Eb. f_equal. apply B.
  destruct (normal_valid n p N) as [V W]. destruct (flip_image_total n s s' e (location p) S C He E V W) as (t & T).
  destruct (normal_valid n q Nq) as [V' W']. destruct (flip_image_onto n s s' e (location q) S C He E V' W') as (u & U).
  eapply sp_trans; [|apply H'; exact U]. apply (flip_image_sp n s s' e (location p) u t (location q)); auto.
Qed.
Print Assumptions C30_section.

Definition flipped_torus : flat ExactZ := fst (fflip torus_s 0).
Example C30_ex : flat_surface 6 torus_s /\ closed_surface 6 torus_s /\ fflip torus_s 0 = (flipped_torus, Ok tt) /\
  normal 6 (zp 0 1 3 1) /\ normal 6 (zp 0 3 1 1) /\
  flip_point torus_s flipped_torus 0 (zp 0 1 3 1) = Ok (zp 1 2 1 2) /\ flip_point torus_s flipped_torus 0 (zp 0 3 1 1) = Ok (zp 0 1 2 2).
Proof.
  destruct torus_flat as (F & S & C). split; [assumption|]. split; [assumption|]. split; [reflexivity|].
  split; [normal_ex|]. split; [normal_ex|]. split; reflexivity.
Qed.
