(** * Properties of the images of points when a marked point is inserted *)
From Coq Require Import ZArith Reals List Arith Bool Lia Lra Psatz.
From Verif Require Import Base HalfEdge HalfEdgeFacts Perm PermSpec PermFacts PermCycles IndexedSet IndexedSetSpec IndexedSetFacts Combinatorial
  CombinatorialSpec CombinatorialFacts CombinatorialHistory ExactReal Vector PlaneSpec Plane VectorFacts VectorProps FlatTri FlatSpec FlatFacts FlatSum FlatOps FlatAngle FlatDelaunay FlatSector
  FlatProps FlatAngleProps Point PointSpec PointFacts PointOps PointEq PointHash PointPlane PointFlip PointProps
  Insert InsertSpec InsertFacts InsertKept InsertLoop InsertProps InsertImage.
Import ListNotations.
Local Open Scope nat_scope.

(** The marked point is on an edge: a point of the two triangles at that edge goes to the same point of the plane. *)
Theorem C31_edge : forall (K : ExactReal) truediv n (s : flat K) h (v : vec K) fuel r i e a b p, exact_division truediv ->
  flat_surface n s -> closed_surface n s -> h < n -> finsert_at fuel s h v = Ok r -> in_relation r = OnEdge i e a b ->
  let s' := in_domain r in let u := in_codomain r in
  normal n p -> In (pface p) (around_edge s' e) ->
  exists q, insertion_image truediv s' u (in_relation r) p = Ok (u, q) /\ normal (n + 6) q /\
    exists x y, same_point n s' x (location p) /\ edge_image n s' u e (vden v) x y /\ same_point (n + 6) u y (location q).
Proof.
  intros K truediv n s h v fuel r i e a b p X S0 Cl Hh E R. cbv zeta. intros N I.
  destruct (C60_insert_at K n s h v fuel r S0 Cl Hh E) as (_ & h' & Hh' & _ & S' & Cl' & _ & _ & [(_ & _ & w & _ & R')|(Ie & EI & w & _ & R')]); [congruence|].
  rewrite R in R'. injection R' as -> -> -> ->. rewrite R. now apply (edge_image_ok truediv X n _ _ h' v w p S' Cl' Hh' Ie EI N).
Qed.
Print Assumptions C31_edge.

Lemma face_parts (K : ExactReal) n (s : flat K) h (v : vec K) fuel r i : flat_surface n s -> closed_surface n s -> h < n ->
  finsert_at fuel s h v = Ok r -> in_relation r = InFace i ->
  let s' := in_domain r in let h' := in_next r in h' < n /\ flat_surface n s' /\ closed_surface n s' /\
    inside s' h' (vden v) /\ face_inserted n s' (in_codomain r) h' (vden v) /\ vertex_source (fT (in_codomain r)) n = Ok i.
Proof.
  intros S0 Cl Hh E R. cbv zeta. pose proof E as E0. unfold finsert_at in E0. rewrite (in_sector_at_Ok n) in E0 by auto. cbn [bind] in E0.
  destruct (hits (vden v) (vv s h) (vv s (fV s h))) eqn:Hi; [|discriminate]. cbn [negb] in E0. assert (Nv := hits_nonzero _ _ _ Hi).
  assert (D := corner_det n s h S0 Hh (Cl h Hh)). assert (Sc : sector_contains s h (vden v)) by now apply hits_spec.
  assert (A : aims n s h (vden v)) by (unfold aims; auto). assert (L := insert_loop_ok n v fuel s h A).
  destruct (insert_loop fuel s h v) as [[[s1 h1] l]| | |] eqn:El; cbn [bind] in E0; try discriminate.
  destruct L as (A' & _ & [[Co Ie]|[Nc Ii]]).
  - destruct (finsert_at_edge K n s s1 h h1 v fuel l S0 Hh Hi El A' Co Ie) as (u & w & E1 & _). rewrite E in E1. injection E1 as ->. discriminate.
  - destruct (finsert_at_face K n s s1 h h1 v fuel l S0 Hh Hi El A' Nc Ii) as (u & w & E1 & FI & V). rewrite E in E1. injection E1 as ->.
    cbn [in_relation] in R. injection R as ->. destruct A' as (S' & Cl' & H' & _). cbn [in_domain in_next in_codomain]. auto 10.
Qed.

(** The marked point V is inside of a face: a point of a corner [k] of that face goes to the same point of the plane when it is in the
    triangle of V and the side after [k].  What is missing are the points in the other two triangles and the other faces. *)
Theorem C31_face_partial : forall (K : ExactReal) truediv n (s : flat K) h (v : vec K) fuel r i p x w', exact_division truediv ->
  flat_surface n s -> closed_surface n s -> h < n -> finsert_at fuel s h v = Ok r -> in_relation r = InFace i ->
  let s' := in_domain r in let u := in_codomain r in let k := pface p in
  normal n p -> corner_domain s' (in_next r) k x -> weights w' ->
  padd x (place s' k (den (pa p), den (pb p), den (pc p))) = padd (vden v) (place u (neg (fF u k)) w') ->
  exists q, insertion_image truediv s' u (in_relation r) p = Ok (u, q) /\ normal (n + 6) q /\
    face_image n s' u (in_next r) (vden v) (location p) (neg (fF u k), w') /\ same_point (n + 6) u (neg (fF u k), w') (location q).
Proof.
  intros K truediv n s h v fuel r i p x w' X S0 Cl Hh E R. cbv zeta. intros N C Q P.
  destruct (face_parts K n s h v fuel r i S0 Cl Hh E R) as (Hh' & S' & Cl' & In & FI & V). rewrite R.
  now apply (proj1 (face_image_ok truediv X n _ _ _ v i p S' Cl' Hh' In FI V N) x w').
Qed.
Print Assumptions C31_face_partial.

(** The faces that are changed. *)
Definition changed {K : ExactReal} (r : inserted K) : list nat :=
  let s' := in_domain r in
  match in_relation r with
  | InFace _ => [in_next r; fF s' (in_next r); fF s' (fF s' (in_next r))]
  | OnEdge _ e _ _ => around_edge s' e
  end.
(** A point of any other face is returned as it is, as a point of the surface without the marked point. *)
Theorem C31_other_faces : forall (K : ExactReal) truediv n (s : flat K) h (v : vec K) fuel r p, exact_division truediv ->
  flat_surface n s -> closed_surface n s -> h < n -> finsert_at fuel s h v = Ok r -> normal n p -> ~ In (pface p) (changed r) ->
  insertion_image truediv (in_domain r) (in_codomain r) (in_relation r) p = Ok (in_domain r, p).
Proof.
  intros K truediv n s h v fuel r p X S0 Cl Hh E N O. unfold changed in O. destruct (in_relation r) as [i|i e a b] eqn:R.
  - destruct (face_parts K n s h v fuel r i S0 Cl Hh E R) as (Hh' & S' & Cl' & In & FI & V).
    now apply (face_image_ok truediv X n _ _ _ v i p S' Cl' Hh' In FI V N).
  - destruct (C60_insert_at K n s h v fuel r S0 Cl Hh E) as (_ & h' & Hh' & C & S' & Cl' & _ & _ & [(Ii & FI & w & V & R')|(Ie & EI & w & V & R')]); [congruence|].
    rewrite R in R'. injection R' as -> -> -> ->. now apply (edge_image_ok truediv X n _ _ h' v w p S' Cl' Hh' Ie EI N).
Qed.
Print Assumptions C31_other_faces.

Definition wide_s : flat ExactZ := mkFlat torus_t [zv 4 0; zv (-4) 0; zv 0 4; zv 0 (-4); zv (-4) (-4); zv 4 4].
Lemma wide_flat : flat_surface 6 wide_s /\ closed_surface 6 wide_s.
Proof.
  set (l := [zv 4 0; zv 0 4; zv (-4) (-4)]). assert (Su : suitable 6 torus_t l).
  { split; [reflexivity|]. intros e He _. do 6 (destruct e as [|e]; [cbn; unfold padd, pdet, pneg; cbn; split; [f_equal; lra|lra]|]). lia. }
  destruct (proj1 (C19_constructor _ 6 torus_t _ torus_wf) Su) as (s' & F & S & _).
  assert (F' : make_flat_list torus_t l = Ok wide_s) by reflexivity.
  replace s' with wide_s in S by congruence. split; auto. intros e He. do 6 (destruct e as [|e]; [discriminate|]). lia.
Qed.

(** For the examples: whether the image is a point of the surface with the marked point, its face and its weights. *)
Definition image_of (s : flat ExactZ) (v : vec ExactZ) (p : point ExactZ) : outcome (bool * nat * (Z * Z * Z)) :=
  do r <- finsert_at 20 s 0 v;
  do (s', q) <- insertion_image zdiv (in_domain r) (in_codomain r) (in_relation r) p;
  Ok (length (fvec s') =? length (fvec s) + 6, pface q, (pa q : Z, pb q : Z, pc q : Z)).
Example C31_ex : flat_surface 6 big_s /\ closed_surface 6 big_s /\ flat_surface 6 wide_s /\ closed_surface 6 wide_s /\ exact_division zdiv /\
  image_of big_s (zv 2 0) (zp 0 1 1 4) = Ok (true, 10, (9, 24, 3)%Z) /\ image_of big_s (zv 2 0) (zp 1 1 1 1) = Ok (true, 0, (6, 9, 3)%Z) /\
  image_of big_s (zv 2 0) (zp 0 1 0 0) = Ok (true, 7, (6, 0, 0)%Z) /\
  image_of big_s (zv 2 1) (zp 0 1 2 4) = Ok (true, 8, (9, 3, 9)%Z) /\ image_of big_s (zv 2 1) (zp 0 3 3 3) = Ok (true, 8, (27, 0, 0)%Z) /\
  image_of big_s (zv 2 1) (zp 1 1 1 1) = Ok (false, 1, (1, 1, 1)%Z) /\ image_of big_s (zv 2 1) (zp 0 4 1 1) = Throw /\
  image_of wide_s (zv 3 1) (zp 0 1 2 1) = Ok (true, 8, (16, 0, 0)%Z) /\ image_of wide_s (zv 3 1) (zp 0 2 1 1) = Ok (true, 10, (32, 0, 0)%Z).
Proof.
  split; [apply big_flat|]. split; [apply big_flat|]. split; [apply wide_flat|]. split; [apply wide_flat|]. split; [apply zdiv_exact|].
  repeat split; vm_compute; reflexivity.
Qed.

(** ** What goes wrong *)
Definition failed {A} (o : outcome A) : bool := match o with Throw => true | _ => false end.
Definition shown_image (o : outcome (flat ExactZ * point ExactZ)) : option (nat * nat * (Z * Z * Z)) :=
  match o with Ok (s, q) => Some (length (fvec s), pface q, (pa q : Z, pb q : Z, pc q : Z)) | _ => None end.
Lemma inserted_with (K : ExactReal) (s : flat K) h v fuel {A} (f : inserted K -> A) (x : A) :
  (do r <- finsert_at fuel s h v; Ok (f r)) = Ok x -> exists r, finsert_at fuel s h v = Ok r /\ f r = x.
Proof. destruct (finsert_at fuel s h v) as [r| | |]; cbn [bind]; try discriminate. intros E. exists r. inv E. auto. Qed.
Lemma shown_point o n f x y z : shown_image o = Some (n, f, (x, y, z)) -> exists s, o = Ok (s, zp f x y z) /\ length (fvec s) = n.
Proof. destruct o as [[s [f' x' y' z']]| | |]; try discriminate. cbn [shown_image pface pa pb pc]. intros E. injection E as <- <- <- <- <-. eauto. Qed.
Lemma failed_throw {A} (o : outcome A) : failed o = true -> o = Throw.
Proof. destruct o; cbn; congruence. Qed.
Lemma in_list f l : existsb (Nat.eqb f) l = true -> In f l.
Proof. intros E. apply existsb_exists in E as (x & I & E). apply Nat.eqb_eq in E. now subst. Qed.

(** The image of a point inside of the face with the marked point cannot be computed. *)
Theorem C31_throws_refuted : exists (K : ExactReal) truediv n (s : flat K) h (v : vec K) fuel r p,
  exact_division truediv /\ flat_surface n s /\ closed_surface n s /\ h < n /\ finsert_at fuel s h v = Ok r /\ normal n p /\ In (pface p) (changed r) /\
  insertion_image truediv (in_domain r) (in_codomain r) (in_relation r) p = Throw.
Proof.
  destruct (inserted_with ExactZ big_s 0 (zv 2 1) 20 (fun r => (existsb (Nat.eqb 0) (changed r),
    failed (insertion_image zdiv (in_domain r) (in_codomain r) (in_relation r) (zp 0 4 1 1)))) (true, true)) as (r & E & I); [vm_compute; reflexivity|].
  injection I as I1 I2. exists ExactZ, zdiv, 6, big_s, 0, (zv 2 1), 20, r, (zp 0 4 1 1). destruct big_flat as [S0 Cl].
  split; [apply zdiv_exact|]. split; auto. split; auto. split; [lia|]. split; auto. split; [normal_ex|]. split; [now apply in_list|now apply failed_throw].
Qed.
Print Assumptions C31_throws_refuted.

(** The image is not a point of the surface with the marked point. *)
Theorem C31_surface_refuted : exists (K : ExactReal) truediv n (s : flat K) h (v : vec K) fuel r p t q,
  exact_division truediv /\ flat_surface n s /\ closed_surface n s /\ h < n /\ finsert_at fuel s h v = Ok r /\ normal n p /\
  insertion_image truediv (in_domain r) (in_codomain r) (in_relation r) p = Ok (t, q) /\ flat_surface (n + 6) (in_codomain r) /\ ~ flat_surface (n + 6) t.
Proof.
  destruct (inserted_with ExactZ big_s 0 (zv 2 1) 20 (fun r =>
    shown_image (insertion_image zdiv (in_domain r) (in_codomain r) (in_relation r) (zp 1 1 1 1))) (Some (6, 1, (1, 1, 1)%Z))) as (r & E & I); [vm_compute; reflexivity|].
  apply shown_point in I as (t & I & L). destruct big_flat as [S0 Cl].
  exists ExactZ, zdiv, 6, big_s, 0, (zv 2 1), 20, r, (zp 1 1 1 1), t, (zp 1 1 1 1).
  split; [apply zdiv_exact|]. split; auto. split; auto. split; [lia|]. split; auto. split; [normal_ex|]. split; [exact I|].
  split; [apply (C60_kept _ 6 big_s 0 (zv 2 1) 20 r S0 Cl ltac:(lia) E)|]. intros T. assert (X := fs_length _ _ T). lia.
Qed.
Print Assumptions C31_surface_refuted.

Lemma image_surface (K : ExactReal) truediv (s u : flat K) r p t q : insertion_image truediv s u r p = Ok (t, q) -> t = s \/ t = u.
Proof.
  unfold insertion_image. destruct (insertion_point _ _ _ _); cbn [bind]; try discriminate. destruct (point_in _ _ _) as [[]| | |]; cbn [bind negb]; try discriminate.
  - destruct r; repeat match goal with |- bind ?x _ = _ -> _ => destruct x; cbn [bind]; try discriminate end; intros E; inv E; auto.
  - intros E; inv E; auto.
Qed.
(** Two points of the face with the marked point have the same image. *)
Theorem C31_face_refuted : exists (K : ExactReal) truediv n (s : flat K) h (v : vec K) fuel r p p' q q',
  exact_division truediv /\ flat_surface n s /\ closed_surface n s /\ h < n /\ finsert_at fuel s h v = Ok r /\
  let s' := in_domain r in let u := in_codomain r in
  normal n p /\ normal n p' /\ ~ same_point n s' (location p) (location p') /\
  insertion_image truediv s' u (in_relation r) p = Ok (u, q) /\ insertion_image truediv s' u (in_relation r) p' = Ok (u, q') /\
  same_point (n + 6) u (location q) (location q').
Proof.
  destruct (inserted_with ExactZ wide_s 0 (zv 3 1) 20 (fun r =>
    (shown_image (insertion_image zdiv (in_domain r) (in_codomain r) (in_relation r) (zp 0 1 2 1)),
     shown_image (insertion_image zdiv (in_domain r) (in_codomain r) (in_relation r) (zp 0 2 1 1)),
     point_eqb (in_domain r) (zp 0 1 2 1) (zp 0 2 1 1), point_eqb (in_codomain r) (zp 8 16 0 0) (zp 10 32 0 0)))
    (Some (12, 8, (16, 0, 0)%Z), Some (12, 10, (32, 0, 0)%Z), Ok false, Ok true)) as (r & E & I); [vm_compute; reflexivity|].
  injection I as I1 I2 I3 I4. apply shown_point in I1 as (t & I1 & L1). apply shown_point in I2 as (t' & I2 & L2). destruct wide_flat as [S0 Cl].
  destruct (C60_kept _ 6 wide_s 0 (zv 3 1) 20 r S0 Cl ltac:(lia) E) as (Su & Clu & _).
  destruct (C60_insert_at _ 6 wide_s 0 (zv 3 1) 20 r S0 Cl ltac:(lia) E) as (_ & h' & _ & _ & S' & Cl' & _).
  exists ExactZ, zdiv, 6, wide_s, 0, (zv 3 1), 20, r, (zp 0 1 2 1), (zp 0 2 1 1), (zp 8 16 0 0), (zp 10 32 0 0).
  split; [apply zdiv_exact|]. split; auto. split; auto. split; [lia|]. split; auto. cbv zeta.
  assert (N1 : normal 6 (zp 0 1 2 1)) by normal_ex. assert (N2 : normal 6 (zp 0 2 1 1)) by normal_ex.
  assert (N3 : normal (6 + 6) (zp 8 16 0 0)) by normal_ex. assert (N4 : normal (6 + 6) (zp 10 32 0 0)) by normal_ex.
  split; auto. split; auto. split; [|split; [|split]].
  - destruct (point_eqb_ok 6 _ S' Cl' _ _ N1 N2) as (b & Eb & Q). intros P. apply Q in P. rewrite I3 in Eb. congruence.
  - destruct (image_surface _ _ _ _ _ _ _ _ I1) as [-> | ->]; auto. assert (X := fs_length _ _ S'). lia.
  - destruct (image_surface _ _ _ _ _ _ _ _ I2) as [-> | ->]; auto. assert (X := fs_length _ _ S'). lia.
  - destruct (point_eqb_ok (6 + 6) _ Su Clu _ _ N3 N4) as (b & Eb & Q). apply Q. rewrite I4 in Eb. congruence.
Qed.
Print Assumptions C31_face_refuted.
