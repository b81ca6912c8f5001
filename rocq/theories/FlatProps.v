(** * Properties of flat triangulations: construction, flips, area, linear maps and the Delaunay condition *)
From Coq Require Import ZArith QArith Reals List Arith Bool Lia Lra Psatz.
From Verif Require Import Base HalfEdge HalfEdgeFacts Perm PermSpec PermFacts PermLemmas IndexedSet Combinatorial CombinatorialSpec
  CombinatorialFacts CombinatorialHistory CombinatorialOps CombinatorialProps ExactReal Vector PlaneSpec Plane VectorFacts VectorProps
  FlatTri FlatSpec FlatFacts FlatSum FlatLinear FlatOps FlatDelaunay.
Import ListNotations.
Local Open Scope nat_scope.

(** ** C19: flat triangulations stay flat *)
(** The constructor accepts exactly the vectors that fit and otherwise throws. *)
Theorem C19_constructor : forall (K : ExactReal) n t (vs : list (vec K)), well_formed n t ->
  (suitable n t vs -> exists s, make_flat_list t vs = Ok s /\ flat_surface n s /\
     forall e, e < n -> fF s e = nF t e /\ nV (fT s) e = nV t e /\ vv s e = side vs e) /\
  (~ suitable n t vs -> make_flat_list t vs = Throw).
Proof.
  intros K n t vs W. destruct (make_flat_list_spec n t vs W) as [A B].
  assert (Sd : forall e, vden (odd_vec vs e) = side vs e).
  { intros e. unfold odd_vec, side. destruct (Nat.even e); auto. apply vden_neg. }
  assert (Eq : forall t', well_formed n t' -> tF t' = tF t -> let s := mkFlat t' (map (odd_vec vs) (seq 0 n)) in
     (triangles_flat n s <-> forall e, e < n -> nF t e <> e ->
       padd (padd (side vs e) (side vs (nF t e))) (side vs (nF t (nF t e))) = (0, 0)%R /\ (0 < pdet (side vs e) (side vs (nF t e)))%R)).
  { intros t' W' EF. cbv zeta. unfold triangles_flat, fF. cbn [fT].
    split; intros H e He; assert (H1 := nF_lt n t W e He); assert (H2 := nF_lt n t W _ H1); specialize (H e He);
      rewrite !(same_nF _ _ _ EF), !vv_map, !Sd in * by auto; auto. }
  split.
  - intros [L H]. destruct (A L) as (t' & W' & EV & EF & M). cbv zeta in M. specialize (Eq t' W' EF). cbv zeta in Eq.
    remember (mkFlat t' _) as s eqn:Es. destruct M as [[M T]|[_ M]]; [|exfalso; apply M, Eq, H].
    assert (Vs : forall e, e < n -> vv s e = side vs e) by (intros e He; subst s; rewrite vv_map by auto; apply Sd).
    exists s. split; auto. split.
    + constructor; subst s; auto; cbn [fvec fT]; auto.
      * now rewrite map_length, seq_length.
      * intros e He. assert (Hn := neg_ltn n t W e He). rewrite !Vs by auto. rewrite <- !Sd. apply odd_vec_neg.
    + intros e He. split; [|split; auto]; subst s; unfold fF; cbn [fT]; [now apply same_nF|now apply same_nV].
  - intros N. destruct (Nat.eq_dec (length vs) (n / 2)) as [L|L]; auto.
    destruct (A L) as (t' & W' & EV & EF & M). cbv zeta in M. specialize (Eq t' W' EF). cbv zeta in Eq.
    destruct M as [[_ T]|[M _]]; auto. exfalso. apply N. split; auto. now apply Eq.
Qed.
Print Assumptions C19_constructor.

(** After every history of flips, the surface is flat; edges that were not flipped keep their vectors. *)
Theorem C19_history : forall (K : ExactReal) n (s s' : flat K) es, flat_surface n s -> (forall e, In e es -> e < n) ->
  fflips s es = (s', Ok tt) ->
  flat_surface n s' /\ forall i, i < n -> ~ In i es -> ~ In (neg i) es -> vv s' i = vv s i.
Proof.
  intros K n s s' es S H E. split; [eapply fflips_surface; eauto|].
  revert s S H E. induction es as [|e r IH]; intros s S H E i Hi N1 N2; cbn [fflips] in E.
  - now injection E as <-.
  - destruct (fflip s e) as [s1 [[]| | |]] eqn:Ef; try discriminate. assert (He : e < n) by auto with datatypes.
    destruct (fflip_spec n s e s1 S He Ef) as (_ & S1 & _ & Vo & _). cbn in N1, N2.
    rewrite (IH s1) by (auto with datatypes). unfold vv. rewrite Vo; auto.
    intros ->. apply N2. rewrite neg_neg. auto.
Qed.
Print Assumptions C19_history.

(** A flip replaces one diagonal of a strictly convex quadrilateral by the other, and is rejected otherwise. *)
Theorem C19_flip : forall (K : ExactReal) n (s : flat K) e, flat_surface n s -> e < n ->
  (can_flip n s e -> exists s', fflip s e = (s', Ok tt) /\ flat_surface n s' /\ flipped_faces n (fT s) (fT s') e /\
     vv s' e = pneg (padd (vv s (fF s (fF s e))) (vv s (fF s (neg e)))) /\
     forall i, i < n -> i <> e -> i <> neg e -> vv s' i = vv s i) /\
  (~ can_flip n s e -> exists s', fflip s e = (s', Throw) /\ forall i, vv s' i = vv s i).
Proof.
  intros K n s e S He. split.
  - intros C. destruct (fflip_Ok n s e S He C) as (s' & E & S' & Ft & Vo & Ve). exists s'. split; auto. split; auto.
    assert (F : flippable n (fT s) e) by now apply (can_flip_iff n s e S He).
    destruct (C08_flip_effect n (fT s) e (fs_wf n s S) F) as (t' & E' & FF & _). rewrite Ft in E'. injection E' as <-.
    split; auto. split; auto. intros i Hi D1 D2. unfold vv. now rewrite Vo.
  - intros C. destruct (fflip_rejected n s e S He C) as (s' & E & Ev & _). exists s'. split; auto. intros i. unfold vv. now rewrite Ev.
Qed.
Print Assumptions C19_flip.

(** On a surface without boundary a rejected flip changes nothing. *)
Theorem C19_rejected : forall (K : ExactReal) n (s : flat K) e, flat_surface n s -> closed_surface n s -> e < n ->
  ~ can_flip n s e -> fflip s e = (s, Throw).
Proof.
  intros K n s e S C He N. destruct (fflip_rejected n s e S He N) as (s' & E & _ & X). rewrite E, X; auto. right. apply C.
  now apply (neg_ltn n _ (fs_wf n s S)).
Qed.
Print Assumptions C19_rejected.

(** Clones, relabelings and slits are flat, with the same vectors. *)
Theorem C19_clone : forall (K : ExactReal) n (s : flat K), flat_surface n s ->
  exists u, fclone s = Ok u /\ flat_surface n u /\ flat_eqb s u = Ok true /\ forall e, e < n -> fF u e = fF s e /\ vv u e = vv s e.
Proof.
  intros K n s S. destruct (fclone_Ok n s S) as (u & E & U & F & V). exists u. split; auto. split; auto. split.
  - destruct (flat_eqb_spec n n s u S U) as (b & -> & B). f_equal. apply B. split; auto. split; intros e He; symmetry; auto. now apply F.
  - intros e He. split; auto. now apply F.
Qed.
Print Assumptions C19_clone.

Theorem C19_relabel : forall (K : ExactReal) n (s : flat K) r, flat_surface n s -> closed_surface n s -> is_perm n r ->
  respects_edges n (fun e => nth e (fwd r) 0) ->
  exists u, frelabel s r = Ok u /\ flat_surface n u /\
    forall e, e < n -> fF u (nth e (fwd r) 0) = nth (fF s e) (fwd r) 0 /\ vv u (nth e (fwd r) 0) = vv s e.
Proof.
  intros K n s r S C R EM. apply is_perm_wfp in R. destruct (frelabel_Ok n s r S C R EM) as (u & E & U & P).
  exists u. split; auto. split; auto. intros e He. destruct (P e He) as (P1 & _ & P2). auto.
Qed.
Print Assumptions C19_relabel.

Theorem C19_slit : forall (K : ExactReal) n (s : flat K) e, flat_surface n s -> closed_surface n s -> e < n ->
  exists u, fslit s e = Ok u /\ flat_surface (n + 2) u /\ slit_faces n (fT s) (fT u) e /\
    (forall i, i < n -> vv u i = vv s i) /\ vv u n = vv s e.
Proof.
  intros K n s e S C He. assert (W := fs_wf n s S). apply fslit_Ok; auto.
  - apply C. now apply (neg_ltn n _ W).
  - intros b (k & <- & B & _) _. refine (C _ _ B). apply (same_vertex_lt n (fT s) e); auto. now exists k.
Qed.
Print Assumptions C19_slit.

(** Two surfaces compare equal when the vertices and the vectors agree. *)
Theorem C19_equality : forall (K : ExactReal) n m (s u : flat K), flat_surface n s -> flat_surface m u ->
  closed_surface n s -> closed_surface m u ->
  exists b, flat_eqb s u = Ok b /\
   (b = true <-> n = m /\ (forall e, e < n -> fF s e = fF u e) /\ forall e, e < n -> vv s e = vv u e).
Proof.
  intros K n m s u S U C D. destruct (flat_eqb_spec n m s u S U) as (b & E & B). exists b. split; auto. rewrite B.
  split; intros (-> & X & Y); (split; [auto|split; [|auto]]); intros e He.
  - assert (P : forall x, x < m -> fF s (fF s x) = fF u (fF u x)).
    { intros x Hx. apply neg_inj. rewrite <- (closed_nV m s x), <- (closed_nV m u x) by auto. auto. }
    assert (H1 := fF_lt m s e S He). assert (Q := P _ H1). rewrite (fF3 m s e S He) in Q.
    assert (H2 := fF_lt m u _ U H1). apply (f_equal (fF u)) in Q. rewrite (fF3 m u _ U H1) in Q. auto.
  - assert (H1 := fF_lt m u e U He). rewrite (closed_nV m s), (closed_nV m u) by auto. rewrite !X; auto. rewrite X; auto.
Qed.
Print Assumptions C19_equality.

(** The public constructor from a function does not check that the vector of [-e] is the negative of
    the vector of [e]: a square torus with one sheared triangle is accepted. *)
Theorem C19_function_constructor_refuted : exists t (f : nat -> outcome (vec ExactZ)) (s : flat ExactZ),
  make_from_cycles torus_cycles [] = Ok t /\ make_flat t f = Ok s /\ vv s (neg 0) <> pneg (vv s 0).
Proof.
  destruct (make_from_cycles torus_cycles []) as [t| | |] eqn:E; try (vm_compute in E; discriminate).
  exists t. exists (fun e => nth e [Ok (zv 1 0); Ok (zv (-2) 0); Ok (zv 0 1); Ok (zv 0 (-1)); Ok (zv (-1) (-1)); Ok (zv 2 1)] UB).
  vm_compute in E. inv E. eexists. split; [reflexivity|]. split; [vm_compute; reflexivity|].
  intros X. apply (f_equal fst) in X. cbn in X. lra.
Qed.
Print Assumptions C19_function_constructor_refuted.

(** A torus and three flips. *)
Definition square_torus : outcome (flat ExactZ) :=
  do t <- make_from_cycles torus_cycles []; make_flat_list t [zv 1 0; zv 0 1; zv (-1) (-1)].
Definition flat_vectors {K} (x : after (flat K)) : outcome (list (vec K)) :=
  match x with (s, Ok _) => Ok (fvec s) | (s, y) => stop y end.

Definition torus_t : tri := Eval vm_compute in match make_from_cycles torus_cycles [] with Ok t => t | _ => mkTri (mkPerm [] []) (mkPerm [] []) [] end.
Definition torus_s : flat ExactZ := mkFlat torus_t [zv 1 0; zv (-1) 0; zv 0 1; zv 0 (-1); zv (-1) (-1); zv 1 1].

Lemma torus_wf : well_formed 6 torus_t.
Proof. exact (proj1 (C07_construction_cycles torus_cycles [] torus_t eq_refl)). Qed.
Lemma torus_suitable : suitable 6 torus_t [zv 1 0; zv 0 1; zv (-1) (-1)].
Proof.
  split; [reflexivity|]. intros e He _. do 6 (destruct e as [|e]; [cbn; unfold padd, pdet, pneg; cbn; split; [f_equal; lra|lra]|]). lia.
Qed.
Lemma torus_flat : square_torus = Ok torus_s /\ flat_surface 6 torus_s /\ closed_surface 6 torus_s.
Proof.
  assert (F : square_torus = Ok torus_s) by reflexivity. split; auto.
  destruct (proj1 (C19_constructor _ 6 torus_t _ torus_wf) torus_suitable) as (s' & F'' & S & _).
  replace s' with torus_s in S by (change (square_torus = Ok s') in F''; congruence). split; auto.
  intros e He. do 6 (destruct e as [|e]; [discriminate|]). lia.
Qed.

Example C19_ex : make_from_cycles torus_cycles [] = Ok torus_t /\ well_formed 6 torus_t /\ suitable 6 torus_t [zv 1 0; zv 0 1; zv (-1) (-1)] /\
  square_torus = Ok torus_s /\ flat_surface 6 torus_s /\ closed_surface 6 torus_s /\ can_flip 6 torus_s 0 /\
  flat_vectors (fflips torus_s [0; 2; 0]) = Ok [zv (-3) (-4); zv 3 4; zv (-2) (-3); zv 2 3; zv (-1) (-1); zv 1 1].
Proof.
  destruct torus_flat as (F & S & C). split; [reflexivity|]. split; [apply torus_wf|]. split; [apply torus_suitable|]. do 3 (split; [assumption|]).
  split. { split; [lia|]. split; [discriminate|]. split; [discriminate|]. cbn. unfold pdet; cbn. lra. }
  reflexivity.
Qed.

(** ** C20: area *)
(** [area2] adds up the areas of the triangles, each counted once. *)
Theorem C20_area : forall (K : ExactReal) n (s : flat K) reps, flat_surface n s -> one_per_triangle n s reps ->
  exists a, area2 s = Ok a /\ den a = rsum (map (triangle_area2 s) reps).
Proof.
  intros K n s reps S O. destruct (area2_Ok n s S) as (a & E & A). exists a. split; auto. rewrite (area_sum_reps n s reps S O) in A. lra.
Qed.
Print Assumptions C20_area.

(** There is always such a choice of representatives. *)
Theorem C20_representatives : forall (K : ExactReal) n (s : flat K), flat_surface n s -> exists reps, one_per_triangle n s reps.
Proof. intros K n s S. exists (firsts n (fT s)). now apply firsts_reps. Qed.
Print Assumptions C20_representatives.

Theorem C20_positive : forall (K : ExactReal) n (s : flat K) e, flat_surface n s -> e < n -> fF s e <> e ->
  exists a, area2 s = Ok a /\ (0 < den a)%R.
Proof.
  intros K n s e S He N. destruct (area2_Ok n s S) as (a & E & A). exists a. split; auto.
  assert (0 < area_sum n s)%R by (apply area_sum_pos; eauto). lra.
Qed.
Print Assumptions C20_positive.

Theorem C20_flips : forall (K : ExactReal) n (s s' : flat K) es a, flat_surface n s -> (forall e, In e es -> e < n) ->
  fflips s es = (s', Ok tt) -> area2 s = Ok a -> exists a', area2 s' = Ok a' /\ den a' = den a.
Proof.
  intros K n s s' es a S H E A. assert (S' := fflips_surface n es s s' S H E).
  destruct (area2_Ok n s S) as (x & Ex & X). rewrite A in Ex. injection Ex as <-.
  destruct (area2_Ok n s' S') as (y & Ey & Y). exists y. split; auto.
  rewrite (area_sum_flips n es s s' S H E) in Y. lra.
Qed.
Print Assumptions C20_flips.

Example C20_ex : flat_surface 6 torus_s /\ one_per_triangle 6 torus_s [0; 1] /\
  fF torus_s 0 <> 0 /\ snd (fflips torus_s [0; 2]) = Ok tt /\ area2 torus_s = Ok (2%Z : ExactZ) /\ area2 (fst (fflips torus_s [0; 2])) = Ok (2%Z : ExactZ).
Proof.
  split; [apply torus_flat|]. split.
  { split; [repeat constructor; cbn; intuition congruence|]. split; [|split].
    - intros r [<-|[<-|[]]]; split; try lia; discriminate.
    - intros r [<-|[<-|[]]]; split; cbn; intuition congruence.
    - intros e He _. do 6 (destruct e as [|e]; [cbn; tauto|]). lia. }
  split; [discriminate|]. split; [|split]; reflexivity.
Qed.

(** ** C21: linear maps *)
(** The image under a matrix with positive determinant has the same combinatorics; for a negative
    determinant the cyclic order in each triangle is reversed. *)
Theorem C21_apply : forall (K : ExactReal) n (s : flat K) (a b c d : K), flat_surface n s -> closed_surface n s ->
  (den a * den d - den b * den c)%R <> 0%R ->
  exists u, apply_matrix s a b c d = Ok u /\ flat_surface n u /\ closed_surface n u /\
    (forall e, e < n -> vv u e = papply (den a) (den b) (den c) (den d) (vv s e)) /\
    ((0 < den a * den d - den b * den c)%R -> forall e, e < n -> fF u e = fF s e) /\
    ((den a * den d - den b * den c < 0)%R -> forall e, e < n -> fF u (neg (fF s e)) = neg e).
Proof. intros K n s a b c d S C D. now apply apply_matrix_Ok. Qed.
Print Assumptions C21_apply.

Theorem C21_rejected : forall (K : ExactReal) n (s : flat K) (a b c d : K), flat_surface n s ->
  ((den a * den d - den b * den c)%R = 0%R \/ exists e, e < n /\ fF s e = e) -> apply_matrix s a b c d = Throw.
Proof.
  intros K n s a b c d S H. apply (apply_matrix_Throw n); auto. destruct H as [H|(e & He & B)]; auto. right. intros C. apply (C e He B).
Qed.
Print Assumptions C21_rejected.

Theorem C21_area : forall (K : ExactReal) n (s u : flat K) (a b c d x : K), flat_surface n s -> closed_surface n s ->
  apply_matrix s a b c d = Ok u -> area2 s = Ok x ->
  exists y, area2 u = Ok y /\ den y = (Rabs (den a * den d - den b * den c) * den x)%R.
Proof.
  intros K n s u a b c d x S C E A.
  destruct (Req_dec (den a * den d - den b * den c) 0) as [D|D].
  { rewrite (apply_matrix_Throw n) in E; auto. discriminate. }
  destruct (apply_matrix_Ok n s a b c d S C D) as (u' & E' & U & Cu & Ev & P & N). rewrite E in E'. injection E' as <-.
  destruct (area2_Ok n s S) as (x' & Ex & X). rewrite A in Ex. injection Ex as <-.
  destruct (area2_Ok n u U) as (y & Ey & Y). exists y. split; auto. unfold mdet in *.
  destruct (Rtotal_order (den a * den d - den b * den c) 0) as [Q|[Q|Q]]; [|contradiction|].
  - rewrite Rabs_left by auto. rewrite (area_sum_reversed n s u _ _ _ _ S C Cu (N Q) Ev) in Y. unfold mdet in Y. rewrite <- X in Y. lra.
  - rewrite Rabs_right by lra. rewrite (area_sum_same n s u _ _ _ _ S (P Q) Ev) in Y. unfold mdet in Y. rewrite <- X in Y. lra.
Qed.
Print Assumptions C21_area.

(** Applying two matrices in turn is applying the product. *)
Theorem C21_composition : forall (K : ExactReal) n (s s1 s2 : flat K) (a b c d p q r t : K), flat_surface n s -> closed_surface n s ->
  apply_matrix s a b c d = Ok s1 -> apply_matrix s1 p q r t = Ok s2 ->
  exists s3, apply_matrix s (radd (rmul p a) (rmul q c)) (radd (rmul p b) (rmul q d)) (radd (rmul r a) (rmul t c)) (radd (rmul r b) (rmul t d)) = Ok s3 /\
    flat_eqb s2 s3 = Ok true /\ (forall e, e < n -> fF s3 e = fF s2 e) /\ (forall e, e < n -> vv s3 e = vv s2 e).
Proof.
  intros K n s s1 s2 a b c d p q r t S C E1 E2.
  destruct (Req_dec (mdet (den a) (den b) (den c) (den d)) 0) as [D1|D1].
  { rewrite (apply_matrix_Throw n) in E1; auto. discriminate. }
  destruct (apply_matrix_Ok n s a b c d S C D1) as (u & Eu & S1 & C1 & V1 & P1 & N1). rewrite E1 in Eu. injection Eu as <-.
  destruct (Req_dec (mdet (den p) (den q) (den r) (den t)) 0) as [D2|D2].
  { rewrite (apply_matrix_Throw n) in E2; auto. discriminate. }
  destruct (apply_matrix_Ok n s1 p q r t S1 C1 D2) as (u & Eu & S2 & C2 & V2 & P2 & N2). rewrite E2 in Eu. injection Eu as <-.
  remember (radd (rmul p a) (rmul q c)) as a'. remember (radd (rmul p b) (rmul q d)) as b'.
  remember (radd (rmul r a) (rmul t c)) as c'. remember (radd (rmul r b) (rmul t d)) as d'.
  assert (D3 : mdet (den a') (den b') (den c') (den d') = (mdet (den p) (den q) (den r) (den t) * mdet (den a) (den b) (den c) (den d))%R).
  { subst. rewrite !den_add, !den_mul. unfold mdet. ring. }
  destruct (apply_matrix_Ok n s a' b' c' d' S C) as (s3 & E3 & S3 & C3 & V3 & P3 & N3).
  { rewrite D3. now apply Rmult_integral_contrapositive. }
  exists s3. split; auto.
  assert (V : forall e, e < n -> vv s3 e = vv s2 e).
  { intros e He. rewrite V3, V2, V1 by auto. subst. rewrite !den_add, !den_mul. unfold papply; cbn. f_equal; ring. }
  assert (W := fs_wf n s S). assert (NL := neg_ltn n _ W).
  assert (Onto : forall e, e < n -> exists x, x < n /\ neg (fF s x) = e).
  { intros e He. exists (pF (fT s) (neg e)). split; [apply (pF_lt n _ W); auto|]. unfold fF. rewrite (nF_pF n _ W) by auto. apply neg_neg. }
  assert (F : forall e, e < n -> fF s3 e = fF s2 e).
  { intros e He. rewrite D3 in P3, N3.
    destruct (Rtotal_order (mdet (den a) (den b) (den c) (den d)) 0) as [Q1|[Q1|Q1]]; [|contradiction|];
    destruct (Rtotal_order (mdet (den p) (den q) (den r) (den t)) 0) as [Q2|[Q2|Q2]]; try contradiction.
    - rewrite P3 by (auto; nra). assert (X := N2 Q2 _ (NL _ (fF_lt n s e S He))). rewrite (N1 Q1 e He), !neg_neg in X. auto.
    - destruct (Onto e He) as (x & Hx & <-). rewrite N3 by (auto; nra). rewrite (P2 Q2), (N1 Q1); auto.
    - destruct (Onto e He) as (x & Hx & <-). rewrite N3 by (auto; nra). assert (X := N2 Q2 x Hx). rewrite (P1 Q1 x Hx) in X. auto.
    - rewrite P3 by (auto; nra). rewrite (P2 Q2), (P1 Q1); auto. }
  split; [|auto]. destruct (C19_equality K n n s2 s3 S2 S3 C2 C3) as (x & -> & X). f_equal. apply X.
  split; auto. split; intros e He; symmetry; auto.
Qed.
Print Assumptions C21_composition.

Theorem C21_scale : forall (K : ExactReal) n (s : flat K) c a, flat_surface n s -> c <> 0%Z -> area2 s = Ok a ->
  exists u b, fscale s c = Ok u /\ flat_surface n u /\ (forall e, e < n -> fF u e = fF s e /\ vv u e = pscale (IZR c) (vv s e)) /\
    area2 u = Ok b /\ den b = (IZR (c * c) * den a)%R.
Proof.
  intros K n s c a S Hc A. destruct (fscale_Ok n s c S Hc) as (u & E & U & F & _ & V).
  destruct (area2_Ok n s S) as (x' & Ex & X). rewrite A in Ex. injection Ex as <-.
  destruct (area2_Ok n u U) as (y & Ey & Y). exists u, y. split; auto. split; auto. split; auto. split; auto.
  rewrite (area_sum_same n s u (IZR c) 0 0 (IZR c) S F) in Y.
  - unfold mdet in Y. rewrite mult_IZR. rewrite <- X in Y. lra.
  - intros e He. rewrite V by auto. unfold pscale, papply. f_equal; ring.
Qed.
Print Assumptions C21_scale.

Example C21_ex : exists u w, flat_surface 6 torus_s /\ closed_surface 6 torus_s /\
  apply_matrix torus_s (0%Z : ExactZ) (1%Z : ExactZ) (2%Z : ExactZ) (1%Z : ExactZ) = Ok u /\ area2 u = Ok (4%Z : ExactZ) /\
  fvec u = [zv 0 2; zv 0 (-2); zv 1 1; zv (-1) (-1); zv (-1) (-3); zv 1 3] /\
  map (fF torus_s) [0; 1; 2; 3; 4; 5] = [2; 3; 4; 5; 0; 1] /\ map (fF u) [0; 1; 2; 3; 4; 5] = [4; 5; 0; 1; 2; 3] /\
  apply_matrix u (1%Z : ExactZ) (0%Z : ExactZ) (0%Z : ExactZ) ((-1)%Z : ExactZ) = Ok w /\ map (fF w) [0; 1; 2; 3; 4; 5] = [2; 3; 4; 5; 0; 1].
Proof.
  do 2 eexists. split; [apply torus_flat|]. split; [apply torus_flat|]. split; [reflexivity|]. split; [reflexivity|]. split; [reflexivity|].
  split; [reflexivity|]. split; [reflexivity|]. split; reflexivity.
Qed.

(** ** C22: the Delaunay test of an edge *)
(** The test compares the corner opposite of the edge with the circumscribed circle of the triangle,
    on either side of the edge. *)
Theorem C22_circumcircle : forall (K : ExactReal) n (s : flat K) h o r2, flat_surface n s -> h < n -> fF s h <> h -> fF s (neg h) <> neg h ->
  circumscribed s h o r2 ->
  exists v, delaunay_edge s (edge_of h) = Ok v /\
    (v = NON_DELAUNAY <-> (dist2 (opposite_corner s h) o < r2)%R) /\
    (v = AMBIGUOUS <-> dist2 (opposite_corner s h) o = r2) /\
    (v = IS_DELAUNAY <-> (r2 < dist2 (opposite_corner s h) o)%R).
Proof.
  intros K n s h o r2 S Hh N1 N2 C. assert (I : inner n s h) by (split; auto).
  destruct (delaunay_oriented n s h S I) as (v & E & V). exists v. split; auto.
  destruct (circle_dl n s h o r2 S I C) as (k & Pk & D). rewrite D in V.
  assert (Q : forall x, (0 < k * x <-> 0 < x)%R /\ (k * x = 0 <-> x = 0)%R /\ (k * x < 0 <-> x < 0)%R).
  { intros x. destruct (pos_scale k x Pk) as (? & _ & ? & ?). tauto. }
  destruct (Q (r2 - dist2 (opposite_corner s h) o)%R) as (Q1 & Q2 & Q3).
  destruct v; cbn in V; [apply Q1 in V|apply Q3 in V|apply Q2 in V]; (split; [|split]); split; intros; try discriminate; auto; lra.
Qed.
Print Assumptions C22_circumcircle.

Theorem C22_circle_exists : forall (K : ExactReal) n (s : flat K) h, flat_surface n s -> h < n -> fF s h <> h ->
  exists o r2, circumscribed s h o r2.
Proof. intros K n s h. apply circle_exists. Qed.
Print Assumptions C22_circle_exists.

(** An edge that is not Delaunay can be flipped, and is Delaunay afterwards. *)
Theorem C22_flip : forall (K : ExactReal) n (s : flat K) e, flat_surface n s -> e < n -> fF s e <> e -> fF s (neg e) <> neg e ->
  delaunay_edge s (edge_of e) = Ok NON_DELAUNAY ->
  exists s', fflip s e = (s', Ok tt) /\ delaunay_edge s' (edge_of e) = Ok IS_DELAUNAY.
Proof.
  intros K n s e S He N1 N2 E. assert (I : inner n s e) by (split; auto).
  destruct (delaunay_oriented n s e S I) as (v & E' & V). rewrite E in E'. injection E' as <-. cbn in V.
  assert (CF := non_delaunay_can_flip n s e S I V). destruct (fflip_Ok n s e S He CF) as (s' & Ef & S' & _). exists s'. split; auto.
  destruct (flip_facts n s e s' S He Ef) as (a & b & c & d & _ & _ & _ & _ & _ & _ & G1 & G2 & G3 & G4 & G5 & G6 & D6 & _).
  pose proof (nodup6 _ _ _ _ _ _ D6) as ((D1 & D2 & D3 & D4 & D5) & _ & _ & (D14 & D15) & _).
  destruct (delaunay_oriented n s' e S') as (w & Ew & W). { split; auto. split; congruence. }
  rewrite Ew. f_equal. apply (verdict_unique (dl s' e)); auto. cbn. rewrite (dl_flip n s e s' S He Ef). lra.
Qed.
Print Assumptions C22_flip.

(** Flipping the other way: a flip of a Delaunay edge makes it non-Delaunay. *)
Theorem C22_flip_back : forall (K : ExactReal) n (s s' : flat K) e, flat_surface n s -> e < n -> fflip s e = (s', Ok tt) ->
  (delaunay_edge s (edge_of e) = Ok IS_DELAUNAY -> delaunay_edge s' (edge_of e) = Ok NON_DELAUNAY) /\
  (delaunay_edge s (edge_of e) = Ok AMBIGUOUS -> delaunay_edge s' (edge_of e) = Ok AMBIGUOUS).
Proof.
  intros K n s s' e S He Ef. destruct (fflip_spec n s e s' S He Ef) as ((_ & N1 & N2 & _) & S' & _).
  destruct (flip_facts n s e s' S He Ef) as (a & b & c & d & _ & _ & _ & _ & _ & _ & G1 & G2 & G3 & G4 & G5 & G6 & D6 & _).
  pose proof (nodup6 _ _ _ _ _ _ D6) as ((D1 & D2 & D3 & D4 & D5) & _ & _ & (D14 & D15) & _).
  destruct (delaunay_oriented n s e S) as (v & E & V). { split; auto. }
  destruct (delaunay_oriented n s' e S') as (w & Ew & W). { split; auto. split; congruence. }
  rewrite (dl_flip n s e s' S He Ef) in W. rewrite E, Ew.
  split; intros X; injection X as ->; f_equal; apply (verdict_unique (- dl s e)%R); auto; cbn in *; lra.
Qed.
Print Assumptions C22_flip_back.

(** A sheared torus with a long diagonal. *)
Definition sheared_torus : outcome (flat ExactZ) :=
  do t <- make_from_cycles torus_cycles []; make_flat_list t [zv 1 0; zv 3 1; zv (-4) (-1)].
Definition sheared_s : flat ExactZ := mkFlat torus_t [zv 1 0; zv (-1) 0; zv 3 1; zv (-3) (-1); zv (-4) (-1); zv 4 1].
Lemma sheared_flat : sheared_torus = Ok sheared_s /\ flat_surface 6 sheared_s /\ closed_surface 6 sheared_s.
Proof.
  assert (F : sheared_torus = Ok sheared_s) by reflexivity. split; auto.
  assert (Su : suitable 6 torus_t [zv 1 0; zv 3 1; zv (-4) (-1)]).
  { split; [reflexivity|]. intros e He _. do 6 (destruct e as [|e]; [cbn; unfold padd, pdet, pneg; cbn; split; [f_equal; lra|lra]|]). lia. }
  destruct (proj1 (C19_constructor _ 6 torus_t _ torus_wf) Su) as (s' & F'' & S & _).
  replace s' with sheared_s in S by (change (sheared_torus = Ok s') in F''; congruence). split; auto.
  intros e He. do 6 (destruct e as [|e]; [discriminate|]). lia.
Qed.
Example C22_ex : sheared_torus = Ok sheared_s /\ flat_surface 6 sheared_s /\ fF sheared_s 4 <> 4 /\ fF sheared_s (neg 4) <> neg 4 /\
  delaunay_edge sheared_s (edge_of 4) = Ok NON_DELAUNAY /\ delaunay_edge sheared_s (edge_of 5) = Ok NON_DELAUNAY /\
  delaunay_edge (fst (fflip sheared_s 4)) (edge_of 4) = Ok IS_DELAUNAY.
Proof.
  destruct sheared_flat as (F & S & C). split; [assumption|]. split; [assumption|].
  split; [discriminate|]. split; [discriminate|]. split; [|split]; reflexivity.
Qed.

(** ** C23: delaunay() *)
(** On a surface without boundary, [delaunay()] only flips edges, never throws, and when it returns no
    edge is non-Delaunay and the area is the same. *)
Theorem C23_delaunay : forall (K : ExactReal) n (s : flat K) fuel, flat_surface n s -> closed_surface n s ->
  exists s' es, fflips s es = (s', Ok tt) /\ flat_surface n s' /\ closed_surface n s' /\
    (forall a, area2 s = Ok a -> exists a', area2 s' = Ok a' /\ den a' = den a) /\
    (delaunay fuel s = (s', OutOfFuel) \/
     (delaunay fuel s = (s', Ok tt) /\ forall h, h < n -> exists v, delaunay_edge s' (edge_of h) = Ok v /\ v <> NON_DELAUNAY)).
Proof.
  intros K n s fuel S C. destruct (delaunay_result n fuel s S C) as (s' & es & F & H & S' & C' & R).
  exists s', es. split; auto. split; auto. split; auto. split.
  - intros a A. apply (C20_flips K n s s' es a S); auto. intros e I. apply H in I. apply (in_edges n (fT s)) in I; [tauto|apply S].
  - destruct R as [[R D]|R]; auto. right. split; auto. intros h Hh.
    destruct (delaunay_oriented n s' h S' (closed_inner n s' h S' C' Hh)) as (v & E & _). exists v. split; auto.
    intros ->. apply (D (edge_of h)); auto. apply (in_edges n); [apply S'|].
    destruct (he_cases h) as (m & [-> | ->]).
    + unfold edge_of, he_index. rewrite neg_even. destruct (Nat.ltb_spec (2 * m) (Datatypes.S (2 * m))); [|lia]. eauto.
    + unfold edge_of, he_index. rewrite neg_odd. destruct (Nat.ltb_spec (Datatypes.S (2 * m)) (2 * m)); [lia|]. split; [lia|eauto].
Qed.
Print Assumptions C23_delaunay.

(** It returns if the coordinates are multiples of 1/N for some N, in particular for integer and
    rational coordinates.  Missing: termination for coordinates in other number fields. *)
Theorem C23_terminates_partial : forall (K : ExactReal) n (s : flat K) N, flat_surface n s -> closed_surface n s -> lattice n s N ->
  exists fuel s', forall more, delaunay (fuel + more) s = (s', Ok tt).
Proof.
  intros K n s N S C L. destruct (delaunay_terminates n N s S C L) as (fuel & s' & E). exists fuel, s'. intros more.
  apply delaunay_fuel; auto. discriminate.
Qed.
Print Assumptions C23_terminates_partial.

(** Surfaces with integer and with rational coordinates. *)
Theorem C23_terminates_integers : forall n (s : flat ExactZ), flat_surface n s -> closed_surface n s ->
  exists fuel s', forall more, delaunay (fuel + more) s = (s', Ok tt).
Proof.
  intros n s S C. apply (C23_terminates_partial ExactZ n s 1); auto. split; [lia|]. intros e He.
  unfold vv, vden. destruct (nth e (fvec s) vzero) as [x y]. exists x, y. unfold pscale; cbn. now rewrite !Rmult_1_l.
Qed.
Print Assumptions C23_terminates_integers.

Theorem C23_terminates_rationals : forall n (s : flat ExactQ), flat_surface n s -> closed_surface n s ->
  exists fuel s', forall more, delaunay (fuel + more) s = (s', Ok tt).
Proof.
  intros n s S C.
  assert (D : forall l : list (vec ExactQ), exists N, (0 < N)%Z /\ forall v, In v l -> exists x y, pscale (IZR N) (vden v) = (IZR x, IZR y)).
  { induction l as [|[p q] l (N & P & H)]; [exists 1%Z; split; [lia|intros v []]|].
    change (car ExactQ) with Q in p, q.
    exists (N * (Zpos (Qden p) * Zpos (Qden q)))%Z. split; [nia|]. intros v [<-|I].
    - exists (N * Zpos (Qden q) * Qnum p)%Z, (N * Zpos (Qden p) * Qnum q)%Z. unfold vden, pscale; cbn [vx vy fst snd den ExactQ].
      unfold Q2R. rewrite !mult_IZR. f_equal; field; apply IZR_neq; lia.
    - destruct (H v I) as (x & y & E). assert (E1 := f_equal fst E). assert (E2 := f_equal snd E). unfold pscale in E1, E2. cbn [fst snd] in E1, E2. exists (x * (Zpos (Qden p) * Zpos (Qden q)))%Z, (y * (Zpos (Qden p) * Zpos (Qden q)))%Z.
      unfold pscale. rewrite !mult_IZR, <- E1, <- E2. f_equal; ring. }
  destruct (D (fvec s)) as (N & P & H). apply (C23_terminates_partial ExactQ n s N); auto. split; auto. intros e He.
  apply H. apply nth_In. now rewrite (fs_length n s S).
Qed.
Print Assumptions C23_terminates_rationals.

Example C23_ex : sheared_torus = Ok sheared_s /\ flat_surface 6 sheared_s /\ closed_surface 6 sheared_s /\
  delaunay 3 sheared_s = (fst (delaunay 3 sheared_s), Ok tt) /\
  fvec (fst (delaunay 3 sheared_s)) = [zv 1 0; zv (-1) 0; zv 1 1; zv (-1) (-1); zv 0 (-1); zv 0 1].
Proof. destruct sheared_flat as (F & S & C). do 3 (split; [assumption|]). split; reflexivity. Qed.

(** On surfaces with boundary [delaunay()] can throw: at a boundary edge, [delaunay(e)] considers corners
    that do not form a triangle, finds that the edge is not Delaunay, and the flip is rejected. *)
Definition kite : outcome (flat ExactZ) :=
  do t <- make_from_cycles [[6; 2; 0]; [1; 5]; [4; 3; 9]; [8; 7]] [0; 5; 7; 9];
  make_flat_list t [zv 0 1; zv 2 2; zv (-2) (-1); zv 1 0; zv 1 2].
Definition kite_t : tri := Eval vm_compute in match make_from_cycles [[6; 2; 0]; [1; 5]; [4; 3; 9]; [8; 7]] [0; 5; 7; 9] with Ok t => t | _ => torus_t end.
Definition kite_s : flat ExactZ := mkFlat kite_t [zv 0 1; zv 0 (-1); zv 2 2; zv (-2) (-2); zv (-2) (-1); zv 2 1; zv 1 0; zv (-1) 0; zv 1 2; zv (-1) (-2)].
Theorem C23_boundary_refuted : exists s : flat ExactZ, flat_surface 10 s /\ kite = Ok s /\ forall fuel, snd (delaunay (S fuel) s) = Throw.
Proof.
  pose proof (proj1 (C07_construction_cycles [[6; 2; 0]; [1; 5]; [4; 3; 9]; [8; 7]] [0; 5; 7; 9] kite_t eq_refl)) as W. change (length _) with 10 in W.
  assert (Su : suitable 10 kite_t [zv 0 1; zv 2 2; zv (-2) (-1); zv 1 0; zv 1 2]).
  { split; [reflexivity|]. intros e He N.
    do 10 (destruct e as [|e]; [first [exfalso; apply N; reflexivity | cbn; unfold padd, pdet, pneg; cbn; split; [f_equal; lra|lra]]|]). lia. }
  exists kite_s. assert (F : kite = Ok kite_s) by reflexivity.
  destruct (proj1 (C19_constructor _ 10 kite_t _ W) Su) as (s' & F'' & S & _).
  replace s' with kite_s in S by (change (kite = Ok s') in F''; congruence). split; auto.
Qed.
Print Assumptions C23_boundary_refuted.
