(** * Properties of vertical directions *)
From Coq Require Import ZArith Reals List Arith Bool Lia Lra.
From Verif Require Import Base HalfEdge HalfEdgeFacts Combinatorial CombinatorialSpec CombinatorialFacts ExactReal Vector PlaneSpec Plane VectorFacts VectorProps
  FlatTri FlatSpec FlatFacts FlatSum FlatOps FlatAngle FlatDelaunay FlatProps FlatAngleProps Vertical VerticalSpec VerticalFacts VerticalComponents.
Import ListNotations.
Local Open Scope nat_scope.

(** ** C45: caches *)
Lemma history_valid (K : ExactReal) n (s : flat K) (v : vec K) l m : flat_surface n s -> history n s v l m ->
  fflips s l = (vt_surface m, Ok tt) /\ valid n (vt_surface m) v m.
Proof.
  intros S0 H. induction H as [m E|l m h x m' H IH Hh E|l m h x m' H IH Hh E|l m h x m' H IH Hh E|l m h x m' H IH Hh E|l m h x m' H IH Hh E|l m fuel h x m' H IH Hh E|l m fuel x m' H IH E|l m e m' H IH He E];
    try (destruct IH as [IF IV]; assert (Q : forall m2, m2 = m' -> valid n (vt_surface m) v m2 -> fflips s l = (vt_surface m', Ok tt) /\ valid n (vt_surface m') v m') by (intros m2 -> V; rewrite (vd_surface _ _ _ _ V); auto)).
  - destruct (vnonzero v) eqn:Z.
    + apply vnonzero_spec in Z. destruct (make_valid n s v S0 Z) as (m1 & E1 & V). rewrite E in E1. injection E1 as <-. rewrite (vd_surface _ _ _ _ V). auto.
    + unfold make_vertical in E. rewrite Z in E. discriminate.
  - destruct (project_ok n _ v m IV h Hh) as (x1 & m1 & E1 & _ & V). apply (Q m1); auto. congruence.
  - destruct (perpendicular_ok n _ v m IV h Hh) as (x1 & m1 & E1 & _ & V). apply (Q m1); auto. congruence.
  - destruct (ccw_ok n _ v m IV h Hh) as (x1 & m1 & E1 & _ & V). apply (Q m1); auto. congruence.
  - destruct (orientation_ok n _ v m IV h Hh) as (x1 & m1 & E1 & _ & V). apply (Q m1); auto. congruence.
  - destruct (large_ok n _ v m h IV Hh) as (x1 & m1 & E1 & _ & V). apply (Q m1); auto. congruence.
  - apply (Q m'); auto. apply (classify_valid n _ v fuel m h x m' IV Hh E).
  - apply (Q m'); auto. apply (components_valid n _ v (vd_flat _ _ _ _ IV) fuel m x m' IV E).
  - destruct (flip_ok n _ v m e IV He) as [A B]. destruct (can_flip_dec n (vt_surface m) e (vd_flat _ _ _ _ IV) He) as [C|C]; [|rewrite (B C) in E; discriminate].
    destruct (A C) as (s' & m1 & E1 & E2 & V). rewrite E in E2. injection E2 as <-. rewrite (vd_surface _ _ _ _ V). split; auto. rewrite fflips_app, IF. cbn [fflips]. now rewrite E1.
Qed.

(** After any history of queries and flips every query answers what the surface says now. *)
Theorem C45_queries : forall (K : ExactReal) n (s : flat K) (v : vec K) l m, flat_surface n s -> history n s v l m ->
  let s' := vt_surface m in
  fflips s l = (s', Ok tt) /\ flat_surface n s' /\
  forall h, h < n ->
    (exists x m', project m h = Ok (x, m') /\ den x = pdot (vden v) (vv s' h)) /\
    (exists x m', project_perpendicular m h = Ok (x, m') /\ den x = pdet (vv s' h) (vden v)) /\
    (exists c m', vertical_ccw m h = Ok (c, m') /\
       match c with COUNTERCLOCKWISE => 0 < pdet (vden v) (vv s' h) | COLLINEAR => pdet (vden v) (vv s' h) = 0 | CLOCKWISE => pdet (vden v) (vv s' h) < 0 end%R) /\
    (exists o m', vertical_orientation m h = Ok (o, m') /\
       match o with SAME => 0 < pdot (vden v) (vv s' h) | ORTHOGONAL => pdot (vden v) (vv s' h) = 0 | OPPOSITE => pdot (vden v) (vv s' h) < 0 end%R) /\
    (exists b m', large m h = Ok (b, m') /\ (b = true <-> wide s' (vden v) h)).
Proof.
  intros K n s v l m S0 H s'. destruct (history_valid K n s v l m S0 H) as [F V]. fold s' in V. split; [exact F|]. split; [apply (vd_flat _ _ _ _ V)|]. intros h Hh.
  split; [|split; [|split; [|split]]].
  - destruct (project_ok n s' v m V h Hh) as (x & m' & E & X & _). eauto.
  - destruct (perpendicular_ok n s' v m V h Hh) as (x & m' & E & X & _). eauto.
  - destruct (ccw_ok n s' v m V h Hh) as (x & m' & E & X & _). eauto.
  - destruct (orientation_ok n s' v m V h Hh) as (x & m' & E & X & _). eauto.
  - destruct (large_ok n s' v m h V Hh) as (x & m' & E & X & _). eauto.
Qed.
Print Assumptions C45_queries.

(** A vertical exists for each vector other than zero. *)
Theorem C45_constructor : forall (K : ExactReal) n (s : flat K) (v : vec K), flat_surface n s ->
  (vden v = (0, 0)%R -> make_vertical s v = Throw) /\
  (vden v <> (0, 0)%R -> exists m, make_vertical s v = Ok m /\ vt_surface m = s /\ vt_vertical m = v).
Proof.
  intros K n s v S0. split; [apply make_throw|]. intros N. destruct (make_valid n s v S0 N) as (m & E & V). exists m. split; auto. split; apply V.
Qed.
Print Assumptions C45_constructor.

(** The handlers of flips do not get in the way of flips. *)
Theorem C45_flip : forall (K : ExactReal) n (s : flat K) (v : vec K) l m e, flat_surface n s -> history n s v l m -> e < n ->
  (can_flip n (vt_surface m) e -> exists m', vertical_flip m e = Ok m' /\ fflip (vt_surface m) e = (vt_surface m', Ok tt)) /\
  (~ can_flip n (vt_surface m) e -> vertical_flip m e = Throw).
Proof.
  intros K n s v l m e S0 H He. destruct (history_valid K n s v l m S0 H) as [_ V]. destruct (flip_ok n _ v m e V He) as [A B]. split; auto. intros C.
  destruct (A C) as (s' & m' & E1 & E2 & V'). exists m'. split; auto. now rewrite (vd_surface _ _ _ _ V').
Qed.
Print Assumptions C45_flip.

(** What queries of a vertical show. *)
Definition shown_queries (m : vertical ExactZ) (h : nat) : option Z * option Z * option CCW * option ORIENTATION * option bool :=
  (match project m h with Ok (x, _) => Some x | _ => None end, match project_perpendicular m h with Ok (x, _) => Some x | _ => None end,
   match vertical_ccw m h with Ok (x, _) => Some x | _ => None end, match vertical_orientation m h with Ok (x, _) => Some x | _ => None end,
   match large m h with Ok (x, _) => Some x | _ => None end).
Definition torus_vertical : vertical ExactZ := mkVertical torus_s (zv 1 3) (zv 3 (-1)) (repeat None 6) (repeat None 6) (repeat None 6) (repeat None 6) (repeat None 3).
(** Query everything at each half edge, flip, and keep all of it. *)
Definition query (m : vertical ExactZ) (h : nat) : outcome (vertical ExactZ) :=
  do (_, m) <- project m h; do (_, m) <- project_perpendicular m h; do (_, m) <- vertical_ccw m h; do (_, m) <- vertical_orientation m h; do (_, m) <- large m h; Ok m.
Definition queried : outcome (vertical ExactZ) :=
  do m <- query torus_vertical 4; do m <- query m 0; do m <- query m 3; vertical_flip m 4.
Lemma query_history l m h m' : history 6 torus_s (zv 1 3) l m -> h < 6 -> query m h = Ok m' -> history 6 torus_s (zv 1 3) l m'.
Proof.
  intros H Hh E. unfold query in E. destruct (project m h) as [[x1 m1]| | |] eqn:E1; try discriminate. cbn [bind] in E. destruct (project_perpendicular m1 h) as [[x2 m2]| | |] eqn:E2; try discriminate. cbn [bind] in E.
  destruct (vertical_ccw m2 h) as [[x3 m3]| | |] eqn:E3; try discriminate. cbn [bind] in E. destruct (vertical_orientation m3 h) as [[x4 m4]| | |] eqn:E4; try discriminate. cbn [bind] in E.
  destruct (large m4 h) as [[x5 m5]| | |] eqn:E5; try discriminate. injection E as <-.
  eapply hi_large; [|exact Hh|exact E5]. eapply hi_orientation; [|exact Hh|exact E4]. eapply hi_ccw; [|exact Hh|exact E3]. eapply hi_perpendicular; [|exact Hh|exact E2]. eapply hi_project; [|exact Hh|exact E1]. exact H.
Qed.
Lemma queried_history m : queried = Ok m -> history 6 torus_s (zv 1 3) [4] m.
Proof.
  unfold queried. intros E. assert (H0 : history 6 torus_s (zv 1 3) [] torus_vertical) by (apply hi_made; reflexivity).
  destruct (query torus_vertical 4) as [m1| | |] eqn:E1; try discriminate E. cbn [bind] in E. assert (H1 := query_history _ _ 4 m1 H0 ltac:(lia) E1).
  destruct (query m1 0) as [m2| | |] eqn:E2; try discriminate E. cbn [bind] in E. assert (H2 := query_history _ _ 0 m2 H1 ltac:(lia) E2).
  destruct (query m2 3) as [m3| | |] eqn:E3; try discriminate E. cbn [bind] in E. assert (H3 := query_history _ _ 3 m3 H2 ltac:(lia) E3).
  apply (hi_flip 6 torus_s (zv 1 3) [] m3 4 m H3); auto.
Qed.
Definition show_queried : list (option Z * option Z * option CCW * option ORIENTATION * option bool) := match queried with Ok m => map (shown_queries m) [4; 0] | _ => [] end.
Lemma show_ok : show_queried = [(Some (-2)%Z, Some 4%Z, Some CLOCKWISE, Some OPPOSITE, Some true); (Some 1%Z, Some 3%Z, Some CLOCKWISE, Some SAME, Some false)].
Proof. vm_compute. reflexivity. Qed.
Lemma queried_ok (P : list (option Z * option Z * option CCW * option ORIENTATION * option bool)) : show_queried = P -> P <> [] ->
  exists m, queried = Ok m /\ map (shown_queries m) [4; 0] = P.
Proof. unfold show_queried. intros <- N. destruct queried as [m| | |]; try (exfalso; now apply N). eauto. Qed.
(** The diagonal of the torus is not large; after the flip it is. *)
Example C45_ex : flat_surface 6 torus_s /\ history 6 torus_s (zv 1 3) [] torus_vertical /\
  map (shown_queries torus_vertical) [4; 0] = [(Some (-4)%Z, Some (-2)%Z, Some COUNTERCLOCKWISE, Some OPPOSITE, Some false); (Some 1%Z, Some 3%Z, Some CLOCKWISE, Some SAME, Some true)] /\
  exists m, history 6 torus_s (zv 1 3) [4] m /\
  map (shown_queries m) [4; 0] = [(Some (-2)%Z, Some 4%Z, Some CLOCKWISE, Some OPPOSITE, Some true); (Some 1%Z, Some 3%Z, Some CLOCKWISE, Some SAME, Some false)].
Proof.
  split; [apply torus_flat|]. split; [apply hi_made; reflexivity|]. split; [vm_compute; reflexivity|].
  destruct (queried_ok _ show_ok) as (m & E & M); [discriminate|]. exists m. split; [now apply queried_history|]. exact M.
Qed.

(** ** C46: faces and components *)
(** [classifyFace] finds the one shape that the triangle has; it is the same for all sides of the triangle. *)
Theorem C46_classify : forall (K : ExactReal) n (s : flat K) (v : vec K) l m h fuel, flat_surface n s -> history n s v l m -> h < n -> 3 <= fuel ->
  let s' := vt_surface m in fF s' h <> h ->
  exists c m', classify_face fuel m h = Ok (c, m') /\ (forall c', face_kind s' (vden v) h c' <-> c' = c) /\
    exists m1, classify_face fuel m (fF s' h) = Ok (c, m1).
Proof.
  intros K n s v l m h fuel S0 H Hh Hf s' Nb. destruct (history_valid K n s v l m S0 H) as [_ V]. fold s' in V. assert (S' := vd_flat _ _ _ _ V). assert (Nv := vd_nonzero _ _ _ _ V).
  replace fuel with (3 + (fuel - 3)) by lia. destruct (classify_ok n s' v (fuel - 3) m h V Hh Nb) as (c & m' & E & _ & Q).
  assert (H1 := fF_lt n s' h S' Hh). destruct (classify_ok n s' v (fuel - 3) m (fF s' h) V H1) as (c1 & m1 & E1 & _ & Q1). { intros B. now apply (fF_nb n s' h) in B. }
  exists c, m'. split; auto. assert (U : forall c', face_kind s' (vden v) h c' <-> c' = c). { intros c'. split; [|intros ->; auto]. intros X. now apply (kind_unique n s' (vden v) h). }
  split; auto. exists m1. rewrite E1. f_equal. f_equal. apply U. now apply (kind_next n s' (vden v) h).
Qed.
Print Assumptions C46_classify.

(** A half edge on the boundary has no triangle; it is reported as a collapsed one. *)
Theorem C46_boundary : forall (K : ExactReal) n (s : flat K) (v : vec K) l m h fuel, flat_surface n s -> history n s v l m -> h < n -> 1 <= fuel ->
  fF (vt_surface m) h = h -> exists m', classify_face fuel m h = Ok (COLLAPSED_TO_TWO_FACES, m').
Proof.
  intros K n s v l m h fuel S0 H Hh Hf B. destruct (history_valid K n s v l m S0 H) as [_ V]. replace fuel with (S (fuel - 1)) by lia.
  destruct (classify_boundary n _ v (fuel - 1) m h V Hh B) as (m' & E & _). eauto.
Qed.
Print Assumptions C46_boundary.

(** The components are the classes of half edges that are joined without crossing vertical half edges, and a vertical half edge on its own for some of
    the vertical ones; missing: these are classes of nothing, see [C46_components_refuted]. *)
Theorem C46_components_partial : forall (K : ExactReal) n (s : flat K) (v : vec K) l m fuel, flat_surface n s -> history n s v l m -> n < fuel ->
  let s' := vt_surface m in
  exists cs m', components fuel m = Ok (cs, m') /\
    (forall c, In c cs -> NoDup c /\ exists h, h < n /\
       ((rightwards s' (vden v) h <> 0%R /\ forall x, In x c <-> joined n s' (vden v) h x) \/ (rightwards s' (vden v) h = 0%R /\ c = [h]))) /\
    (forall h, h < n -> exists c, In c cs /\ In h c) /\
    (forall i j c c' x, nth_error cs i = Some c -> nth_error cs j = Some c' -> i <> j -> In x c -> In x c' -> rightwards s' (vden v) x = 0%R /\ (c = [x] \/ c' = [x])).
Proof.
  intros K n s v l m fuel S0 H Hf s'. destruct (history_valid K n s v l m S0 H) as [_ V]. fold s' in V.
  destruct (components_ok n s' v (vd_flat _ _ _ _ V) fuel m V Hf) as (cs & m' & E & _ & A & B & C). exists cs, m'. auto.
Qed.
Print Assumptions C46_components_partial.

(** Without vertical half edges the components are a partition into the classes. *)
Theorem C46_components : forall (K : ExactReal) n (s : flat K) (v : vec K) l m fuel, flat_surface n s -> history n s v l m -> n < fuel ->
  let s' := vt_surface m in (forall h, h < n -> rightwards s' (vden v) h <> 0%R) ->
  exists cs m', components fuel m = Ok (cs, m') /\
    (forall c, In c cs -> NoDup c /\ exists h, h < n /\ forall x, In x c <-> joined n s' (vden v) h x) /\
    (forall h, h < n -> exists i c, nth_error cs i = Some c /\ In h c /\ forall j c', nth_error cs j = Some c' -> In h c' -> j = i).
Proof.
  intros K n s v l m fuel S0 H Hf s' N. destruct (C46_components_partial K n s v l m fuel S0 H Hf) as (cs & m' & E & A & B & C). fold s' in A, C. exists cs, m'. split; auto. split.
  - intros c Q. destruct (A c Q) as (ND & h & Hh & [[_ X]|[Z _]]); [split; eauto|]. exfalso. now apply (N h).
  - intros h Hh. destruct (B h Hh) as (c & Q & X). apply In_nth_error in Q as (i & Ei). exists i, c. split; auto. split; auto. intros j c' Ej X'.
    destruct (Nat.eq_dec j i) as [?|D]; auto. destruct (C j i c' c h Ej Ei D X' X) as [Z _]. exfalso. now apply (N h).
Qed.
Print Assumptions C46_components.

Definition shown_components (m : vertical ExactZ) : list (list nat) := match components 20 m with Ok (l, _) => l | _ => [] end.
Definition shown_faces (m : vertical ExactZ) (l : list nat) : list (option TRIANGLE) := map (fun h => match classify_face 3 m h with Ok (c, _) => Some c | _ => None end) l.
Definition slanted (v : vec ExactZ) : vertical ExactZ := mkVertical torus_s v (vneg (vperp v)) (repeat None 6) (repeat None 6) (repeat None 6) (repeat None 6) (repeat None 3).
Lemma torus_wide h : h < 6 -> rightwards torus_s (vden (zv 1 3)) h <> 0%R.
Proof. intros H. do 6 (destruct h as [|h]; [unfold rightwards, pdet; cbn; lra|]). lia. Qed.
Example C46_ex : flat_surface 6 torus_s /\ (forall h, h < 6 -> fF torus_s h <> h /\ rightwards torus_s (vden (zv 1 3)) h <> 0%R) /\ history 6 torus_s (zv 1 3) [] (slanted (zv 1 3)) /\
  shown_faces (slanted (zv 1 3)) [0; 2; 4; 1; 3; 5] = [Some BACKWARD; Some BACKWARD; Some BACKWARD; Some FORWARD; Some FORWARD; Some FORWARD] /\
  shown_faces (slanted (zv 1 0)) [0; 2; 4; 1; 3; 5] = [Some RIGHT_VERTICAL; Some RIGHT_VERTICAL; Some RIGHT_VERTICAL; Some LEFT_VERTICAL; Some LEFT_VERTICAL; Some LEFT_VERTICAL] /\
  shown_components (slanted (zv 1 3)) = [[5; 4; 2; 3; 1; 0]].
Proof.
  split; [apply torus_flat|]. split; [intros h Hh; split; [now apply torus_flat|now apply torus_wide]|]. split; [apply hi_made; reflexivity|]. split; [vm_compute; reflexivity|]. split; vm_compute; reflexivity.
Qed.

(** The components are not a partition: with a vertical half edge that is visited first, it is reported twice. *)
Theorem C46_components_refuted : exists n (s : flat ExactZ) (v : vec ExactZ) m cs m' i j c c' x,
  flat_surface n s /\ closed_surface n s /\ make_vertical s v = Ok m /\ components (n + 1) m = Ok (cs, m') /\
  nth_error cs i = Some c /\ nth_error cs j = Some c' /\ i <> j /\ In x c /\ In x c' /\ length c = 1 /\ length c' = n.
Proof.
  assert (L : forall (o : outcome (list (list nat) * vertical ExactZ)) (l : list (list nat)), match o with Ok (l, _) => l | _ => [] end = l -> l <> [] -> exists m', o = Ok (l, m')).
  { intros [[l' m']| | |] l E N; try (exfalso; congruence). exists m'. now subst l. }
  assert (Q : exists m', components 7 (slanted (zv 1 0)) = Ok ([[0]; [1]; [1; 0; 4; 5; 3; 2]], m')). { apply L; [vm_compute; reflexivity|discriminate]. }
  destruct Q as (m' & E). exists 6, torus_s, (zv 1 0), (slanted (zv 1 0)), [[0]; [1]; [1; 0; 4; 5; 3; 2]], m', 0, 2, [0], [1; 0; 4; 5; 3; 2], 0.
  split; [apply torus_flat|]. split; [apply torus_flat|]. split; [reflexivity|]. split; [exact E|]. split; [reflexivity|]. split; [reflexivity|]. split; [discriminate|]. split; [now left|]. split; [right; now left|]. split; reflexivity.
Qed.
Print Assumptions C46_components_refuted.
