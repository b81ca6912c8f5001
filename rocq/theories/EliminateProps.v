(** * C72: eliminating marked points, and more on C71 *)
From Coq Require Import ZArith QArith Reals List Arith Bool Lia Lra Permutation.
From Verif Require Import Base HalfEdge HalfEdgeFacts Perm PermSpec PermFacts PermCycles PermLemmas IndexedSet IndexedSetSpec IndexedSetFacts Combinatorial CombinatorialSpec
  CombinatorialFacts CombinatorialOps CombinatorialProps CombinatorialHistory ExactReal Vector PlaneSpec Plane VectorFacts VectorProps Arb ArbFacts Quadratic QuadraticSpec QuadraticFacts
  FlatTri FlatSpec FlatFacts FlatLinear FlatAngle FlatSector FlatProps Tracked TrackedProps Collapse Shift ShiftSpec ShiftFacts ShiftRun ShiftInvariants ShiftProps
  EquivalenceSpec EquivalenceProps CollapseSpec CollapseFacts CollapseRun CollapseVertices CollapseShift CollapseMotionSpec CollapseFlips CollapseAngle CollapseProps
  Eliminate EliminateSpec EliminateMotion EliminateFacts EliminateConnected FlatAngleProps.
Import ListNotations.
Local Open Scope R_scope.

(** A shift may flip other edges before an edge collapses. *)
Theorem C71_flips : forall (K : ExactReal) (o : solver K) approx ops quot P n (s : flat K) d e fuel, sound o -> reliable o P -> approximates approx -> divides quot ->
  flat_surface n s -> closed_surface n s -> shift_of n s d ->
  (forall s' d', deforms_without n e s d s' d' -> ends_in_point n s' d' e /\
    forall h p, (h < n)%nat -> (forall t, at_ p t = pdet (moving s' d' t h) (moving s' d' t (fF s' h))) -> P p) ->
  match shift_add o approx ops quot fuel s d with
  | Ok u => exists s' d', deforms_without n e s d s' d' /\ collapsed_to n s' d' e u
  | OutOfFuel => True
  | Throw | UB => False
  end.
Proof.
  intros K o approx ops quot P n s d e fuel So Re Ap Di S C Sh H.
  assert (Q : collapse_fine n P e s d).
  { intros s' d' D. destruct (H s' d' D) as (En & HP). split; auto. intros h Hh. apply (HP h); auto. intros t.
    destruct (deforms_good n s d S C Sh s' d' (without_deforms _ _ _ _ _ _ D)) as (S' & C' & Sh'). apply (at_corner n s' d' S' C' Sh' t h Hh). }
  assert (R := collapse_shift_run o approx ops quot n P So Re Ap Di e fuel s d S C Sh Q). destruct (shift_add o approx ops quot fuel s d) as [u| | |]; auto.
  destruct R as (s' & d' & D & _ & Ct). eauto.
Qed.
Print Assumptions C71_flips.

(** The total angle of the new vertex is the sum of the total angles at the ends of the edge minus 2π; the other angles stay the same. *)
Theorem C71_angles : forall (K : ExactReal) n (s : flat K) d e u, flat_surface n s -> closed_surface n s -> shift_of n s d -> ends_in_point n s d e -> collapsed_to n s d e u ->
  ~ same_vertex (fT s) e (neg e) ->
  exists a b rest, angle_at s e a /\ angle_at s (neg e) b /\ Permutation (angle_list s) (Ok a :: Ok b :: rest) /\ Permutation (angle_list u) (Ok (a + b - 1)%nat :: rest).
Proof. intros K n s d e u. apply collapsed_angles. Qed.
Print Assumptions C71_angles.

(** The edge along which a marked point is moved is a shortest one among those that lead from the point to another vertex. *)
Theorem C72_choice : forall (K : ExactReal) n (s : flat K), flat_surface n s -> closed_surface n s ->
  exists c, choose s (tverts (fT s)) None = Ok c /\ match c with Some e => shortest n s e | None => forall e, ~ removable n s e end.
Proof. intros K n s. apply choice. Qed.
Print Assumptions C72_choice.

(** The shift that is added moves the point into the other vertex and nothing else, and removes it. *)
Theorem C72_step : forall (K : ExactReal) (o : solver K) approx ops quot n (s : flat K) e fuel, sound o -> approximates approx -> divides quot ->
  flat_surface n s -> closed_surface n s -> removable n s e ->
  exists d, collapse_shift s e = Ok d /\ shift_of n s d /\ moves_into n s d e /\
  match shift_add o approx ops quot fuel s d with
  | Ok u => removed n s e u /\ flat_surface (n - 6) u /\ closed_surface (n - 6) u /\ Permutation (angle_list s) (Ok 1%nat :: angle_list u)
  | OutOfFuel => True
  | Throw | UB => False
  end.
Proof.
  intros K o approx ops quot n s e fuel So Ap Di S C Re. destruct (removes o approx ops quot So Ap Di n s e fuel S C Re) as (d & E & Q). destruct (shift_into n s S C e Re) as (d' & E' & Sh & J).
  assert (d' = d) as -> by congruence. exists d. repeat (split; auto). destruct (shift_add o approx ops quot fuel s d) as [u| | |]; auto. cbn in Q.
  destruct (removed_good n s e u Q). repeat (split; auto). now apply (removed_angles n s e u).
Qed.
Print Assumptions C72_step.

(** Marked points are removed until there is none left that is joined to another vertex, or until all edges end at such a point. *)
Theorem C72_eliminate : forall (K : ExactReal) (o : solver K) approx ops quot levels fuel n (s : flat K), sound o -> approximates approx -> divides quot ->
  flat_surface n s -> closed_surface n s ->
  match eliminate o approx ops quot levels fuel s with
  | Ok u => exists k, eliminated n s k u /\ flat_surface (n - 6 * k) u /\ closed_surface (n - 6 * k) u /\
      Permutation (angle_list s) (repeat (Ok 1%nat) k ++ angle_list u) /\ forall e, ~ removable (n - 6 * k) u e
  | Throw => exists k u, eliminated n s k u /\ stuck (n - 6 * k) u
  | UB => False
  | OutOfFuel => True
  end.
Proof.
  intros K o approx ops quot levels fuel n s So Ap Di S C. assert (Q := eliminate_run o approx ops quot So Ap Di levels fuel n s S C).
  destruct (eliminate o approx ops quot levels fuel s) as [u| | |]; auto. destruct Q as (k & E & No). exists k. destruct (eliminated_good n s k u S C E). repeat (split; auto). now apply (eliminated_angles n s k u).
Qed.
Print Assumptions C72_eliminate.

(** If something is left of angle 2π in a connected surface, then it is the only vertex. *)
Theorem C72_single : forall (K : ExactReal) (o : solver K) approx ops quot levels fuel n (s u : flat K) v, sound o -> approximates approx -> divides quot ->
  flat_surface n s -> closed_surface n s -> connected n s -> eliminate o approx ops quot levels fuel s = Ok u ->
  In v (tverts (fT u)) -> angle u v = Ok 1%nat -> tverts (fT u) = [v].
Proof.
  intros K o approx ops quot levels fuel n s u v So Ap Di S C Cn E I A. assert (Q := eliminate_run o approx ops quot So Ap Di levels fuel n s S C). rewrite E in Q. destruct Q as (k & El & No).
  destruct (eliminated_good n s k u S C El) as (Su & Cu). apply (only_vertex (n - 6 * k) u v Su Cu); auto. now apply (eliminated_connected n s).
Qed.
Print Assumptions C72_single.

(** A connected surface with a vertex of another angle has no marked points anymore. *)
Theorem C72_complete : forall (K : ExactReal) (o : solver K) approx ops quot levels fuel n (s u : flat K) w, sound o -> approximates approx -> divides quot ->
  flat_surface n s -> closed_surface n s -> connected n s -> In w (tverts (fT s)) -> angle s w <> Ok 1%nat -> eliminate o approx ops quot levels fuel s = Ok u ->
  forall v, In v (tverts (fT u)) -> angle u v <> Ok 1%nat.
Proof.
  intros K o approx ops quot levels fuel n s u w So Ap Di S C Cn Iw Aw E v I A. assert (T := C72_single K o approx ops quot levels fuel n s u v So Ap Di S C Cn E I A).
  assert (Q := C72_eliminate K o approx ops quot levels fuel n s So Ap Di S C). rewrite E in Q. destruct Q as (k & _ & _ & _ & Pm & _).
  assert (J : In (angle s w) (angle_list s)) by now apply (in_map (angle s)). apply (Permutation_in _ Pm), in_app_or in J as [J|J]; [now apply repeat_spec in J|].
  unfold angle_list in J. rewrite T in J. destruct J as [J|[]]. congruence.
Qed.
Print Assumptions C72_complete.

(** Without marked points to remove, the surface stays as it is. *)
Theorem C72_unchanged : forall (K : ExactReal) (o : solver K) approx ops quot levels fuel n (s : flat K), flat_surface n s -> closed_surface n s -> (forall e, ~ removable n s e) ->
  eliminate o approx ops quot (S levels) fuel s = Ok s.
Proof.
  intros K o approx ops quot levels fuel n s S C No. cbn [eliminate]. destruct (choice n s S C) as (c & -> & Ch). cbn [bind]. destruct c as [e|]; auto. destruct Ch as (Re & _). now apply No in Re.
Qed.
Print Assumptions C72_unchanged.

(** The recursion ends. *)
Theorem C72_levels : forall (K : ExactReal) (o : solver K) approx ops quot levels fuel n (s : flat K), sound o -> approximates approx -> divides quot ->
  flat_surface n s -> closed_surface n s -> (n < 6 * levels)%nat -> eliminate o approx ops quot (S levels) fuel s = eliminate o approx ops quot levels fuel s.
Proof. intros K o approx ops quot levels fuel n s So Ap Di. now apply eliminate_levels. Qed.
Print Assumptions C72_levels.

(** ** Examples *)
(** Two marked points (2, 1) and (9, 4) in a torus of side length 12. *)
Definition pair_cycles : list (list nat) := [[0; 7; 4; 2; 13; 9; 1; 5; 11; 15; 3]; [8; 17; 10; 6]; [12; 14; 16]]%nat.
Definition pair_t : tri := Eval vm_compute in match make_from_cycles pair_cycles [] with Ok t => t | _ => torus_t end.
Definition pair_vectors : list (vec ExactQ) := [qv 12 0; qv 0 12; qv 12 12; qv (-2) (-1); qv 10 (-1); qv 10 11; qv 3 (-4); qv 3 8; qv (-7) (-3)].
Definition pair_s : flat ExactQ := mkFlat pair_t
  [qv 12 0; qv (-12) 0; qv 0 12; qv 0 (-12); qv 12 12; qv (-12) (-12); qv (-2) (-1); qv 2 1; qv 10 (-1); qv (-10) 1; qv 10 11; qv (-10) (-11); qv 3 (-4); qv (-3) 4; qv 3 8; qv (-3) (-8); qv (-7) (-3); qv 7 3].
Lemma pair_wf : well_formed 18 pair_t.
Proof. exact (proj1 (C07_construction_cycles pair_cycles [] pair_t eq_refl)). Qed.
Lemma pair_suitable : suitable 18 pair_t pair_vectors.
Proof. split; [reflexivity|]. intros e He. do 18 (destruct e as [|e]; [intros _; cbn; rational|]). lia. Qed.
Lemma pair_flat : flat_surface 18 pair_s /\ closed_surface 18 pair_s.
Proof.
  destruct (proj1 (C19_constructor _ 18 pair_t _ pair_wf) pair_suitable) as (s' & F' & S & _).
  assert (F : make_flat_list pair_t pair_vectors = Ok pair_s) by reflexivity. replace s' with pair_s in S by congruence. split; auto.
  intros e He. do 18 (destruct e as [|e]; [cbn; discriminate|]). lia.
Qed.
(** An octagon whose boundary winds around its center three times, with opposite sides identified: the total angle at the center is 6π, and the corners are a marked point. *)
Definition star_cycles : list (list nat) := [[0; 2; 4; 6; 8; 10; 12; 14]; [16; 1; 22; 7; 21; 13; 18; 3; 17; 9; 23; 15; 20; 5; 19; 11]]%nat.
Definition star_t : tri := Eval vm_compute in match make_from_cycles star_cycles [] with Ok t => t | _ => torus_t end.
Definition star_vectors : list (vec ExactQ) := [qv 1 0; qv (-1) 1; qv 0 (-1); qv 1 1; qv (-1) 0; qv 1 (-1); qv 0 1; qv (-1) (-1); qv (-2) 1; qv 1 (-2); qv 1 2; qv (-2) (-1)].
Definition star_s : flat ExactQ := mkFlat star_t
  [qv 1 0; qv (-1) 0; qv (-1) 1; qv 1 (-1); qv 0 (-1); qv 0 1; qv 1 1; qv (-1) (-1); qv (-1) 0; qv 1 0; qv 1 (-1); qv (-1) 1; qv 0 1; qv 0 (-1); qv (-1) (-1); qv 1 1;
   qv (-2) 1; qv 2 (-1); qv 1 (-2); qv (-1) 2; qv 1 2; qv (-1) (-2); qv (-2) (-1); qv 2 1].
Lemma star_wf : well_formed 24 star_t.
Proof. exact (proj1 (C07_construction_cycles star_cycles [] star_t eq_refl)). Qed.
Lemma star_suitable : suitable 24 star_t star_vectors.
Proof. split; [reflexivity|]. intros e He. do 24 (destruct e as [|e]; [intros _; cbn; rational|]). lia. Qed.
Lemma star_flat : flat_surface 24 star_s /\ closed_surface 24 star_s.
Proof.
  destruct (proj1 (C19_constructor _ 24 star_t _ star_wf) star_suitable) as (s' & F' & S & _).
  assert (F : make_flat_list star_t star_vectors = Ok star_s) by reflexivity. replace s' with star_s in S by congruence. split; auto.
  intros e He. do 24 (destruct e as [|e]; [cbn; discriminate|]). lia.
Qed.
(** The same surface with the edge 16 flipped; it joins the center to itself. *)
Definition free_cycles : list (list nat) := [[0; 16; 2; 4; 6; 8; 17; 10; 12; 14]; [1; 22; 7; 21; 13; 18; 3; 9; 23; 15; 20; 5; 19; 11]]%nat.
Definition free_t : tri := Eval vm_compute in match make_from_cycles free_cycles [] with Ok t => t | _ => torus_t end.
Definition free_vectors : list (vec ExactQ) := [qv 1 0; qv (-1) 1; qv 0 (-1); qv 1 1; qv (-1) 0; qv 1 (-1); qv 0 1; qv (-1) (-1); qv 0 1; qv 1 (-2); qv 1 2; qv (-2) (-1)].
Definition free_s : flat ExactQ := mkFlat free_t
  [qv 1 0; qv (-1) 0; qv (-1) 1; qv 1 (-1); qv 0 (-1); qv 0 1; qv 1 1; qv (-1) (-1); qv (-1) 0; qv 1 0; qv 1 (-1); qv (-1) 1; qv 0 1; qv 0 (-1); qv (-1) (-1); qv 1 1;
   qv 0 1; qv 0 (-1); qv 1 (-2); qv (-1) 2; qv 1 2; qv (-1) (-2); qv (-2) (-1); qv 2 1].
Lemma free_wf : well_formed 24 free_t.
Proof. exact (proj1 (C07_construction_cycles free_cycles [] free_t eq_refl)). Qed.
Lemma free_suitable : suitable 24 free_t free_vectors.
Proof. split; [reflexivity|]. intros e He. do 24 (destruct e as [|e]; [intros _; cbn; rational|]). lia. Qed.
Lemma free_flat : flat_surface 24 free_s /\ closed_surface 24 free_s.
Proof.
  destruct (proj1 (C19_constructor _ 24 free_t _ free_wf) free_suitable) as (s' & F' & S & _).
  assert (F : make_flat_list free_t free_vectors = Ok free_s) by reflexivity. replace s' with free_s in S by congruence. split; auto.
  intros e He. do 24 (destruct e as [|e]; [cbn; discriminate|]). lia.
Qed.

Definition showa (r : outcome (flat ExactQ)) : outcome (list (outcome nat) * list (Q * Q)) := do u <- r; Ok (angle_list u, map (fun v : vec ExactQ => (Qred (vx v), Qred (vy v))) (fvec u)).

Lemma showa_throw r : showa r = Throw -> r = Throw.
Proof. destruct r; cbn; congruence. Qed.
Lemma shown {A B C : Type} (x : outcome A) (f : A -> outcome B) (g : B -> C) a : (do d <- x; do u <- f d; Ok (g u)) = Ok a -> exists d u, x = Ok d /\ f d = Ok u /\ g u = a.
Proof. intros E. destruct x as [d| | |]; cbn [bind] in E; try discriminate. destruct (f d) as [u| | |] eqn:Eu; cbn [bind] in E; try discriminate. exists d, u. split; auto. split; auto. congruence. Qed.
Lemma free_run : (do d <- collapse_shift free_s 5; do u <- shift_add qsolver qexact (fun _ => QArb) qquot 40 free_s d; Ok (angle_list u)) = Ok [Ok 3%nat].
Proof. vm_compute. reflexivity. Qed.
Lemma star_run : (do d <- collapse_shift star_s 5; do u <- shift_add qsolver qexact (fun _ => QArb) qquot 40 star_s d; Ok (angle_list u)) = Ok [Ok 3%nat].
Proof. vm_compute. reflexivity. Qed.
Lemma pair_vertices : exists o a b, tverts pair_t = [o; a; b] /\ angle pair_s a = Ok 1%nat /\ angle pair_s b = Ok 1%nat /\
  (forall h, (h < 18)%nat -> scontains a h = existsb (Nat.eqb h) [6; 8; 10; 17]%nat) /\ (forall h, (h < 18)%nat -> scontains b h = existsb (Nat.eqb h) [12; 14; 16]%nat) /\ a <> o /\ b <> o.
Proof.
  exists (nth 0 (tverts pair_t) []), (nth 1 (tverts pair_t) []), (nth 2 (tverts pair_t) []). split; [reflexivity|]. split; [vm_compute; reflexivity|]. split; [vm_compute; reflexivity|].
  split; [intros h Hh; do 18 (destruct h as [|h]; [reflexivity|]); lia|]. split; [intros h Hh; do 18 (destruct h as [|h]; [reflexivity|]); lia|]. split; vm_compute; discriminate.
Qed.
Lemma pair_removable : removable 18 pair_s 6 /\ removable 18 pair_s 12.
Proof.
  destruct pair_flat as (S & C). destruct pair_vertices as (o & a & b & E & Aa & Ab & Ca & Cb & Na & Nb).
  assert (Io : In o (tverts pair_t)) by (rewrite E; cbn; auto). assert (Ia : In a (tverts pair_t)) by (rewrite E; cbn; auto). assert (Ib : In b (tverts pair_t)) by (rewrite E; cbn; auto).
  assert (H : forall v h w, In v (tverts pair_t) -> scontains v h = true -> angle pair_s v = Ok 1%nat -> In w (tverts pair_t) -> scontains w (neg h) = true -> w <> v -> removable 18 pair_s h).
  { intros v h w I Cv A J Cw N. now apply (removable_at 18 pair_s S v h I Cv A w J Cw). }
  assert (Eo : o = nth 0 (tverts pair_t) []) by (now rewrite E).
  split; [apply (H a 6%nat o)|apply (H b 12%nat o)]; auto; try (rewrite Eo; reflexivity); [rewrite Ca by lia|rewrite Cb by lia]; reflexivity.
Qed.
Lemma free_removable : removable 24 free_s 5.
Proof.
  destruct free_flat as (S & C). apply (removable_at 24 free_s S (nth 1 (tverts free_t) []) 5) with (w := nth 0 (tverts free_t) []); [cbn; auto|reflexivity|vm_compute; reflexivity|cbn; auto|reflexivity|vm_compute; discriminate].
Qed.

(** The marked point is removed: a surface with a single vertex of angle 6π is left. *)
Example C72_ex : sound qsolver /\ approximates qexact /\ divides qquot /\ flat_surface 24 free_s /\ closed_surface 24 free_s /\ connected 24 free_s /\
  (exists w, In w (tverts free_t) /\ angle free_s w <> Ok 1%nat) /\ removable 24 free_s 5 /\ angle_list free_s = [Ok 3; Ok 1]%nat /\ (24 < 6 * 12)%nat /\
  showa (eliminate qsolver qexact (fun _ => QArb) qquot 12 40 free_s) = Ok ([Ok 3%nat],
    [(1, 1); (-1, -1); (-1, 2); (1, -2); (0, -1); (0, 1); (1, 2); (-1, -2); (-1, 1); (1, -1); (1, 0); (-1, 0); (0, 2); (0, -2); (-1, 0); (1, 0); (0, 1); (0, -1)]%Q).
Proof.
  split; [apply qsolver_sound|]. split; [apply qexact_approximates|]. split; [apply qquot_divides|]. split; [apply free_flat|]. split; [apply free_flat|].
  split; [apply (within_connected 24 free_s 24); vm_compute; reflexivity|]. split; [exists (nth 0 (tverts free_t) []); split; [cbn; auto|vm_compute; discriminate]|].
  split; [apply free_removable|]. split; [vm_compute; reflexivity|]. split; [lia|]. vm_compute. reflexivity.
Qed.
(** Two of three marked points of a torus are removed, one stays. *)
Example C72_single_ex : flat_surface 18 pair_s /\ closed_surface 18 pair_s /\ connected 18 pair_s /\ angle_list pair_s = [Ok 1; Ok 1; Ok 1]%nat /\
  showa (eliminate qsolver qexact (fun _ => QArb) qquot 12 40 pair_s) = Ok ([Ok 1%nat], [(-12, 0); (12, 0); (12, 12); (-12, -12); (0, 12); (0, -12)]%Q).
Proof.
  split; [apply pair_flat|]. split; [apply pair_flat|]. split; [apply (within_connected 18 pair_s 18); vm_compute; reflexivity|]. split; vm_compute; reflexivity.
Qed.
Example C72_unchanged_ex : flat_surface 18 L_s /\ closed_surface 18 L_s /\ forall e, ~ removable 18 L_s e.
Proof.
  split; [apply L_flat|]. split; [apply L_flat|]. intros e (_ & (v & I & _ & A) & _). assert (E : angle_list L_s = [Ok 3%nat]) by (vm_compute; reflexivity).
  assert (J : In (angle L_s v) (angle_list L_s)) by now apply (in_map (angle L_s)). rewrite E, A in J. destruct J as [J|[]]. discriminate.
Qed.
(** The hypotheses of the claims on C71 hold for the shift that removes the marked point. *)
Example C71_flips_ex : reliable qsolver falling /\ exists d, collapse_shift free_s 5 = Ok d /\ shift_of 24 free_s d /\
  forall s' d', deforms_without 24 4 free_s d s' d' -> ends_in_point 24 s' d' 4 /\
    forall h (p : Quadratic.quad ExactQ), (h < 24)%nat -> (forall t, at_ p t = pdet (moving s' d' t h) (moving s' d' t (fF s' h))) -> falling p.
Proof.
  split; [apply falling_reliable, qsolver_sound|]. destruct free_flat as (S & C). destruct (shift_into 24 free_s S C 5 free_removable) as (d & E & Sh & J). exists d. split; auto. split; auto.
  intros s' d' D. destruct (into_fine 24 free_s d 5 S C Sh J s' d' D) as (En & F). split; auto. intros h p H Ep. destruct (F h H) as (Fa & Fc).
  destruct (deforms_good 24 free_s d S C Sh s' d' (without_deforms _ _ _ _ _ _ D)) as (S' & C' & Sh').
  assert (Q : forall t, at_ p t = at_ (corner s' d' h) t) by (intros t; rewrite Ep; symmetry; apply (at_corner 24 s' d' S' C' Sh' t h H)).
  assert (Q0 := Q 0). assert (Q1 := Q 1). assert (Q2 := Q (-1)). unfold at_ in Q0, Q1, Q2. rewrite Fa in *. unfold falling. split; lra.
Qed.
Example C71_angles_ex : exists (s : flat ExactQ) d u, flat_surface 24 s /\ closed_surface 24 s /\ shift_of 24 s d /\ ends_in_point 24 s d 4 /\ collapsed_to 24 s d 4 u /\ ~ same_vertex (fT s) 4 (neg 4).
Proof.
  destruct free_flat as (S & C). destruct (C72_step _ qsolver qexact (fun _ => QArb) qquot 24 free_s 5 40 qsolver_sound qexact_approximates qquot_divides S C free_removable) as (d & E & Sh & J & Q).
  destruct (shown _ _ _ _ free_run) as (d1 & u & E1 & E2 & _). assert (d1 = d) as -> by congruence. rewrite E2 in Q.
  destruct Q as ((_ & d0 & s' & d' & Sh0 & J0 & D & J' & Ct) & _). destruct (deforms_good 24 free_s d0 S C Sh0 s' d' (without_deforms _ _ _ _ _ _ D)) as (S' & C' & Sh').
  exists s', d', u. split; auto. split; auto. split; auto. split; [now apply (into_ends 24 s' d' 5)|]. split; auto.
  destruct J' as (_ & v & I & Cv & Nv & _). intros V. change (neg 5) with 4%nat in Nv. change (neg 4) with 5%nat in V.
  assert (V' : same_vertex (fT s') 5 4) by (apply (same_vertex_sym 24 _ _ _ (fs_wf 24 s' S')); auto; lia).
  assert (scontains v 4 = true) by (apply (vertex_same 24 s' v 5 4 S' I Cv); repeat split; auto; lia). congruence.
Qed.

(** Not all marked points can be eliminated: when all edges end at the marked point, there is an exception though the shift that removes the point has been computed. *)
Theorem C72_error_refuted : exists s : flat ExactQ, flat_surface 24 s /\ closed_surface 24 s /\ connected 24 s /\ angle_list s = [Ok 3; Ok 1]%nat /\
  eliminate qsolver qexact (fun _ => QArb) qquot 12 40 s = Throw /\ exists e d u, choose s (tverts (fT s)) None = Ok (Some e) /\ collapse_shift s e = Ok d /\
    shift_add qsolver qexact (fun _ => QArb) qquot 40 s d = Ok u /\ angle_list u = [Ok 3%nat].
Proof.
  exists star_s. split; [apply star_flat|]. split; [apply star_flat|]. split; [apply (within_connected 24 star_s 24); vm_compute; reflexivity|]. split; [vm_compute; reflexivity|].
  split; [apply showa_throw; vm_compute; reflexivity|]. exists 5%nat.
  destruct (shown _ _ _ _ star_run) as (d & u & E1 & E2 & E3). exists d, u. split; [vm_compute; reflexivity|]. auto.
Qed.
Print Assumptions C72_error_refuted.

(** The comment "Prefer a vertex of minimal degree" is not true: a vertex with a shorter edge is kept. *)
Theorem C72_degree_refuted : exists (s : flat ExactQ) e g v w, flat_surface 18 s /\ closed_surface 18 s /\ choose s (tverts (fT s)) None = Ok (Some e) /\ removable 18 s g /\
  In v (tverts (fT s)) /\ scontains v e = true /\ In w (tverts (fT s)) /\ scontains w g = true /\ (length (filter (scontains w) (seq 0 18)) < length (filter (scontains v) (seq 0 18)))%nat.
Proof.
  exists pair_s, 6%nat, 12%nat, (nth 1 (tverts pair_t) []), (nth 2 (tverts pair_t) []). split; [apply pair_flat|]. split; [apply pair_flat|]. split; [vm_compute; reflexivity|].
  split; [apply pair_removable|]. split; [cbn; auto|]. split; [reflexivity|]. split; [cbn; auto|]. split; [reflexivity|]. vm_compute. lia.
Qed.
Print Assumptions C72_degree_refuted.
