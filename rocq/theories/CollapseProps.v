(** * C71: collapsing an edge *)
From Coq Require Import ZArith QArith Reals List Arith Bool Lia Lra.
From Verif Require Import Base HalfEdge HalfEdgeFacts Perm PermSpec PermFacts PermCycles PermLemmas IndexedSet IndexedSetSpec IndexedSetFacts Combinatorial CombinatorialSpec
  CombinatorialFacts CombinatorialOps CombinatorialProps CombinatorialHistory ExactReal Vector PlaneSpec Plane VectorFacts VectorProps Arb ArbFacts Quadratic QuadraticSpec QuadraticFacts
  FlatTri FlatSpec FlatFacts FlatLinear FlatAngle FlatSector FlatProps Tracked TrackedProps Collapse Shift ShiftSpec ShiftFacts ShiftRun ShiftInvariants ShiftProps
  CollapseSpec CollapseFacts CollapseRun CollapseVertices CollapseShift.
Import ListNotations.
Local Open Scope nat_scope.

(** The two triangles at the edge are taken out; the values attached to the remaining edges stay with them. *)
Theorem C71_collapse : forall (T : Type) (opp : T -> T) n t e (vectors : list T) edges, well_formed n t -> no_boundary n t -> e < n -> collapsible t e ->
  (forall v, opp (opp v) = v) -> length vectors = n -> odd_map opp vectors ->
  exists t' vectors' edges' label, collapse opp t e vectors edges = Ok (t', vectors', edges') /\
    well_formed (n - 6) t' /\ no_boundary (n - 6) t' /\ collapsed n t e t' label /\ length vectors' = n - 6 /\
    (forall h, h < n -> ~ dropped t e h -> nth_error vectors' (label h) = nth_error vectors h /\ mem edges' (label h / 2) = mem edges (h / 2)) /\
    ((forall i, mem edges i = true -> i < n / 2) -> forall i, mem edges' i = true -> i < (n - 6) / 2).
Proof. intros T opp n t e vectors edges. apply collapse_run. Qed.
Print Assumptions C71_collapse.

(** The ends of the edge become one vertex, and the other vertices stay the same. *)
Theorem C71_vertices : forall n t t' e label, well_formed n t -> no_boundary n t -> e < n -> collapsible t e ->
  well_formed (n - 6) t' -> no_boundary (n - 6) t' -> collapsed n t e t' label -> ~ same_vertex t e (neg e) ->
  forall h g, h < n -> g < n -> ~ dropped t e h -> ~ dropped t e g -> (same_vertex t' (label h) (label g) <-> merged t e h g).
Proof. intros n t t' e label W Cl He Fi W' Cl' C D h g. now apply (vertices_merge n t t' e label). Qed.
Print Assumptions C71_vertices.

(** An edge of a flat surface can be collapsed if its ends are different vertices. *)
Theorem C71_collapsible : forall (K : ExactReal) n (s : flat K) e, flat_surface n s -> closed_surface n s -> (e < n)%nat -> ~ same_vertex (fT s) e (neg e) -> collapsible (fT s) e.
Proof. intros K n s e. apply ends_collapsible. Qed.
Print Assumptions C71_collapsible.

(** Edges at the boundary are not collapsed. *)
Theorem C71_rejected : forall (T : Type) (opp : T -> T) n t e (vectors : list T) edges, well_formed n t -> e < n -> nF t e = e \/ nF t (neg e) = neg e ->
  collapse opp t e vectors edges = Throw.
Proof.
  intros T opp n t e vectors edges W He B. assert (Hn := neg_ltn n t W e He). unfold collapse, boundary. rewrite !(papp_Ok n) by (auto; apply (wfF n t W)). cbn [bind]. change (fw (tF t)) with (nF t).
  destruct (Nat.eqb_spec (nF t e) e) as [E|E]; auto. destruct (Nat.eqb_spec (nF t (neg e)) (neg e)) as [E'|E']; auto. destruct B; contradiction.
Qed.
Print Assumptions C71_rejected.

(** Shifting a vertex along an edge into another vertex collapses that edge. *)
Local Open Scope R_scope.
Theorem C71_shift : forall (K : ExactReal) (o : solver K) approx ops quot P n (s : flat K) d e fuel, sound o -> reliable o P -> approximates approx ->
  flat_surface n s -> closed_surface n s -> shift_of n s d ->
  (forall h p, (h < n)%nat -> (forall t, at_ p t = pdet (moving s d t h) (moving s d t (fF s h))) -> P p) ->
  (e < n)%nat -> Nat.even e = true -> collapsible (fT s) e -> padd (vv s e) (dd d e) = (0, 0) ->
  (forall t h, 0 <= t < 1 -> (h < n)%nat -> 0 < pdet (moving s d t h) (moving s d t (fF s h))) ->
  (forall h, (h < n)%nat -> ~ vanishes (fT s) e h -> 0 < pdet (moving s d 1 h) (moving s d 1 (fF s h))) ->
  match shift_add o approx ops quot fuel s d with
  | Ok u => exists label, flat_surface (n - 6) u /\ closed_surface (n - 6) u /\ collapsed n (fT s) e (fT u) label /\
      forall h, (h < n)%nat -> ~ dropped (fT s) e h -> vv u (label h) = padd (vv s h) (dd d h)
  | OutOfFuel => True
  | Throw | UB => False
  end.
Proof.
  intros K o approx ops quot P n s d e fuel So Re Ap S C Sh HP He Ev Fi Z Pos P1.
  assert (M1 : forall h, moving s d 1 h = padd (vv s h) (dd d h)) by (intros h; unfold moving; destruct (dd d h); unfold pscale; cbn [fst snd]; now rewrite !Rmult_1_l).
  assert (Z' : moving s d 1 e = (0, 0)) by (rewrite M1; exact Z).
  assert (E2 : (e = 2 * (e / 2))%nat). { apply Nat.even_spec in Ev as (m & ->). now rewrite div2_even. }
  assert (HP' : forall h, (h < n)%nat -> P (corner s d h)). { intros h Hh. apply (HP h); auto. intros t. apply (at_corner n s d S C Sh t h Hh). }
  assert (Q := shift_collapse o approx ops n s d e P So Re Ap S C Sh He Fi Z' P1 Pos HP' quot fuel E2).
  destruct (shift_add o approx ops quot fuel s d) as [u| | |]; auto. destruct Q as (label & A1 & A2 & A3 & A4). exists label. repeat (split; auto). intros h Hh Nh. rewrite <- M1. now apply A4.
Qed.
Print Assumptions C71_shift.


(** When all vertices move parallel to the edge, then nothing else is needed of the solver. *)
Theorem C71_along : forall (K : ExactReal) (o : solver K) approx ops quot n (s : flat K) d e fuel, sound o -> approximates approx ->
  flat_surface n s -> closed_surface n s -> shift_of n s d -> (forall h, (h < n)%nat -> exists k, dd d h = pscale k (vv s e)) ->
  (e < n)%nat -> Nat.even e = true -> collapsible (fT s) e -> padd (vv s e) (dd d e) = (0, 0) ->
  (forall t h, 0 <= t < 1 -> (h < n)%nat -> 0 < pdet (moving s d t h) (moving s d t (fF s h))) ->
  (forall h, (h < n)%nat -> ~ vanishes (fT s) e h -> 0 < pdet (moving s d 1 h) (moving s d 1 (fF s h))) ->
  match shift_add o approx ops quot fuel s d with
  | Ok u => exists label, flat_surface (n - 6) u /\ closed_surface (n - 6) u /\ collapsed n (fT s) e (fT u) label /\
      forall h, (h < n)%nat -> ~ dropped (fT s) e h -> vv u (label h) = padd (vv s h) (dd d h)
  | OutOfFuel => True
  | Throw | UB => False
  end.
Proof.
  intros K o approx ops quot n s d e fuel So Ap S C Sh Pa He Ev Fi Z Pos P1. apply (C71_shift K o approx ops quot falling); auto; [now apply falling_reliable|].
  intros h p H E. destruct (parallel_falling n s d h _ S C Sh Pa H) as (Fa & Fc).
  assert (Q : forall t, at_ p t = at_ (corner s d h) t) by (intros t; rewrite E; symmetry; apply (at_corner n s d S C Sh t h H)).
  assert (Q0 := Q 0). assert (Q1 := Q 1). assert (Q2 := Q (-1)). unfold at_ in Q0, Q1, Q2. rewrite Fa in *. unfold falling. split; lra.
Qed.
Print Assumptions C71_along.

(** ** Example: the marked point of a torus moves into the other vertex *)
Definition into_shift : list (vec ExactQ) := [qv 0 0; qv 0 0; qv 0 0; qv 0 0; qv 2 1; qv (-2) (-1); qv 2 1; qv (-2) (-1); qv 2 1; qv (-2) (-1); qv 2 1; qv (-2) (-1)].
Definition nodup_b (l : list nat) : bool := (length (nodup Nat.eq_dec l) =? length l)%nat.
Lemma nodup_true l : nodup_b l = true -> NoDup l.
Proof.
  intros E. apply Nat.eqb_eq in E. induction l as [|a l IH]; [constructor|]. cbn [nodup length] in E. destruct (in_dec Nat.eq_dec a l) as [I|I].
  - assert (L : (length (nodup Nat.eq_dec l) <= length l)%nat) by (apply NoDup_incl_length; [apply NoDup_nodup|intros x; apply nodup_In]). lia.
  - constructor; auto.
Qed.
Lemma point_five : collapsible point_t 4.
Proof. left. apply nodup_true. reflexivity. Qed.
Lemma point_ends : ~ same_vertex point_t 4 (neg 4).
Proof.
  intros (k & E). assert (G : forall k, In (Nat.iter k (nV point_t) 4%nat) [4; 6; 8; 10]%nat).
  { intros j. induction j as [|j IH]; [cbn; auto|]. change (In (nV point_t (Nat.iter j (nV point_t) 4%nat)) [4; 6; 8; 10]%nat). destruct IH as [<-|[<-|[<-|[<-|[]]]]]; cbn; auto. }
  specialize (G k). rewrite E in G. cbn in G. intuition discriminate.
Qed.
Definition showt (r : outcome (tri * list Z * bits)) : outcome (perm * perm * list Z * list bool) := do (t, v, b) <- r; Ok (tV t, tF t, v, b).
Example C71_ex : well_formed 12 point_t /\ no_boundary 12 point_t /\ collapsible point_t 4 /\ ~ same_vertex point_t 4 (neg 4) /\
  odd_map Z.opp [1; -1; 2; -2; 3; -3; 4; -4; 5; -5; 6; -6]%Z /\
  showt (collapse Z.opp point_t 4 [1; -1; 2; -2; 3; -3; 4; -4; 5; -5; 6; -6]%Z [false; false; true; false; true; false]) =
    Ok (mkPerm [5; 4; 0; 1; 2; 3]%nat [2; 3; 4; 5; 1; 0]%nat, mkPerm [3; 2; 5; 4; 0; 1]%nat [4; 5; 1; 0; 3; 2]%nat, [6; -6; 5; -5; 4; -4]%Z, [false; true; false; false; false; false]).
Proof.
  split; [apply point_wf|]. split; [apply point_flat|]. split; [apply point_five|]. split; [apply point_ends|]. split; [|vm_compute; reflexivity].
  intros h x. do 12 (destruct h as [|h]; [cbn; intros E; injection E as <-; reflexivity|]). cbn. destruct h; discriminate.
Qed.

Local Open Scope R_scope.
Lemma into_shift_of : shift_of 12 point_s into_shift.
Proof.
  split; [reflexivity|]. split; intros e He; do 12 (destruct e as [|e]; [cbn; unfold dd, padd, pneg, vden, Q2R; cbn; f_equal; lra|]); lia.
Qed.
Lemma into_moving t h : (h < 12)%nat -> 0 <= t <= 1 -> (t < 1 \/ ~ vanishes point_t 4 h) -> 0 < pdet (moving point_s into_shift t h) (moving point_s into_shift t (fF point_s h)).
Proof.
  intros Hh T V. do 12 (destruct h as [|h]; [try (exfalso; destruct V as [V|V]; [|apply V; unfold vanishes; cbn; tauto]; fail);
    unfold moving, dd, vden, padd, pscale, pdet; cbn; unfold Q2R; cbn; destruct V as [V|V]; try lra; exfalso; apply V; unfold vanishes; cbn; tauto|]). lia.
Qed.
Example C71_along_ex : sound qsolver /\ approximates qexact /\ flat_surface 12 point_s /\ closed_surface 12 point_s /\ shift_of 12 point_s into_shift /\
  (forall h, (h < 12)%nat -> exists k, dd into_shift h = pscale k (vv point_s 4)) /\ collapsible (fT point_s) 4 /\ padd (vv point_s 4) (dd into_shift 4) = (0, 0) /\
  (forall t h, 0 <= t < 1 -> (h < 12)%nat -> 0 < pdet (moving point_s into_shift t h) (moving point_s into_shift t (fF point_s h))) /\
  (forall h, (h < 12)%nat -> ~ vanishes (fT point_s) 4 h -> 0 < pdet (moving point_s into_shift 1 h) (moving point_s into_shift 1 (fF point_s h))) /\
  showq (shift_add qsolver qexact (fun _ => QArb) qquot 12 point_s into_shift) =
    Ok (mkPerm [3; 2; 5; 4; 0; 1]%nat [4; 5; 1; 0; 3; 2]%nat, [(0, 4); (0, -4); (4, 4); (-4, -4); (4, 0); (-4, 0)]%Q).
Proof.
  split; [apply qsolver_sound|]. split; [apply qexact_approximates|]. split; [apply point_flat|]. split; [apply point_flat|]. split; [apply into_shift_of|].
  split. { intros h H. exists (- fst (dd into_shift h) / 2). do 12 (destruct h as [|h]; [unfold dd, vden, pscale; cbn; unfold vden; cbn; unfold Q2R; cbn; f_equal; lra|]). lia. }
  split; [apply point_five|]. split; [unfold dd, vden, padd; cbn; unfold vden; cbn; unfold Q2R; cbn; f_equal; lra|].
  split; [intros t h T H; apply into_moving; auto; lra|]. split; [intros h H V; apply into_moving; auto; lra|]. vm_compute; reflexivity.
Qed.
(** The hypotheses of the general theorem and of the claim on vertices are satisfied as well. *)
Example C71_shift_ex : reliable qsolver falling /\ (forall h (p : Quadratic.quad ExactQ), (h < 12)%nat -> (forall t, at_ p t = pdet (moving point_s into_shift t h) (moving point_s into_shift t (fF point_s h))) -> falling p).
Proof.
  destruct C71_along_ex as (So & Ap & S & C & Sh & Pa & _). split; [apply falling_reliable, So|].
  intros h p H E. destruct (parallel_falling 12 point_s into_shift h _ S C Sh Pa H) as (Fa & Fc).
  assert (Q : forall t, at_ p t = at_ (corner point_s into_shift h) t) by (intros t; rewrite E; symmetry; apply (at_corner 12 point_s into_shift S C Sh t h H)).
  assert (Q0 := Q 0). assert (Q1 := Q 1). assert (Q2 := Q (-1)). unfold at_ in Q0, Q1, Q2. rewrite Fa in *. unfold falling. split; lra.
Qed.
Example C71_vertices_ex : exists t' label, well_formed 6 t' /\ no_boundary 6 t' /\ collapsed 12 point_t 4 t' label /\ ~ dropped point_t 4 6 /\ ~ dropped point_t 4 7 /\
  ~ same_vertex point_t 6 7 /\ same_vertex t' (label 6%nat) (label 7%nat).
Proof.
  destruct C71_ex as (W & N & Fi & D & O & _).
  destruct (C71_collapse Z Z.opp 12 point_t 4 [1; -1; 2; -2; 3; -3; 4; -4; 5; -5; 6; -6]%Z [] W N ltac:(lia) Fi Z.opp_involutive eq_refl O) as (t' & v & b & label & _ & W' & N' & Co & _). exists t', label.
  assert (D6 : ~ dropped point_t 4 6) by (unfold dropped; cbn; intuition discriminate). assert (D7 : ~ dropped point_t 4 7) by (unfold dropped; cbn; intuition discriminate).
  assert (V6 : same_vertex point_t 4 6) by (exists 1%nat; reflexivity). assert (V7 : same_vertex point_t (neg 4) 7) by (exists 2%nat; reflexivity).
  repeat (split; [assumption|]). split.
  - intros V. apply D. apply (same_vertex_trans point_t 4 6); auto. apply (same_vertex_trans point_t 6 7); auto. exists 6%nat. reflexivity.
  - apply (C71_vertices 12 point_t t' 4 label W N ltac:(lia) Fi W' N' Co D 6 7 ltac:(lia) ltac:(lia) D6 D7). right. auto.
Qed.
Definition single_t : tri := Eval vm_compute in match make_from_cycles [[0; 5]; [2; 1]; [4; 3]]%nat [1; 3; 5]%nat with Ok t => t | _ => torus_t end.
Example C71_rejected_ex : well_formed 6 single_t /\ nF single_t (neg 0) = neg 0 /\ showt (collapse Z.opp single_t 0 [1; -1; 2; -2; 3; -3]%Z []) = Throw.
Proof.
  split; [exact (proj1 (C07_construction_cycles [[0; 5]; [2; 1]; [4; 3]]%nat [1; 3; 5]%nat single_t eq_refl))|]. split; vm_compute; reflexivity.
Qed.

Example C71_collapsible_ex : flat_surface 12 point_s /\ closed_surface 12 point_s /\ ~ same_vertex (fT point_s) 4 (neg 4).
Proof. split; [apply point_flat|]. split; [apply point_flat|apply point_ends]. Qed.

(** A torus of two squares, where two sides of the triangles at an edge are the same. *)
Definition squares_t : tri := Eval vm_compute in match make_from_cycles [[0; 8; 4; 3; 11; 5]; [1; 9; 7; 2; 10; 6]]%nat [] with Ok t => t | _ => torus_t end.
Definition squares_s : flat ExactQ := mkFlat squares_t [qv 1 0; qv (-1) 0; qv 1 0; qv (-1) 0; qv 0 1; qv 0 (-1); qv 0 1; qv 0 (-1); qv 1 1; qv (-1) (-1); qv 1 1; qv (-1) (-1)].
Definition squares_shift : list (vec ExactQ) := [qv (-1) 0; qv 1 0; qv 1 0; qv (-1) 0; qv 0 0; qv 0 0; qv 0 0; qv 0 0; qv (-1) 0; qv 1 0; qv 1 0; qv (-1) 0].
Lemma squares_flat : flat_surface 12 squares_s /\ closed_surface 12 squares_s.
Proof.
  assert (W : well_formed 12 squares_t) by exact (proj1 (C07_construction_cycles [[0; 8; 4; 3; 11; 5]; [1; 9; 7; 2; 10; 6]]%nat [] squares_t eq_refl)). split; [split|].
  - exact W.
  - reflexivity.
  - intros e He. do 12 (destruct e as [|e]; [unfold vv; cbn; unfold pneg, vden; cbn; unfold Q2R; cbn; f_equal; lra|]). lia.
  - intros e He _. do 12 (destruct e as [|e]; [unfold vv; cbn; unfold padd, pdet, vden; cbn; unfold Q2R; cbn; split; [f_equal; lra|lra]|]). lia.
  - intros e He. do 12 (destruct e as [|e]; [cbn; lia|]). lia.
Qed.
Lemma squares_moving t h : (h < 12)%nat -> 0 <= t <= 1 -> (t < 1 \/ ~ vanishes squares_t 0 h) -> 0 < pdet (moving squares_s squares_shift t h) (moving squares_s squares_shift t (fF squares_s h)).
Proof.
  intros Hh T V. do 12 (destruct h as [|h]; [unfold moving, dd, vden, padd, pscale, pdet; cbn; unfold Q2R; cbn; destruct V as [V|V]; try lra; exfalso; apply V; unfold vanishes; cbn; tauto|]). lia.
Qed.
Example C71_cylinder_ex : flat_surface 12 squares_s /\ closed_surface 12 squares_s /\ shift_of 12 squares_s squares_shift /\
  (forall h, (h < 12)%nat -> exists k, dd squares_shift h = pscale k (vv squares_s 0)) /\ side_q squares_t 0 = neg (side_p squares_t 0) /\ collapsible (fT squares_s) 0 /\
  padd (vv squares_s 0) (dd squares_shift 0) = (0, 0) /\
  (forall t h, 0 <= t < 1 -> (h < 12)%nat -> 0 < pdet (moving squares_s squares_shift t h) (moving squares_s squares_shift t (fF squares_s h))) /\
  (forall h, (h < 12)%nat -> ~ vanishes (fT squares_s) 0 h -> 0 < pdet (moving squares_s squares_shift 1 h) (moving squares_s squares_shift 1 (fF squares_s h))) /\
  showq (shift_add qsolver qexact (fun _ => QArb) qquot 12 squares_s squares_shift) =
    Ok (mkPerm [3; 2; 4; 5; 1; 0]%nat [5; 4; 1; 0; 2; 3]%nat, [(2, 1); (-2, -1); (2, 0); (-2, 0); (0, 1); (0, -1)]%Q).
Proof.
  destruct squares_flat as (S & C). split; [exact S|]. split; [exact C|]. split.
  { split; [reflexivity|]. split; intros e He; do 12 (destruct e as [|e]; [cbn; unfold dd, padd, pneg, vden, Q2R; cbn; f_equal; lra|]); lia. }
  split. { intros h H. exists (fst (dd squares_shift h)). do 12 (destruct h as [|h]; [unfold dd, vden, pscale; cbn; unfold vden; cbn; unfold Q2R; cbn; f_equal; lra|]). lia. }
  split; [reflexivity|]. split; [right; right; split; [reflexivity|apply nodup_true; reflexivity]|]. split; [unfold dd, vden, padd; cbn; unfold vden; cbn; unfold Q2R; cbn; f_equal; lra|].
  split; [intros t h T H; apply squares_moving; auto; lra|]. split; [intros h H V; apply squares_moving; auto; lra|]. vm_compute; reflexivity.
Qed.
