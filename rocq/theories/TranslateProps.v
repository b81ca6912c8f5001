(** * Property C69: moving points along vectors *)
From Coq Require Import ZArith Reals List Arith Bool Lia Lra Psatz Relations.
From Verif Require Import Base HalfEdge HalfEdgeFacts Perm PermSpec PermFacts PermCycles IndexedSet Combinatorial CombinatorialSpec
  CombinatorialFacts CombinatorialHistory CombinatorialOps CombinatorialInsert ExactReal Vector PlaneSpec Plane VectorFacts VectorProps
  FlatTri FlatSpec FlatFacts FlatProps FlatSum FlatAngle FlatAngleProps FlatSector
  Search SearchSpec SearchMoves SearchPlane SearchDepth SearchRun Point PointSpec PointFacts PointOps PointPlane PointProps
  Translate TranslateSpec TranslateMove TranslateTotal.
Import ListNotations.
Local Open Scope R_scope.

(** The coordinates of a vertex. *)
Definition vertex_coordinates {K : ExactReal} (n : nat) (p : point K) : Prop := normal n p /\ den (pb p) = 0 /\ den (pc p) = 0.
(** [g] is the sector at the vertex of [h] that contains [v]. *)
Definition sector_for {K : ExactReal} (n : nat) (s : flat K) (h : nat) (v : pt) (g : nat) : Prop := (g < n)%nat /\ same_vertex (fT s) h g /\ sector_contains s g v.

Section facts.
Context {K : ExactReal} (truediv : K -> K -> option K) (n : nat) (s : flat K).
Hypothesis S0 : flat_surface n s.
Hypothesis Cl : closed_surface n s.
Let W := fs_wf n s S0.
Lemma coordinates_at (p : point K) : vertex_coordinates n p <-> at_vertex n p.
Proof. unfold vertex_coordinates, normal, at_vertex. split; [intros ((A & B & _) & C & D)|intros (A & B & C & D)]; repeat (split; auto); lra. Qed.
Lemma vertex_angle p : at_vertex n p -> exists v k, point_vertex s p = Ok (Some v) /\ point_angle s p = Ok k /\ (k = 1%nat <-> marked n s (pface p)).
Proof.
  intros A. destruct (angle_marked n s S0 Cl (pface p) (proj1 A)) as (v & k & Ev & Ek & M). exists v, k. unfold point_angle, point_vertex. destruct (at_vertex_nz n p A) as [-> ->]. cbn [orb]. rewrite Ev. cbn [bind]. auto.
Qed.
Lemma add_moves p d g : at_vertex n p -> marked n s (pface p) -> vden d <> (0, 0) -> sector_for n s (pface p) (vden d) g ->
  exists N, forall fuel, (N <= fuel)%nat -> point_add truediv fuel s p d = move_point truediv fuel s (mkPoint g (pa p) (pb p) (pc p)) d.
Proof.
  intros A M Nd (Hg & Sg & Cg). destruct (vertex_angle p A) as (v & k & Ev & Ek & Mk). apply Mk in M as E1. subst k.
  destruct (face_toward_ok n s S0 Cl d (pface p) g (proj1 A) Hg Sg Nd Cg) as [N HN].
  { intros x Hx Sx Cx. destruct (M (vden d) Nd) as (z & _ & U). rewrite <- (U g), <- (U x); auto. }
  exists N. intros fuel Lf. unfold point_add. rewrite Ek. cbn [bind Nat.eqb negb]. rewrite Ev. cbn [bind]. rewrite HN by auto. reflexivity.
Qed.
End facts.

(** A marked vertex is moved to the end of the segment that starts at it. *)
Theorem C69_vertex : forall (K : ExactReal) truediv n (s : flat K) p d g r, flat_surface n s -> closed_surface n s -> exact_division truediv ->
  vertex_coordinates n p -> marked n s (pface p) -> vden d <> (0, 0) -> sector_for n s (pface p) (vden d) g -> ends_at n s g (vden d) r ->
  exists q, normal n q /\ same_point n s (location q) r /\ exists N, forall fuel, (N <= fuel)%nat -> point_add truediv fuel s p d = Ok (Some q).
Proof.
  intros K truediv n s p d g r S0 Cl Dv A M Nd Sg E. apply coordinates_at in A. destruct (add_moves truediv n s S0 Cl p d g A M Nd Sg) as [N1 H1].
  destruct (move_ends truediv n s S0 Cl Dv g (vden d) r E (mkPoint g (pa p) (pb p) (pc p)) d) as (q & Nq & Sq & N2 & H2); auto; try apply Sg; [split; [apply Sg|apply A]|].
  exists q. split; auto. split; auto. exists (N1 + N2)%nat. intros fuel Lf. rewrite H1 by lia. apply H2. lia.
Qed.
Print Assumptions C69_vertex.
(** A vertex of a different angle in the way is an error, ... *)
Theorem C69_blocked : forall (K : ExactReal) truediv n (s : flat K) p d g, flat_surface n s -> closed_surface n s -> exact_division truediv ->
  vertex_coordinates n p -> marked n s (pface p) -> vden d <> (0, 0) -> sector_for n s (pface p) (vden d) g -> blocked n s g (vden d) ->
  exists N, forall fuel, (N <= fuel)%nat -> point_add truediv fuel s p d = Throw.
Proof.
  intros K truediv n s p d g S0 Cl Dv A M Nd Sg B. apply coordinates_at in A. destruct (add_moves truediv n s S0 Cl p d g A M Nd Sg) as [N1 H1].
  destruct (move_blocked truediv n s S0 Cl Dv g (vden d) B (mkPoint g (pa p) (pb p) (pc p)) d) as (N2 & H2); auto; try apply Sg; [split; [apply Sg|apply A]|].
  exists (N1 + N2)%nat. intros fuel Lf. rewrite H1 by lia. apply H2. lia.
Qed.
Print Assumptions C69_blocked.
(** ... and so is a vertex of a different angle that should be moved. *)
Theorem C69_singular : forall (K : ExactReal) truediv n (s : flat K) p d fuel, flat_surface n s -> closed_surface n s ->
  vertex_coordinates n p -> ~ marked n s (pface p) -> point_add truediv fuel s p d = Throw.
Proof.
  intros K truediv n s p d fuel S0 Cl A M. apply coordinates_at in A. destruct (vertex_angle n s S0 Cl p A) as (v & k & Ev & Ek & Mk). unfold point_add. rewrite Ek. cbn [bind].
  destruct (Nat.eqb_spec k 1) as [Z|_]; auto. exfalso. tauto.
Qed.
Print Assumptions C69_singular.
(** There are no other cases: the segment ends somewhere or it is blocked, and not both. *)
Theorem C69_total : forall (K : ExactReal) n (s : flat K) h v, flat_surface n s -> closed_surface n s -> (h < n)%nat -> marked n s h -> v <> (0, 0) ->
  exists! g, sector_for n s h v g /\ ((exists r, ends_at n s g v r) \/ blocked n s g v).
Proof.
  intros K n s h v S0 Cl Hh M Nv. destruct (M v Nv) as (g & Sg & U). exists g. split; [split; auto; apply (vertex_total n s S0 Cl); auto; apply Sg|].
  intros g' [Sg' _]. now apply U.
Qed.
Print Assumptions C69_total.
(** So the loops end. *)
Theorem C69_terminates : forall (K : ExactReal) truediv n (s : flat K) p d, flat_surface n s -> closed_surface n s -> exact_division truediv ->
  vertex_coordinates n p -> vden d <> (0, 0) ->
  exists N, (exists q, normal n q /\ forall fuel, (N <= fuel)%nat -> point_add truediv fuel s p d = Ok (Some q)) \/ (forall fuel, (N <= fuel)%nat -> point_add truediv fuel s p d = Throw).
Proof.
  intros K truediv n s p d S0 Cl Dv A Nd. pose proof A as A'. apply coordinates_at in A'. destruct (angle_marked n s S0 Cl (pface p) (proj1 A')) as (_ & k & _ & _ & Mk).
  destruct (Nat.eq_dec k 1) as [E|E].
  - assert (M := proj1 Mk E). destruct (C69_total K n s (pface p) (vden d) S0 Cl (proj1 A') M Nd) as (g & [Sg [[r X]|X]] & _).
    + destruct (C69_vertex K truediv n s p d g r S0 Cl Dv A M Nd Sg X) as (q & Nq & _ & N & H). exists N. left. eauto.
    + destruct (C69_blocked K truediv n s p d g S0 Cl Dv A M Nd Sg X) as (N & H). exists N. right. auto.
  - exists 0%nat. right. intros fuel _. apply (C69_singular K truediv n s p d fuel S0 Cl A). tauto.
Qed.
Print Assumptions C69_terminates.
(** The point where the segment ends is unique. *)
Theorem C69_unique : forall (K : ExactReal) (truediv : K -> K -> option K) n (s : flat K) h (d : vec K) g r r', flat_surface n s -> closed_surface n s -> exact_division truediv ->
  (h < n)%nat -> marked n s h -> vden d <> (0, 0) -> sector_for n s h (vden d) g -> ends_at n s g (vden d) r ->
  ~ blocked n s g (vden d) /\ (ends_at n s g (vden d) r' -> same_point n s r r').
Proof.
  intros K truediv n s h d g r r' S0 Cl Dv Hh M Nd Sg E. set (p := mkPoint h (rofZ 1 : K) (rofZ 0) (rofZ 0)).
  assert (A : vertex_coordinates n p) by (unfold vertex_coordinates, normal, p; cbn [pface pa pb pc]; rewrite !den_ofZ; repeat (split; auto); lra).
  destruct (C69_vertex K truediv n s p d g r S0 Cl Dv A M Nd Sg E) as (q & _ & Q & N & H). split.
  - intros B. destruct (C69_blocked K truediv n s p d g S0 Cl Dv A M Nd Sg B) as (N' & H'). specialize (H (N + N')%nat ltac:(lia)). rewrite H' in H by lia. discriminate.
  - intros E'. destruct (C69_vertex K truediv n s p d g r' S0 Cl Dv A M Nd Sg E') as (q' & _ & Q' & N' & H'). specialize (H (N + N')%nat ltac:(lia)). rewrite H' in H by lia. injection H as ->.
    eapply sp_trans; [apply sp_sym; exact Q|exact Q'].
Qed.
Print Assumptions C69_unique.

(** A point that is not a vertex, when it stays in a face. *)
Theorem C69_inside : forall (K : ExactReal) truediv n (s : flat K) p d q fuel, flat_surface n s -> closed_surface n s -> exact_division truediv ->
  normal n p -> den (pb p) <> 0 -> point_add truediv fuel s p d = Ok (Some q) ->
  normal n q /\ exists f w w', weights w /\ weights w' /\ same_point n s (f, w) (location p) /\ same_point n s (f, w') (location q) /\ place s f w' = padd (place s f w) (vden d).
Proof.
  intros K truediv n s p d q fuel S0 Cl Dv N B E. assert (NZ : forall x : K, den x <> 0 -> nz x = true) by (intros x X; destruct (nz x) eqn:Y; auto; apply nz_false in Y; contradiction).
  assert (Nb := NZ _ B). assert (Na : nz (pa p) = true) by (apply NZ; destruct N as (_ & N & _); lra).
  assert (Mv : forall p', nz (pa p') = true -> nz (pb p') = true -> move_point truediv fuel s p' d = Ok (Some q) -> translate truediv s p' d = Ok (Some q)).
  { intros p' Na' Nb' E'. destruct fuel as [|fuel]; [discriminate|]. cbn [move_point] in E'. destruct (translate truediv s p' d) as [[q'|]| | |] eqn:T; cbn [bind] in E'; try discriminate; [congruence|].
    exfalso. destruct (face_for s p' d) as [p''| | |] eqn:Ef; cbn [bind] in E'; try discriminate.
    assert (Z : nz (pc p'') || nz (pb p'') = true).
    { unfold face_for in Ef. rewrite Nb' in Ef. destruct (nz (pc p')) eqn:Ec; [injection Ef as <-; now rewrite Ec|].
      destruct (from_he s (pface p')) as [u| | |]; cbn [bind] in Ef; try discriminate. destruct (ccw u d); injection Ef as <-; cbn [pb pc]; rewrite ?Ec, ?Na', ?Nb'; reflexivity. }
    rewrite Z in E'. discriminate. }
  unfold point_add in E. destruct (point_angle s p) as [al| | |]; cbn [bind] in E; try discriminate. destruct (negb (al =? 1)%nat); [discriminate|].
  unfold point_vertex in E. rewrite Nb in E. cbn [orb bind] in E. unfold point_edge in E. destruct (nz (pc p)) eqn:Ec; cbn [bind] in E.
  - apply Mv in E; auto. now apply (translate_ok n s S0 Cl truediv Dv p d q N).
  - apply nz_false in Ec. destruct (in_sector_at s (pface p) d) as [b| | |]; cbn [bind] in E; try discriminate. destruct b.
    + apply Mv in E; auto. now apply (translate_ok n s S0 Cl truediv Dv p d q N).
    + apply Mv in E; auto. pose proof N as (N1 & N2 & N3 & N4 & N5). assert (N' : normal n (mkPoint (neg (pface p)) (pb p) (pa p) (pc p))). 
      { unfold normal. cbn [pface pa pb pc]. split; [apply (neg_ltn n (fT s)); auto; apply (fs_wf n s S0)|]. lra. }
      destruct (translate_ok n s S0 Cl truediv Dv _ d q N' E) as (Nq & f & w & w' & X1 & X2 & X3 & X4 & X5). split; auto. exists f, w, w'. split; auto. split; auto. split; auto.
      eapply sp_trans; [exact X3|]. unfold location. cbn [pface pa pb pc]. rewrite Ec. apply sp_sym, sp_glue; auto. unfold weights. lra.
Qed.
Print Assumptions C69_inside.

(** ** Examples: a torus, where the vertex is a marked point, ... *)
Definition shown {K : ExactReal} (r : outcome (option (point K))) : outcome (option (nat * K * K * K)) := do r <- r; Ok (match r with Some q => Some (pface q, pa q, pb q, pc q) | _ => None end).
Lemma marked_of (K : ExactReal) n (s : flat K) h b : flat_surface n s -> closed_surface n s -> (h < n)%nat ->
  (do v <- vertex_source (fT s) h; do k <- angle s v; Ok (k =? 1)%nat) = Ok b -> if b then marked n s h else ~ marked n s h.
Proof.
  intros S0 Cl Hh E. destruct (angle_marked n s S0 Cl h Hh) as (v & k & Ev & Ek & M). rewrite Ev in E. cbn [bind] in E. rewrite Ek in E. cbn [bind] in E. injection E as <-.
  destruct (Nat.eqb_spec k 1); tauto.
Qed.
Lemma big_marked h : (h < 6)%nat -> marked 6 big_s h.
Proof. intros Hh. apply (marked_of ExactZ 6 big_s h true); try apply big_flat; auto. do 6 (destruct h as [|h]; [vm_compute; reflexivity|]). lia. Qed.
Lemma big_sector : forall x y, (0 < y < x)%Z -> sector_contains big_s 0 (vden (zv x y)).
Proof.
  intros x y H. apply (contains_signs 6 big_s); try apply big_flat; [lia| |].
  - intros E. injection E as E _. cbn in E. apply (eq_IZR x 0) in E. lia.
  - assert (IZR y < IZR x /\ 0 < IZR y) by (split; apply IZR_lt; lia). cbn. unfold pdet; cbn. lra.
Qed.
(** The vector (4, 3) leads through one edge; (8, 4) leads over the vertex at (6, 3). *)
Example C69_ex : flat_surface 6 big_s /\ closed_surface 6 big_s /\ exact_division zdiv /\ vertex_coordinates 6 (zp 0 1 0 0) /\ marked 6 big_s 0 /\
  sector_for 6 big_s 0 (vden (zv 4 3)) 0 /\ ends_at 6 big_s 0 (vden (zv 4 3)) (5%nat, (0, 1, 2)) /\
  sector_for 6 big_s 0 (vden (zv 8 4)) 0 /\ ends_at 6 big_s 0 (vden (zv 8 4)) (0%nat, (1, 1, 1)) /\
  shown (point_add zdiv 100 big_s (zp 0 1 0 0) (zv 4 3)) = Ok (Some (1%nat, 3%Z, 6%Z, 0%Z)) /\
  shown (point_add zdiv 100 big_s (zp 0 1 0 0) (zv 8 4)) = Ok (Some (0%nat, 3%Z, 3%Z, 3%Z)).
Proof.
  assert (F : flat_surface 6 big_s /\ closed_surface 6 big_s) by (split; apply big_flat). split; [apply F|]. split; [apply F|]. split; [apply zdiv_exact|].
  split. { unfold vertex_coordinates, normal. cbn. repeat (split; auto); try lra; lia. }
  split; [apply big_marked; lia|]. split. { split; [lia|]. split; [now exists 0%nat|]. apply big_sector. lia. }
  split.
  { apply (ends_across 6 big_s 0 _ _ false).
    - intros [[a b] c] (Q1 & Q2 & Q3 & Q4) E. unfold place in E. cbn in E. unfold padd, pscale in E; cbn in E. injection E as E1 E2.
      assert (X : (3 * b + 3 * c) = 4 * (a + b + c)) by (rewrite <- E1; field; lra). lra.
    - cbn. unfold pdet; cbn. lra.
    - apply (goes_here big_s false _ 2%nat); [split; cbn; unfold pdet, padd; cbn; lra|]. split; [unfold weights; lra|]. cbn. unfold place, padd, pscale; cbn. apply pt_eq; cbn; lra. }
  split. { split; [lia|]. split; [now exists 0%nat|]. apply big_sector. lia. }
  split.
  { replace (vden (zv 8 4)) with (pscale (1 + 1 / 3) (6, 3)) by (unfold pscale; apply pt_eq; cbn; lra). apply (ends_past 6 big_s 0 (6, 3) 1 (1 / 3) 0).
    - lra.
    - replace (6, 3) with (padd (vv big_s 0) (vv big_s 5)) by (unfold padd; apply pt_eq; cbn; lra). apply (hits_vertex big_s (vv big_s 0) 2); [cbn; lia|]. split; cbn; unfold pdet, padd; cbn; lra.
    - apply big_marked. lia.
    - lia.
    - exists 3%nat. reflexivity.
    - replace (pscale (1 / 3) (6, 3)) with (vden (zv 2 1)) by (unfold pscale; apply pt_eq; cbn; lra). apply big_sector. lia.
    - replace (pscale (1 / 3) (6, 3)) with (vden (zv 2 1)) by (unfold pscale; apply pt_eq; cbn; lra). apply ends_here; [unfold weights; lra|]. cbn. unfold place, padd, pscale; cbn. apply pt_eq; cbn; lra. }
  split; vm_compute; reflexivity.
Qed.

(** ... and the L with sides of length three, with a marked point in a triangle. *)
Definition M_t : tri := Eval vm_compute in match insert_at L_t 0 with Ok t => t | _ => L_t end.
Definition M_vectors : list (vec ExactZ) := [zv 3 0; zv 3 0; zv 3 0; zv 0 3; zv 0 3; zv 0 3; zv 3 3; zv 3 3; zv 3 3; zv (-2) (-1); zv 1 (-1); zv 1 2].
Definition M_s : flat ExactZ := mkFlat M_t
  [zv 3 0; zv (-3) 0; zv 3 0; zv (-3) 0; zv 3 0; zv (-3) 0; zv 0 3; zv 0 (-3); zv 0 3; zv 0 (-3); zv 0 3; zv 0 (-3);
   zv 3 3; zv (-3) (-3); zv 3 3; zv (-3) (-3); zv 3 3; zv (-3) (-3); zv (-2) (-1); zv 2 1; zv 1 (-1); zv (-1) 1; zv 1 2; zv (-1) (-2)].
Lemma M_wf : well_formed 24 M_t.
Proof. destruct (insert_at_Ok 18 L_t 0 L_wf) as (t' & E & Wf & _); [lia|vm_compute; discriminate|]. assert (Et : insert_at L_t 0 = Ok M_t) by (vm_compute; reflexivity). rewrite Et in E. injection E as <-. exact Wf. Qed.
Lemma M_suitable : suitable 24 M_t M_vectors.
Proof.
  split; [reflexivity|]. intros e He.
  do 24 (destruct e as [|e]; [intros _; cbn; unfold padd, pneg, pdet, vden; cbn; split; [f_equal; lra|lra]|]). lia.
Qed.
Lemma M_flat : flat_surface 24 M_s /\ closed_surface 24 M_s.
Proof.
  destruct (proj1 (C19_constructor _ 24 M_t _ M_wf) M_suitable) as (s' & F'' & S & _).
  assert (F : make_flat_list M_t M_vectors = Ok M_s) by reflexivity. replace s' with M_s in S by congruence. split; auto.
  intros e He. do 24 (destruct e as [|e]; [cbn; discriminate|]). lia.
Qed.
Lemma M_marked : marked 24 M_s 18 /\ ~ marked 24 M_s 19 /\ ~ marked 24 M_s 3.
Proof.
  split; [apply (marked_of ExactZ 24 M_s 18 true); try apply M_flat; [lia|vm_compute; reflexivity]|].
  split; [apply (marked_of ExactZ 24 M_s 19 false)|apply (marked_of ExactZ 24 M_s 3 false)]; try apply M_flat; try lia; vm_compute; reflexivity.
Qed.
Example C69_blocked_ex : flat_surface 24 M_s /\ closed_surface 24 M_s /\ exact_division zdiv /\ vertex_coordinates 24 (zp 18 1 0 0) /\ marked 24 M_s 18 /\ ~ marked 24 M_s 3 /\
  sector_for 24 M_s 18 (vden (zv 8 4)) 20 /\ blocked 24 M_s 20 (vden (zv 8 4)) /\ shown (point_add zdiv 100 M_s (zp 18 1 0 0) (zv 8 4)) = Throw /\
  shown (point_add zdiv 100 M_s (zp 3 1 0 0) (zv 8 4)) = Throw.
Proof.
  split; [apply M_flat|]. split; [apply M_flat|]. split; [apply zdiv_exact|]. split. { unfold vertex_coordinates, normal. cbn. repeat (split; auto); try lra; lia. }
  split; [apply M_marked|]. split; [apply M_marked|]. split.
  { split; [lia|]. split; [exists 1%nat; reflexivity|]. apply (contains_signs 24 M_s); try apply M_flat; [lia| |]; [intros E; injection E as E _; cbn in E; lra|]. cbn. unfold pdet; cbn. lra. }
  split. { replace (vden (zv 8 4)) with (pscale (1 + 1) (4, 2)) by (unfold pscale; apply pt_eq; cbn; lra). apply (blocked_here 24 M_s 20 (4, 2) 3 1); [lra| |apply M_marked].
    replace (4, 2) with (padd (vv M_s 20) (vv M_s 14)) by (unfold padd; apply pt_eq; cbn; lra). apply (hits_vertex M_s (vv M_s 20) 8); [cbn; lia|]. split; cbn; unfold pdet, padd; cbn; lra. }
  split; vm_compute; reflexivity.
Qed.

(** ** What goes wrong *)
(** Along an edge, the vertex at its other end is ignored: whatever its angle is, there is no error. *)
Theorem C69_along_edge : forall (K : ExactReal) truediv n (s : flat K) p d t, flat_surface n s -> closed_surface n s -> exact_division truediv ->
  vertex_coordinates n p -> marked n s (pface p) -> 0 < t -> vden d = pscale t (vv s (pface p)) ->
  exists q N, normal n q /\ forall fuel, (N <= fuel)%nat -> point_add truediv fuel s p d = Ok (Some q).
Proof.
  intros K truediv n s p d t S0 Cl Dv A M Ht Ed. pose proof A as A'. apply coordinates_at in A'. assert (Hh := proj1 A'). set (h := pface p) in *.
  assert (D := corner_det n s h S0 Hh (Cl h Hh)). assert (P1 : pdet (vv s h) (vden d) = 0) by (rewrite Ed; unfold pdet, pscale; cbn; ring).
  assert (P2 : 0 < pdet (vden d) (vv s (fV s h))) by (replace (pdet (vden d) (vv s (fV s h))) with (t * pdet (vv s h) (vv s (fV s h))) by (rewrite Ed; unfold pdet, pscale; cbn; ring); nra).
  assert (Nd : vden d <> (0, 0)) by (apply (pdet_nonzero_l _ (vv s (fV s h))); lra).
  assert (Sc : sector_contains s h (vden d)) by (apply (contains_signs n s S0 Cl); auto; lra).
  destruct (step_total n s S0 Cl h (vden d) Hh Nd Sc) as [[r E]|(u & g & k & Hk & H & Eu)].
  - destruct (C69_vertex K truediv n s p d h r S0 Cl Dv A M Nd) as (q & Nq & _ & N & HN); auto; [split; auto; split; auto; now exists 0%nat|]. exists q, N. auto.
  - exfalso. apply hits_crosses in H as [H _]. rewrite Eu in P1. replace (pdet (vv s h) (pscale (1 + k) u)) with ((1 + k) * pdet (vv s h) u) in P1 by (unfold pdet, pscale; cbn; ring). nra.
Qed.
Print Assumptions C69_along_edge.
(** So points can be moved over vertices of angle more than 2π, contrary to PT:456. *)
Theorem C69_over_singularity_refuted : exists n (s : flat ExactZ) p d q N, flat_surface n s /\ closed_surface n s /\ vertex_coordinates n p /\ marked n s (pface p) /\ ~ marked n s (neg (pface p)) /\
  vden d = pscale 2 (vv s (pface p)) /\ forall fuel, (N <= fuel)%nat -> point_add zdiv fuel s p d = Ok (Some q).
Proof.
  destruct (C69_along_edge ExactZ zdiv 24 M_s (zp 18 1 0 0) (zv (-4) (-2)) 2) as (q & N & _ & H); try apply M_flat; try apply zdiv_exact; try apply M_marked; try lra.
  - unfold vertex_coordinates, normal. cbn. repeat (split; auto); try lra; lia.
  - unfold pscale. apply pt_eq; cbn; lra.
  - exists 24%nat, M_s, (zp 18 1 0 0), (zv (-4) (-2)), q, N. split; [apply M_flat|]. split; [apply M_flat|]. split; [unfold vertex_coordinates, normal; cbn; repeat (split; auto); try lra; lia|].
    split; [apply M_marked|]. split; [apply M_marked|]. split; auto. unfold pscale. apply pt_eq; cbn; lra.
Qed.
Print Assumptions C69_over_singularity_refuted.
(** Adding the zero vector to a vertex does not end: no sector contains it. *)
Theorem C69_zero : forall (K : ExactReal) truediv n (s : flat K) p d fuel, flat_surface n s -> closed_surface n s ->
  vertex_coordinates n p -> marked n s (pface p) -> vden d = (0, 0) -> point_add truediv fuel s p d = OutOfFuel.
Proof.
  intros K truediv n s p d fuel S0 Cl A M Z. apply coordinates_at in A. destruct (vertex_angle n s S0 Cl p A) as (v & k & Ev & Ek & Mk). apply Mk in M. subst k.
  unfold point_add. rewrite Ek. cbn [bind Nat.eqb negb]. rewrite Ev. cbn [bind].
  assert (L : forall fuel h, (h < n)%nat -> face_toward fuel s d h = OutOfFuel).
  { clear fuel. induction fuel as [|fuel IH]; intros h Hh; cbn [face_toward]; auto. rewrite (in_sector_at_Ok n) by auto. rewrite Z. cbn [bind]. unfold FlatAngle.hits.
    replace (pdet (vv s h) (0, 0)) with 0 by (unfold pdet; cbn; ring). replace (pdet (vv s (fV s h)) (0, 0)) with 0 by (unfold pdet; cbn; ring).
    destruct (Rle_dec 0 0) as [_|X]; [|lra]. destruct (Rlt_dec 0 0) as [X|_]; [lra|]. assert (W := fs_wf n s S0). rewrite (nextV_Ok n) by auto. cbn [bind]. apply IH. now apply (fV_lt n). }
  rewrite L by apply A. reflexivity.
Qed.
Print Assumptions C69_zero.
Theorem C69_zero_refuted : exists n (s : flat ExactZ) p d, flat_surface n s /\ closed_surface n s /\ vertex_coordinates n p /\ marked n s (pface p) /\ forall fuel, point_add zdiv fuel s p d = OutOfFuel.
Proof.
  exists 6%nat, big_s, (zp 0 1 0 0), (zv 0 0). assert (V : vertex_coordinates 6 (zp 0 1 0 0)) by (unfold vertex_coordinates, normal; cbn; repeat (split; auto); try lra; lia).
  split; [apply big_flat|]. split; [apply big_flat|]. split; auto. assert (M : marked 6 big_s (pface (zp 0 1 0 0))) by (apply big_marked; cbn; lia). split; auto.
  intros fuel. apply (C69_zero ExactZ zdiv 6 big_s); auto; apply big_flat.
Qed.
Print Assumptions C69_zero_refuted.
