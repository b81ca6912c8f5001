(** * C66: FlatTriangulation::isomorphism for Delaunay cells *)
From Coq Require Import ZArith Reals List Arith Bool Lia Lra.
From Verif Require Import Base HalfEdge HalfEdgeFacts Perm PermSpec PermFacts IndexedSet Combinatorial CombinatorialSpec CombinatorialFacts CombinatorialOps
  ExactReal Vector PlaneSpec Plane VectorFacts VectorProps FlatTri FlatSpec FlatFacts FlatSum FlatLinear FlatOps FlatDelaunay FlatAngle FlatProps FlatAngleProps SerializeProps CombinatorialProps PointProps
  PointSpec Linear LinearProps Deform DeformSpec DeformGood DeformProps Equivalence EquivalenceSpec EquivalenceFacts EquivalenceCode EquivalenceProps EquivalenceLinearProps Isomorphism IsomorphismSpec IsomorphismFacts IsomorphismFaces IsomorphismProps IsomorphismCells IsomorphismCount.
Import ListNotations.
Local Open Scope nat_scope.

Section cells.
Context {K : ExactReal}.
Implicit Types s u : flat K.

(** Maps of sides that respect cells. *)
Definition side_map (n m : nat) s u (a b c d : R) (same : bool) (f : nat -> nat) : Prop :=
  forall x, x < n -> acts s x = true -> f x < m /\ acts u (f x) = true /\ vv u (f x) = papply a b c d (vv s x) /\ f (neg x) = neg (f x) /\ f (nextc n s x) = gof (nextc m u) (prevc m u) same (f x).
Definition side_surj (n m : nat) s u (f : nat -> nat) : Prop := forall y, y < m -> acts u y = true -> exists x, x < n /\ acts s x = true /\ f x = y.
Definition corner_of (n : nat) s (same : bool) (f : nat -> nat) (x : nat) : nat := if same then f x else f (left_of n s x).

Section maps.
Variables (n m : nat) (s u : flat K) (a b c d : R) (same : bool) (f : nat -> nat).
Hypothesis CS : closed_flat n s.
Hypothesis CU : closed_flat m u.
Hypothesis D : (a * d - b * c <> 0)%R.
Hypothesis M : side_map n m s u a b c d same f.
Hypothesis Sj : side_surj n m s u f.
Lemma corner_next x : x < n -> acts s x = true -> left_of m u (corner_of n s same f x) = if same then f (left_of n s x) else f x.
Proof.
  intros H A. assert (H1 := left_of_lt n s CS x H). assert (A1 := left_of_act n s CS x H). assert (R := right_left n s CS x H A).
  assert (Hn := Ng n s CS _ H1). assert (An : acts s (neg (left_of n s x)) = true) by now rewrite (acts_neg n s CS).
  destruct (M _ Hn An) as (_ & _ & _ & _ & E). unfold nextc in E at 1. rewrite neg_neg, R in E. destruct (M _ H1 A1) as (L1 & L2 & _ & N & _). rewrite N in E.
  unfold corner_of. destruct same; cbn [gof] in E.
  - unfold nextc in E. rewrite neg_neg in E. rewrite E. now apply (left_right m u CU).
  - unfold prevc in E. rewrite neg_neg in E. now symmetry.
Qed.
Lemma corner_map x : x < n -> acts s x = true -> corner_of n s same f x < m /\ acts u (corner_of n s same f x) = true /\
  (vv u (corner_of n s same f x) = papply a b c d (vv s x) /\ vv u (left_of m u (corner_of n s same f x)) = papply a b c d (vv s (left_of n s x)) \/
   vv u (corner_of n s same f x) = papply a b c d (vv s (left_of n s x)) /\ vv u (left_of m u (corner_of n s same f x)) = papply a b c d (vv s x)).
Proof.
  intros H A. rewrite (corner_next x H A). assert (H1 := left_of_lt n s CS x H). assert (A1 := left_of_act n s CS x H). destruct (M x H A) as (X1 & X2 & X3 & _). destruct (M _ H1 A1) as (Y1 & Y2 & Y3 & _).
  unfold corner_of. destruct same; auto.
Qed.
Lemma corner_surj y : y < m -> acts u y = true -> exists x, x < n /\ acts s x = true /\ corner_of n s same f x = y.
Proof.
  intros Hy Ay. destruct (Sj y Hy Ay) as (x & Hx & Ax & E). unfold corner_of. destruct same; [eauto|]. exists (right_of n s x). split; [now apply right_of_lt|]. split; [now apply right_of_act|]. now rewrite (left_right n s CS).
Qed.
Lemma papply_inj p q : papply a b c d p = papply a b c d q -> p = q.
Proof.
  destruct p as [p1 p2], q as [q1 q2]. unfold papply. cbn [fst snd]. intros E. injection E as E1 E2. f_equal; apply Rminus_diag_uniq; apply (Rmult_eq_reg_r (a * d - b * c)); auto; rewrite Rmult_0_l.
  - replace ((p1 - q1) * (a * d - b * c))%R with (d * ((a * p1 + b * p2) - (a * q1 + b * q2)) - b * ((c * p1 + d * p2) - (c * q1 + d * q2)))%R by ring. rewrite E1, E2. ring.
  - replace ((p2 - q2) * (a * d - b * c))%R with (a * ((c * p1 + d * p2) - (c * q1 + d * q2)) - c * ((a * p1 + b * p2) - (a * q1 + b * q2)))%R by ring. rewrite E1, E2. ring.
Qed.
Lemma side_map_injective : n = m -> forall x y, x < n -> y < n -> acts s x = true -> acts s y = true -> f x = f y -> x = y.
Proof.
  intros E x y Hx Hy Ax Ay Ef.
  assert (V : forall p q, p < n -> q < n -> acts s p = true -> acts s q = true -> f p = f q -> vv s p = vv s q).
  { intros p q Hp Hq Ap Aq Epq. apply papply_inj. destruct (M p Hp Ap) as (_ & _ & <- & _). destruct (M q Hq Aq) as (_ & _ & <- & _). now rewrite Epq. }
  assert (I := corner_map_injective n m s u a b c d CS CU D (corner_of n s same f) corner_map corner_surj E).
  assert (Lx := fun z => left_of_lt n s CS z). assert (La := fun z => left_of_act n s CS z). assert (Rx := fun z => right_of_lt n s CS z). assert (Ra := fun z => right_of_act n s CS z).
  assert (N := corner_next). unfold corner_of in *. destruct same.
  - apply I; auto. apply V; auto. rewrite <- !N by auto. now rewrite Ef.
  - assert (G : right_of n s x = right_of n s y); [|rewrite <- (left_right n s CS x), <- (left_right n s CS y), G by auto; reflexivity].
    assert (Q : f (left_of n s (right_of n s x)) = f (left_of n s (right_of n s y))) by now rewrite !(left_right n s CS).
    apply I; auto. apply V; auto. rewrite <- (N (right_of n s x)), <- (N (right_of n s y)) by auto. now rewrite Q.
Qed.
Lemma side_map_size : 0 < n -> (forall x y, x < n -> y < n -> acts s x = true -> acts s y = true -> f x = f y -> x = y) -> n = m.
Proof.
  intros Hn Inj. apply (corner_map_size n m s u a b c d CS CU D (corner_of n s same f) corner_map corner_surj Hn).
  intros x y Hx Hy Ax Ay. unfold corner_of. destruct same; [now apply Inj|]. intros E. apply Inj in E; try (now apply left_of_lt); try (now apply left_of_act). rewrite <- (right_left n s CS x), <- (right_left n s CS y), E by auto. reflexivity.
Qed.
End maps.

(** These maps are the isomorphisms of cells. *)
Lemma cell_isomorphism_side n m s u a b c d f : closed_flat n s -> closed_flat m u -> cell_isomorphism n m s u a b c d f ->
  (a * d - b * c <> 0)%R /\ (forall same, oriented_like same (a * d - b * c)%R -> side_map n m s u a b c d same f) /\ side_surj n m s u f /\ (forall x y, x < n -> y < n -> acts s x = true -> acts s y = true -> f x = f y -> x = y).
Proof.
  intros CS CU ((g & B1 & B2) & V & O).
  assert (C1 : forall x, x < n -> acts s x = true -> (f x < m /\ acts u (f x) = true) /\ g (f x) = x). { intros x H A. destruct (B1 x) as [P Q]; [now apply (side_act n s CS)|]. apply (side_act m u CU) in P. auto. }
  split; [destruct O as [[O _]|[O _]]; lra|]. split; [|split].
  - intros same Os x H A. destruct (C1 x H A) as [[P1 P2] P3]. split; auto. split; auto. destruct (V x) as [V1 V2]; [now apply (side_act n s CS)|]. split; auto. split; auto.
    assert (N : next_side n s x (nextc n s x)) by now apply (next_side_nextc n s CS).
    destruct same; cbn [oriented_like gof] in *; destruct O as [[O1 O2]|[O1 O2]]; try (exfalso; lra).
    + apply O2 in N. now apply (next_side_nextc m u CU) in N.
    + apply O2 in N. apply (next_side_nextc m u CU) in N as (N1 & N2 & N3). unfold nextc in N3 at 1. rewrite neg_neg in N3.
      assert (Hx := right_of_lt n s CS _ (Ng n s CS x H)). assert (Ha := right_of_act n s CS _ (Ng n s CS x H)). fold (nextc n s x) in Hx, Ha. destruct (C1 _ Hx Ha) as [[X1 X2] _].
      unfold prevc. rewrite N3. symmetry. now apply (left_right m u CU).
  - intros y Hy Ay. destruct (B2 y) as [P Q]; [now apply (side_act m u CU)|]. apply (side_act n s CS) in P as [P1 P2]. eauto.
  - intros x y Hx Hy Ax Ay E. destruct (C1 x Hx Ax) as [_ <-]. destruct (C1 y Hy Ay) as [_ <-]. now rewrite E.
Qed.
Lemma side_cell_isomorphism n s u a b c d same f : closed_flat n s -> closed_flat n u -> oriented_like same (a * d - b * c)%R -> side_map n n s u a b c d same f -> side_surj n n s u f -> cell_isomorphism n n s u a b c d f.
Proof.
  intros CS CU O M Sj. assert (D : (a * d - b * c <> 0)%R) by (destruct same; cbn in O; lra).
  assert (I := side_map_injective n n s u a b c d same f CS CU D M Sj eq_refl).
  split; [|split].
  - exists (fun y => match find (fun x => acts s x && (f x =? y)) (seq 0 n) with Some x => x | None => 0 end).
    assert (G : forall y, y < n -> acts u y = true -> exists x, find (fun x => acts s x && (f x =? y)) (seq 0 n) = Some x /\ x < n /\ acts s x = true /\ f x = y).
    { intros y Hy Ay. destruct (Sj y Hy Ay) as (x & Hx & Ax & Ex). destruct (find _ _) as [z|] eqn:Ez.
      - apply find_some in Ez as [Iz Ez]. apply in_seq in Iz. apply andb_true_iff in Ez as [Z1 Z2]. apply Nat.eqb_eq in Z2. exists z. repeat split; auto. lia.
      - apply find_none with (x := x) in Ez; [|apply in_seq; lia]. rewrite Ax, Ex, Nat.eqb_refl in Ez. discriminate. }
    split.
    + intros x Sx. apply (side_act n s CS) in Sx as [Hx Ax]. destruct (M x Hx Ax) as (P1 & P2 & _). split; [now apply (side_act n u CU)|]. destruct (G _ P1 P2) as (z & -> & Z1 & Z2 & Z3). now apply I.
    + intros y Sy. apply (side_act n u CU) in Sy as [Hy Ay]. destruct (G _ Hy Ay) as (z & -> & Z1 & Z2 & Z3). split; auto. now apply (side_act n s CS).
  - intros x Sx. apply (side_act n s CS) in Sx as [Hx Ax]. destruct (M x Hx Ax) as (_ & _ & P3 & P4 & _). auto.
  - assert (N : forall x y, next_side n s x y -> (x < n /\ acts s x = true) /\ (y < n /\ acts s y = true) /\ f y = gof (nextc n u) (prevc n u) same (f x)).
    { intros x y Hn. apply (next_side_nextc n s CS) in Hn as (Hx & Ax & ->). split; auto. split; [split; [apply (right_of_lt n s CS); now apply (Ng n s CS)|apply (right_of_act n s CS); now apply (Ng n s CS)]|]. now apply (M x Hx Ax). }
    destruct same; cbn [oriented_like gof] in *; [left|right]; split; auto; intros x y Hn; apply N in Hn as ([Hx Ax] & [Hy Ay] & E).
    + apply (next_side_nextc n u CU). destruct (M x Hx Ax) as (P1 & P2 & _). auto.
    + destruct (M x Hx Ax) as (P1 & P2 & _). destruct (M y Hy Ay) as (Q1 & Q2 & _). apply (next_side_nextc n u CU). split; [now apply (Ng n u CU)|]. split; [now rewrite (acts_neg n u CU)|].
      unfold nextc. rewrite neg_neg, E. unfold prevc. symmetry. apply (right_left n u CU); [now apply (Ng n u CU)|now rewrite (acts_neg n u CU)].
Qed.
Lemma cell_map_side n s u (m : K * K * K * K) fm same f : let '(a, b, c, d) := m in
  cell_map n s u (acts s) (acts u) (nextc n s) (gof (nextc n u) (prevc n u) same) m fm f <-> side_map n n s u (den a) (den b) (den c) (den d) same f /\ forall x, x < n -> acts s x = true -> fm x (f x) = true.
Proof.
  destruct m as [[[a b] c] d]. unfold cell_map, side_map, mapply. split.
  - intros H. split; intros x Hx Ax; destruct (H x Hx Ax) as (? & ? & ? & ? & ? & ?); auto 10.
  - intros [H F] x Hx Ax. destruct (H x Hx Ax) as (? & ? & ? & ? & ?). auto 10.
Qed.
Lemma cell_isomorphism_size n m s u a b c d f : closed_flat n s -> closed_flat m u -> 0 < n -> cell_isomorphism n m s u a b c d f -> n = m.
Proof.
  intros CS CU Hn G. destruct (cell_isomorphism_side n m s u a b c d f CS CU G) as (D & M & Sj & I).
  assert (O : oriented_like true (a * d - b * c)%R \/ oriented_like false (a * d - b * c)%R) by (cbn; lra).
  destruct O as [O|O]; exact (side_map_size n m s u a b c d _ f CS CU D (M _ O) Sj Hn I).
Qed.
Lemma some_side n s : closed_flat n s -> 0 < n -> exists x, x < n /\ acts s x = true.
Proof. intros CS H. exists (left_of n s 0). split; [now apply left_of_lt|now apply left_of_act]. Qed.
End cells.

(** For closed connected surfaces, an isomorphism is returned exactly if there is a bijection of the sides of the cells that both filters accept and that is induced by a matrix over the ring. *)
Theorem C66_cells : forall (K : ExactReal) truediv fuel filter_matrix filter_map n m (s u : flat K), n < fuel -> closed_connected n s -> closed_connected m u -> exact_division truediv -> by_value filter_matrix ->
  exists r, isomorphism truediv fuel DELAUNAY_CELLS filter_matrix filter_map s u = Ok r /\
    (r <> None <-> exists f (a b c d : K), cell_isomorphism n m s u (den a) (den b) (den c) (den d) f /\ filter_matrix a b c d = true /\ forall x, side n s x -> filter_map x (f x) = true).
Proof.
  intros K truediv fuel fmx fm n m s u F (CS & Ns & Ps) (CU & Nu & Pu) Hd Hv. destruct (Nat.eq_dec n m) as [<-|Nm].
  - destruct (isomorphism_ok truediv Hd fuel DELAUNAY_CELLS n s u (acts s) (acts u) (nextc n s) (prevc n s) (nextc n u) (prevc n u) fmx fm CS CU) as (r & E & H); auto.
    + now apply delaunay_cells.
    + now apply delaunay_cells.
    + now apply some_side.
    + exists r. split; auto. split.
      * intros N. destruct r as [i|]; [clear N|congruence]. destruct H as (same & Cl & Al & Ac & Or & f & Cm & Sj & _).
        assert (Q := cell_map_side n s u (is_matrix i) fm same f). destruct (is_matrix i) as [[[a b] c] d]. apply Q in Cm as [M A]. exists f, a, b, c, d. split; [now apply (side_cell_isomorphism n s u _ _ _ _ same)|]. split; auto.
        intros x Sx. apply (side_act n s CS) in Sx as [Hx Ax]. auto.
      * intros (f & a & b & c & d & G & A1 & A2) ->. destruct (cell_isomorphism_side n n s u _ _ _ _ f CS CU G) as (D & M & _).
        assert (O : oriented_like true (den a * den d - den b * den c)%R \/ oriented_like false (den a * den d - den b * den c)%R) by (cbn; lra).
        destruct O as [O|O]; apply (H _ (a, b, c, d) f A1 O); apply (cell_map_side n s u (a, b, c, d)); split; auto; intros x Hx Ax; apply A2; now apply (side_act n s CS).
  - exists None. split.
    + unfold isomorphism. destruct CS as [S1 S2], CU as [U1 U2]. destruct (closed_has_boundary n s S1 S2) as [-> _]. destruct (closed_has_boundary m u U1 U2) as [-> _]. cbn [bind eqb negb].
      unfold half_edges. rewrite !seq_length, (wf_size n (fT s)), (wf_size m (fT u)) by (apply S1 || apply U1). apply Nat.eqb_neq in Nm. now rewrite Nm.
    + split; [congruence|]. intros (f & a & b & c & d & G & _). exfalso. apply Nm. exact (cell_isomorphism_size n m s u _ _ _ _ f CS CU Ps G).
Qed.
Print Assumptions C66_cells.
(** The cells of the torus are unit squares.  They do not depend on the diagonal that is used, but the triangulations are not the same.
    After a flip of a side of the squares, the cells are triangles. *)
Definition diagonal_s : flat ExactZ := fst (fflip torus_s 4).
Lemma diagonal_flip : fflip torus_s 4 = (diagonal_s, Ok tt). Proof. apply flip_pair. vm_compute. reflexivity. Qed.
Lemma diagonal_cc : closed_connected 6 diagonal_s.
Proof. split; [apply (flip_closed 6 torus_s diagonal_s 4); [apply torus_cf|lia|apply diagonal_flip]|]. split; [apply (within_connected 6 diagonal_s 5); vm_compute; reflexivity|lia]. Qed.
Definition quarter_turn (a b c d : ExactZ) : bool := ((a =? 0) && (b =? -1) && (c =? 1) && (d =? 0))%Z.
Definition reflection (a b c d : ExactZ) : bool := ((a =? 0) && (b =? 1) && (c =? 1) && (d =? 0))%Z.
Example C66_cells_ex : closed_connected 6 torus_s /\ closed_connected 6 diagonal_s /\ closed_connected 6 twist1 /\ exact_division zdiv /\ by_value quarter_turn /\
  map (fun x => acts torus_s x) (seq 0 6) = [true; true; true; true; false; false] /\
  iso_data (isomorphism zdiv 10 DELAUNAY_CELLS only_identity any_map torus_s diagonal_s) = Ok (Some ((1, 0, 0, 1), (0, 0)%nat, [(1, 0); (-1, 0); (0, 1); (0, -1); (-1, -1); (1, 1)]))%Z /\
  iso_data (isomorphism zdiv 10 FACES only_identity any_map torus_s diagonal_s) = Ok None /\
  iso_data (isomorphism zdiv 10 DELAUNAY_CELLS quarter_turn any_map torus_s torus_s) = Ok (Some ((0, -1, 1, 0), (0, 2)%nat, [(0, 1); (0, -1); (-1, 0); (1, 0); (1, -1); (-1, 1)]))%Z /\
  iso_data (isomorphism zdiv 10 DELAUNAY_CELLS reflection any_map torus_s diagonal_s) = Ok (Some ((0, 1, 1, 0), (0, 2)%nat, [(0, 1); (0, -1); (1, 0); (-1, 0); (-1, -1); (1, 1)]))%Z /\
  iso_data (isomorphism zdiv 10 DELAUNAY_CELLS any_matrix any_map torus_s twist1) = Ok None.
Proof. split; [apply torus_cc|]. split; [apply diagonal_cc|]. split; [apply twist1_cc|]. split; [apply zdiv_exact|]. split; [apply by_value_Z|]. repeat split; vm_compute; reflexivity. Qed.

(** The image under the matrix that is returned has the cells of the other surface, and the half edges that are returned correspond to each other. *)
Theorem C66_cells_result : forall (K : ExactReal) truediv fuel filter_matrix filter_map n m (s u : flat K) i, n < fuel -> closed_connected n s -> closed_connected m u -> exact_division truediv -> by_value filter_matrix ->
  isomorphism truediv fuel DELAUNAY_CELLS filter_matrix filter_map s u = Ok (Some i) ->
  exists f a b c d, is_matrix i = (a, b, c, d) /\ filter_matrix a b c d = true /\ (forall x, side n s x -> filter_map x (f x) = true) /\
    closed_flat n (is_linear i) /\ affine_gluing n n s (is_linear i) (den a) (den b) (den c) (den d) (fun x => x) /\
    cell_isomorphism n m s u (den a) (den b) (den c) (den d) f /\ (forall x, side n s x -> vv u (f x) = vv (is_linear i) x) /\
    side n s (is_preimage i) /\ f (is_preimage i) = is_image i.
Proof.
  intros K truediv fuel fmx fm n m s u i F CCS CCU Hd Hv E.
  assert (Nm : n = m).
  { destruct (C66_cells K truediv fuel fmx fm n m s u F CCS CCU Hd Hv) as (r & Er & H). rewrite E in Er. injection Er as <-. destruct (proj1 H) as (f & a & b & c & d & G & _); [discriminate|]. destruct CCS as (CS & _ & Ps), CCU as (CU & _).
    exact (cell_isomorphism_size n m s u _ _ _ _ f CS CU Ps G). }
  subst m. destruct CCS as (CS & Ns & Ps), CCU as (CU & Nu & Pu).
  destruct (isomorphism_ok truediv Hd fuel DELAUNAY_CELLS n s u (acts s) (acts u) (nextc n s) (prevc n s) (nextc n u) (prevc n u) fmx fm CS CU) as (r & Er & H); auto.
  - now apply delaunay_cells.
  - now apply delaunay_cells.
  - now apply some_side.
  - rewrite E in Er. injection Er as <-. destruct H as (same & Cl & Al & Ac & Or & f & Cm & Sj & Lp & Ap & Ef).
    assert (Q := cell_map_side n s u (is_matrix i) fm same f). destruct (is_matrix i) as [[[a b] c] d]. apply Q in Cm as [M A]. exists f, a, b, c, d. split; auto. split; auto.
    split; [intros x Sx; apply (side_act n s CS) in Sx as [Hx Ax]; auto|]. split; auto. split; auto. split; [now apply (side_cell_isomorphism n s u _ _ _ _ same)|].
    split; [|split; auto; now apply (side_act n s CS)]. intros x Sx. apply (side_act n s CS) in Sx as [Hx Ax]. destruct (M x Hx Ax) as (_ & _ & V & _). destruct Al as [Va _]. now rewrite V, Va.
Qed.
Print Assumptions C66_cells_result.
Example C66_cells_result_ex : closed_connected 6 torus_s /\ closed_connected 6 diagonal_s /\
  (exists i, isomorphism zdiv 10 DELAUNAY_CELLS only_identity any_map torus_s diagonal_s = Ok (Some i)) /\ ~ side 6 torus_s 4 /\ side 6 torus_s 0 /\ next_side 6 torus_s 0 2.
Proof.
  split; [apply torus_cc|]. split; [apply diagonal_cc|]. split.
  - assert (H : forall x : outcome (option (isomorphism_result (K := ExactZ))), (exists z, iso_data x = Ok (Some z)) -> exists i, x = Ok (Some i)).
    { intros [[j|]| | |] (z & E); try discriminate. eauto. }
    apply H. eexists. vm_compute. reflexivity.
  - split; [rewrite (side_act 6 torus_s torus_cf); intros [_ A]; vm_compute in A; discriminate A|]. split; [apply (side_act 6 torus_s torus_cf); split; [lia|vm_compute; reflexivity]|].
    apply (next_side_nextc 6 torus_s torus_cf). split; [lia|]. split; vm_compute; reflexivity.
Qed.

(** ** The default arguments *)
Lemma only_identity_spec (K : ExactReal) (a b c d : K) : only_identity a b c d = true <-> (den a = 1 /\ den b = 0 /\ den c = 0 /\ den d = 1)%R.
Proof. unfold only_identity. rewrite !andb_true_iff, !reqb_spec, !den_ofZ. tauto. Qed.
Lemma only_identity_by_value (K : ExactReal) : by_value (only_identity (K := K)).
Proof.
  intros a b c d a' b' c' d' A B C D. assert (E : only_identity a b c d = true <-> only_identity a' b' c' d' = true) by (rewrite !only_identity_spec, A, B, C, D; tauto).
  destruct (only_identity a b c d), (only_identity a' b' c' d'); intuition congruence.
Qed.
(** With the default arguments, an isomorphism is returned exactly if the surfaces are the same up to a renaming of the half edges or of the sides of the cells. *)
Theorem C66_default : forall (K : ExactReal) truediv fuel n m (s u : flat K), n < fuel -> closed_connected n s -> closed_connected m u -> exact_division truediv ->
  (exists r, isomorphism truediv fuel FACES only_identity any_map s u = Ok r /\ (r <> None <-> exists f, affine_gluing n m s u 1 0 0 1 f)) /\
  (exists r, isomorphism truediv fuel DELAUNAY_CELLS only_identity any_map s u = Ok r /\ (r <> None <-> exists f, cell_isomorphism n m s u 1 0 0 1 f)).
Proof.
  intros K truediv fuel n m s u F CS CU Hd. assert (One : den (rofZ 1 : K) = 1%R) by apply den_ofZ. assert (Nil : den (rofZ 0 : K) = 0%R) by apply den_ofZ. split.
  - destruct (C66_faces K truediv fuel only_identity any_map n m s u F CS CU Hd (only_identity_by_value K)) as (r & E & H). exists r. split; auto. rewrite H. split.
    + intros (f & a & b & c & d & G & A & _). apply only_identity_spec in A as (A1 & A2 & A3 & A4). exists f. now rewrite A1, A2, A3, A4 in G.
    + intros (f & G). exists f, (rofZ 1), (rofZ 0), (rofZ 0), (rofZ 1). rewrite One, Nil. split; auto. split; auto. now apply only_identity_spec.
  - destruct (C66_cells K truediv fuel only_identity any_map n m s u F CS CU Hd (only_identity_by_value K)) as (r & E & H). exists r. split; auto. rewrite H. split.
    + intros (f & a & b & c & d & G & A & _). apply only_identity_spec in A as (A1 & A2 & A3 & A4). exists f. now rewrite A1, A2, A3, A4 in G.
    + intros (f & G). exists f, (rofZ 1), (rofZ 0), (rofZ 0), (rofZ 1). rewrite One, Nil. split; auto. split; auto. now apply only_identity_spec.
Qed.
Print Assumptions C66_default.
(** The square torus and the torus with the other diagonal have the same cells but not the same half edges. *)
Example C66_default_ex : closed_connected 6 torus_s /\ closed_connected 6 diagonal_s /\ exact_division zdiv /\
  iso_data (isomorphism zdiv 7 FACES only_identity any_map torus_s diagonal_s) = Ok None /\
  exists i, isomorphism zdiv 7 DELAUNAY_CELLS only_identity any_map torus_s diagonal_s = Ok (Some i).
Proof.
  split; [apply torus_cc|]. split; [apply diagonal_cc|]. split; [apply zdiv_exact|]. split; [vm_compute; reflexivity|].
  assert (E : iso_data (isomorphism zdiv 7 DELAUNAY_CELLS only_identity any_map torus_s diagonal_s) <> Ok None /\ (exists x, iso_data (isomorphism zdiv 7 DELAUNAY_CELLS only_identity any_map torus_s diagonal_s) = Ok x)).
  { split; [vm_compute; discriminate|]. eexists. vm_compute. reflexivity. }
  destruct E as [N (x & E)]. destruct (isomorphism zdiv 7 DELAUNAY_CELLS only_identity any_map torus_s diagonal_s) as [[i|]| | |]; [eauto|exfalso; now apply N|discriminate E|discriminate E|discriminate E].
Qed.
