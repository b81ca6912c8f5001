(** * C66: FlatTriangulation::isomorphism *)
From Coq Require Import ZArith Reals List Arith Bool Lia Lra.
From Verif Require Import Base HalfEdge HalfEdgeFacts Perm PermSpec PermFacts IndexedSet Combinatorial CombinatorialSpec CombinatorialFacts CombinatorialOps
  ExactReal Vector PlaneSpec Plane VectorFacts VectorProps FlatTri FlatSpec FlatFacts FlatSum FlatLinear FlatOps FlatAngle FlatProps FlatAngleProps SerializeProps CombinatorialProps PointProps
  PointSpec Linear LinearProps Deform DeformSpec DeformGood DeformProps Equivalence EquivalenceSpec EquivalenceFacts EquivalenceCode EquivalenceProps EquivalenceLinearProps Isomorphism IsomorphismSpec IsomorphismFacts IsomorphismFaces.
Import ListNotations.
Local Open Scope nat_scope.

Section faces.
Context {K : ExactReal}.
Implicit Types s u : flat K.

(** All half edges of a connected surface. *)
Lemma faces_cells n s fuel : 0 < fuel -> closed_connected n s -> cells fuel FACES n s (fun _ => true) (fF s) (fun x => fV s (neg x)).
Proof.
  intros F ([S C] & N & _). assert (W := fs_wf n s S). assert (Ng := neg_ltn n _ W). assert (L := fun x => fF_lt n s x S). assert (CS : closed_flat n s) by (split; auto).
  assert (E : forall x, x < n -> fV s (neg x) = neg (fF s (fF s (neg x)))) by (intros x H; apply (fV_eq n s); auto).
  constructor.
  - intros x H. reflexivity.
  - reflexivity.
  - intros x H _. split; auto. split; auto. unfold next_in_cell. destruct fuel as [|k]; [lia|]. cbn [turn_ignoring]. rewrite (prevV_Ok n) by auto. cbn [bind ignore]. now rewrite (pV_closed n s (neg x) CS), neg_neg by auto.
  - intros x H _. split; [apply (fV_lt n s); auto|]. split; auto. unfold next_in_image_cell. destruct fuel as [|k]; [lia|]. cbn [turn_ignoring]. rewrite (nextV_Ok n) by auto. reflexivity.
  - intros x H _. split; [apply (fs_flat n s S x H); auto|]. assert (D := corner_det n s (neg x) S). rewrite (fs_odd n s S x H) in D. unfold pdet, pneg in *. cbn [fst snd] in D. specialize (D (Ng x H) (C _ (Ng x H))). lra.
  - intros P (x & [H _] & Px) Hc y [Hy _]. apply (N P); eauto.
  - intros P (x & [H _] & Px) Hc y [Hy _].
    assert (Q : forall z, z < n -> P z -> P (fF s (fF s z))). { intros z Hz Pz. destruct (Hc z (conj Hz eq_refl) Pz) as [P1 _]. destruct (Hc (neg z) (conj (Ng z Hz) eq_refl) P1) as [_ P2]. rewrite E, neg_neg in P2 by auto. apply Hc in P2; [|split; auto]. destruct P2 as [P2 _]. now rewrite neg_neg in P2. }
    apply (N P); eauto. intros z Hz Pz. split; [now apply (Hc z (conj Hz eq_refl))|]. assert (P1 := Q z Hz Pz). apply Q in P1; auto. now rewrite (fF3 n s z S Hz) in P1.
Qed.
Lemma surj_bijection n f : (forall x, x < n -> f x < n) -> (forall y, y < n -> exists x, x < n /\ f x = y) -> exists g, bijection n f g.
Proof.
  intros L Sj.
  assert (G : exists g, forall y, y < n -> g y < n /\ f (g y) = y).
  { exists (fun y => match find (fun x => f x =? y) (seq 0 n) with Some x => x | None => 0 end). intros y Hy. destruct (Sj y Hy) as (x & Hx & E). destruct (find _ _) as [z|] eqn:Ez.
    - apply find_some in Ez as [I Ez]. apply in_seq in I. apply Nat.eqb_eq in Ez. split; auto. lia.
    - apply find_none with (x := x) in Ez; [|apply in_seq; lia]. apply Nat.eqb_neq in Ez. congruence. }
  destruct G as (g & G). destruct (inj_bijection n g) as (k & B1 & B2).
  - intros y Hy. now apply G.
  - intros x y Hx Hy E. destruct (G x Hx) as [_ <-]. destruct (G y Hy) as [_ <-]. now f_equal.
  - exists g. split; auto. intros x Hx. split; auto. assert (Q : f x = k x). { destruct (B2 x Hx) as [H1 H2]. rewrite <- H2 at 1. destruct (G (k x) H1). auto. }
    rewrite Q. destruct (B2 x Hx) as [_ E]. exact E.
Qed.
Lemma gluing_cell_map n s u (m : K * K * K * K) fm (f : nat -> nat) (same : bool) : closed_flat n s -> closed_flat n u -> oriented_like same (mdet4 m) ->
  ((forall y, y < n -> exists x, x < n /\ f x = y) /\ cell_map n s u (fun _ => true) (fun _ => true) (fF s) (gof (fF u) (fun x => fV u (neg x)) same) m fm f) <->
  (let '(a, b, c, d) := m in affine_gluing n n s u (den a) (den b) (den c) (den d) f) /\ forall x, x < n -> fm x (f x) = true.
Proof.
  intros S U O. destruct m as [[[a b] c] d]. cbn [mdet4] in O. assert (Nu := neg_ltn n _ (fs_wf n u (proj1 U))). split.
  - intros [Sj M]. assert (L : forall x, x < n -> f x < n) by (intros x H; now apply (M x H)). assert (E : edge_bijection n n f). { split; [destruct (surj_bijection n f L Sj) as (g & B); exists g; exact B|]. intros x H. now apply (M x H). }
    split; [|intros x H; now apply (M x H)]. split; [intros x H; now apply (M x H)|]. destruct same; cbn [oriented_like gof] in *.
    + left. split; auto. split; auto. intros x H. now apply (M x H).
    + right. split; auto. split; auto. apply (mirror_faces n s u f S U E). intros x H. destruct (M x H eq_refl) as (_ & _ & _ & _ & _ & Q). rewrite Q. apply (fV_eq n u); [apply U|auto|]. apply (proj2 U). auto.
  - intros [[V G] A].
    assert (E : edge_bijection n n f) by (destruct G as [[_ G]|[_ G]]; apply G).
    assert (L : forall x, x < n -> f x < n) by (intros x H; now apply (edge_bijection_lt n n)).
    split; [destruct E as ((g & _ & B) & _); intros y H; exists (g y); now apply B|].
    intros x H _. split; auto. split; auto. split; auto. split; [now apply V|]. split; [now apply E|]. destruct same; cbn [oriented_like gof] in *; destruct G as [[D G]|[D G]]; try (exfalso; lra).
    + now apply G.
    + destruct G as [_ G]. rewrite (mirror_faces n s u f S U E) in G. rewrite G by auto. symmetry. apply (fV_eq n u); [apply U|auto|]. apply (proj2 U). auto.
Qed.
End faces.

(** ** All half edges *)
(** For closed connected surfaces, an isomorphism is returned exactly if there is a bijection of the half edges that both filters accept and that is induced by a matrix over the ring. *)
Theorem C66_faces : forall (K : ExactReal) truediv fuel filter_matrix filter_map n m (s u : flat K), n < fuel -> closed_connected n s -> closed_connected m u -> exact_division truediv -> by_value filter_matrix ->
  exists r, isomorphism truediv fuel FACES filter_matrix filter_map s u = Ok r /\
    (r <> None <-> exists f (a b c d : K), affine_gluing n m s u (den a) (den b) (den c) (den d) f /\ filter_matrix a b c d = true /\ forall x, x < n -> filter_map x (f x) = true).
Proof.
  intros K truediv fuel fmx fm n m s u F CS CU Hd Hv. destruct (Nat.eq_dec n m) as [<-|Nm].
  - destruct (isomorphism_ok truediv Hd fuel FACES n s u (fun _ => true) (fun _ => true) (fF s) (fun x => fV s (neg x)) (fF u) (fun x => fV u (neg x)) fmx fm (proj1 CS) (proj1 CU)) as (r & E & H); auto.
    + apply faces_cells; auto; lia.
    + apply faces_cells; auto; lia.
    + exists 0. split; auto. apply CS.
    + exists r. split; auto. split.
      * intros N. destruct r as [i|]; [clear N|congruence]. destruct H as (same & Cl & Al & Ac & Or & f & Cm & Sj & _).
        destruct (proj1 (gluing_cell_map n s u (is_matrix i) fm f same (proj1 CS) (proj1 CU) Or)) as [G1 G2]; [split; auto; intros y Hy; destruct (Sj y Hy eq_refl) as (x & ? & _ & ?); eauto|].
        destruct (is_matrix i) as [[[a b] c] d]. exists f, a, b, c, d. auto.
      * intros (f & a & b & c & d & G & A1 & A2) ->. 
        assert (O : oriented_like true (den a * den d - den b * den c)%R \/ oriented_like false (den a * den d - den b * den c)%R) by (cbn; destruct (proj2 G) as [[D _]|[D _]]; auto).
        destruct O as [O|O]; eapply (H _ (a, b, c, d) f A1 O); apply gluing_cell_map; auto; try apply CS; try apply CU.
  - exists None. split.
    + unfold isomorphism. destruct CS as ([S1 S2] & _), CU as ([U1 U2] & _). destruct (closed_has_boundary n s S1 S2) as [-> _]. destruct (closed_has_boundary m u U1 U2) as [-> _]. cbn [bind eqb negb].
      unfold half_edges. rewrite !seq_length, (wf_size n (fT s)), (wf_size m (fT u)) by (apply S1 || apply U1). apply Nat.eqb_neq in Nm. now rewrite Nm.
    + split; [congruence|]. intros (f & a & b & c & d & G & _). exfalso. apply Nm. destruct (proj2 G) as [[_ G']|[_ G']]; exact (edge_bijection_size n m f (proj1 G')).
Qed.
Print Assumptions C66_faces.
(** The torus has six affine automorphisms that keep the orientation, one of them rotates by half a turn; only the identity has the identity matrix.  The torus and the torus after a flip differ by a shear. *)
Definition minus_identity (a b c d : ExactZ) : bool := ((a =? -1) && (b =? 0) && (c =? 0) && (d =? -1))%Z.
Definition any_matrix {K : ExactReal} (a b c d : K) : bool := true.
Definition iso_data (x : outcome (option (isomorphism_result (K := ExactZ)))) : outcome (option ((Z * Z * Z * Z) * (nat * nat) * list (Z * Z))) :=
  match x with Ok (Some i) => Ok (Some (is_matrix i, (is_preimage i, is_image i), map (fun v : vec ExactZ => (vx v, vy v)) (fvec (is_linear i)))) | Ok None => Ok None | Throw => Throw | UB => UB | OutOfFuel => OutOfFuel end.
Lemma by_value_Z (f : ExactZ -> ExactZ -> ExactZ -> ExactZ -> bool) : by_value f.
Proof. intros a b c d a' b' c' d' A B C D. apply eq_IZR in A, B, C, D. congruence. Qed.
Example C66_faces_ex : closed_connected 6 torus_s /\ closed_connected 6 twist1 /\ closed_connected 18 L_s /\ exact_division zdiv /\ by_value minus_identity /\
  iso_data (isomorphism zdiv 10 FACES only_identity any_map torus_s torus_s) = Ok (Some ((1, 0, 0, 1), (0, 0)%nat, [(1, 0); (-1, 0); (0, 1); (0, -1); (-1, -1); (1, 1)]))%Z /\
  iso_data (isomorphism zdiv 10 FACES minus_identity any_map torus_s torus_s) = Ok (Some ((-1, 0, 0, -1), (0, 1)%nat, [(-1, 0); (1, 0); (0, -1); (0, 1); (1, 1); (-1, -1)]))%Z /\
  iso_data (isomorphism zdiv 10 FACES only_identity any_map torus_s twist1) = Ok None /\
  iso_data (isomorphism zdiv 10 FACES any_matrix (fun x y => negb (x =? y)) torus_s torus_s) = Ok (Some ((-1, 0, 0, -1), (0, 1)%nat, [(-1, 0); (1, 0); (0, -1); (0, 1); (1, 1); (-1, -1)]))%Z /\
  iso_data (isomorphism zdiv 10 FACES any_matrix any_map torus_s L_s) = Ok None.
Proof. split; [apply torus_cc|]. split; [apply twist1_cc|]. split; [apply L_cc|]. split; [apply zdiv_exact|]. split; [apply by_value_Z|]. repeat split; vm_compute; reflexivity. Qed.

(** The image under the matrix that is returned is the other surface up to a relabeling, and the half edges that are returned correspond to each other. *)
Theorem C66_result : forall (K : ExactReal) truediv fuel filter_matrix filter_map n m (s u : flat K) i, n < fuel -> closed_connected n s -> closed_connected m u -> exact_division truediv -> by_value filter_matrix ->
  isomorphism truediv fuel FACES filter_matrix filter_map s u = Ok (Some i) ->
  exists f a b c d, is_matrix i = (a, b, c, d) /\ filter_matrix a b c d = true /\ (forall x, x < n -> filter_map x (f x) = true) /\
    closed_flat n (is_linear i) /\ affine_gluing n n s (is_linear i) (den a) (den b) (den c) (den d) (fun x => x) /\
    same_gluing n m (is_linear i) u f /\ (forall x, x < n -> vv u (f x) = vv (is_linear i) x) /\
    is_preimage i < n /\ f (is_preimage i) = is_image i.
Proof.
  intros K truediv fuel fmx fm n m s u i F CS CU Hd Hv E.
  assert (Nm : n = m).
  { destruct (C66_faces K truediv fuel fmx fm n m s u F CS CU Hd Hv) as (r & Er & H). rewrite E in Er. injection Er as <-. destruct (proj1 H) as (f & a & b & c & d & G & _); [discriminate|].
    destruct (proj2 G) as [[_ G']|[_ G']]; exact (edge_bijection_size n m f (proj1 G')). }
  subst m. destruct (isomorphism_ok truediv Hd fuel FACES n s u (fun _ => true) (fun _ => true) (fF s) (fun x => fV s (neg x)) (fF u) (fun x => fV u (neg x)) fmx fm (proj1 CS) (proj1 CU)) as (r & Er & H); auto.
  - apply faces_cells; auto; lia.
  - apply faces_cells; auto; lia.
  - exists 0. split; auto. apply CS.
  - rewrite E in Er. injection Er as <-. destruct H as (same & Cl & Al & Ac & Or & f & Cm & Sj & Lp & _ & Ef).
    destruct (proj1 (gluing_cell_map n s u (is_matrix i) fm f same (proj1 CS) (proj1 CU) Or)) as [G1 G2]; [split; auto; intros y Hy; destruct (Sj y Hy eq_refl) as (x & ? & _ & ?); eauto|].
    destruct (is_matrix i) as [[[a b] c] d]. exists f, a, b, c, d. do 5 (split; [auto|]). set (l := is_linear i) in *. clearbody l.
    destruct G1 as [V G], Al as [Vl Gl]. split; [|split; [|split; auto]].
    + destruct G as [[D [Eb G]]|[D [Eb G]]], Gl as [[Dl [El Gl]]|[Dl [El Gl]]]; try (exfalso; lra).
      * split; auto. intros x Hx. rewrite <- Gl by auto. now apply G.
      * split; auto. destruct CS as ([S1 S2] & _), CU as ([U1 U2] & _), Cl as [L1 L2].
        assert (Q : forall y, y < n -> fV u (f y) = f (fV l y)).
        { intros y Hy. destruct (bijV n s S1) as [B1 B2]. destruct (B2 y Hy) as [Hp Ep]. rewrite <- Ep. rewrite G by auto. now rewrite Gl. }
        assert (Nl := neg_ltn n _ (fs_wf n l L1)). assert (Fl := fun x => fF_lt n l x L1). assert (Fu := fun x => fF_lt n u x U1). assert (Lf := fun x => edge_bijection_lt n n f x Eb).
        assert (T : forall y, y < n -> f (fF l (fF l y)) = fF u (fF u (f y))).
        { intros y Hy. assert (H := Q y Hy). rewrite (fV_eq n u), (fV_eq n l) in H by auto. rewrite (proj2 Eb) in H by auto. apply neg_inj in H. auto. }
        intros x Hx. rewrite <- (fF3 n l (fF l x)) by auto. rewrite T, T by auto. now rewrite (fF3 n u) by auto.
    + intros x Hx. rewrite V, Vl by auto. reflexivity.
Qed.
Print Assumptions C66_result.
Example C66_result_ex : closed_connected 6 torus_s /\ closed_connected 6 twist1 /\
  iso_data (isomorphism zdiv 10 FACES any_matrix (fun x y => negb (x =? y)) torus_s twist1) = Ok (Some ((-1, 1, -2, 1), (0, 1)%nat, [(-1, -2); (1, 2); (1, 1); (-1, -1); (0, 1); (0, -1)]))%Z /\
  iso_data (isomorphism zdiv 10 FACES (fun a b c d : ExactZ => (a =? 1) && (b =? 0) && (c =? 0) && (d =? -1))%Z any_map torus_s mirrored_torus) = Ok (Some ((1, 0, 0, -1), (0, 1)%nat, [(1, 0); (-1, 0); (0, -1); (0, 1); (-1, 1); (1, -1)]))%Z.
Proof. split; [apply torus_cc|]. split; [apply twist1_cc|]. split; vm_compute; reflexivity. Qed.

(** ** Surfaces with boundary *)
Theorem C66_boundary : forall (K : ExactReal) truediv fuel kind filter_matrix filter_map n m (s u : flat K), flat_surface n s -> flat_surface m u ->
  let open k v := exists e, e < k /\ fF (v : flat K) e = e in
  (closed_surface n s -> open m u -> isomorphism truediv fuel kind filter_matrix filter_map s u = Ok None) /\
  (open n s -> closed_surface m u -> isomorphism truediv fuel kind filter_matrix filter_map s u = Ok None) /\
  (open n s -> open m u -> isomorphism truediv fuel kind filter_matrix filter_map s u = if n =? m then Throw else Ok None).
Proof.
  intros K truediv fuel kind fmx fm n m s u S U open. unfold isomorphism.
  destruct (has_boundary_Ok n (fT s) (fs_wf n s S)) as (bs & -> & Bs). destruct (has_boundary_Ok m (fT u) (fs_wf m u U)) as (bu & -> & Bu). cbn [bind].
  unfold half_edges. rewrite !seq_length, (wf_size n (fT s)), (wf_size m (fT u)) by (apply S || apply U).
  assert (Cs : closed_surface n s -> bs = false). { intros C. destruct bs; auto. destruct (proj1 Bs eq_refl) as (e & He & E). exfalso. now apply (C e He). }
  assert (Cu : closed_surface m u -> bu = false). { intros C. destruct bu; auto. destruct (proj1 Bu eq_refl) as (e & He & E). exfalso. now apply (C e He). }
  split; [|split].
  - intros C O. apply Bu in O as ->. now rewrite (Cs C).
  - intros O C. apply Bs in O as ->. now rewrite (Cu C).
  - intros O O'. apply Bs in O as ->. apply Bu in O' as ->. cbn [eqb negb]. now destruct (n =? m).
Qed.
Print Assumptions C66_boundary.
Example C66_boundary_ex : flat_surface 6 triangle_s /\ (exists e, e < 6 /\ fF triangle_s e = e) /\ flat_surface 6 torus_s /\ closed_surface 6 torus_s /\
  iso_data (isomorphism zdiv 10 FACES only_identity any_map triangle_s triangle_s) = Throw /\ iso_data (isomorphism zdiv 10 FACES only_identity any_map triangle_s torus_s) = Ok None.
Proof. split; [apply triangle_flat|]. split; [exists 1; split; [lia|reflexivity]|]. split; [apply torus_cf|]. split; [apply torus_cf|]. split; vm_compute; reflexivity. Qed.

(** ** Surfaces with several components *)
Definition pair_t : tri := Eval vm_compute in match make_from_cycles [[0; 5; 2; 1; 4; 3]; [6; 11; 8; 7; 10; 9]] [] with Ok t => t | _ => torus_t end.
Definition tori_s : flat ExactZ := mkFlat pair_t [zv 1 0; zv (-1) 0; zv 0 1; zv 0 (-1); zv (-1) (-1); zv 1 1; zv 1 0; zv (-1) 0; zv 0 1; zv 0 (-1); zv (-1) (-1); zv 1 1].
Definition unequal_s : flat ExactZ := mkFlat pair_t [zv 1 0; zv (-1) 0; zv 0 1; zv 0 (-1); zv (-1) (-1); zv 1 1; zv 3 0; zv (-3) 0; zv 0 3; zv 0 (-3); zv (-3) (-3); zv 3 3].
Lemma pair_wf : well_formed 12 pair_t.
Proof. exact (proj1 (C07_construction_cycles [[0; 5; 2; 1; 4; 3]; [6; 11; 8; 7; 10; 9]] [] pair_t eq_refl)). Qed.
Lemma tori_cf : closed_flat 12 tori_s.
Proof.
  split; [split; [apply pair_wf|reflexivity| |]|].
  - intros e He. do 12 (destruct e as [|e]; [unfold vv; cbn; unfold pneg, vden; cbn; f_equal; lra|]). lia.
  - intros e He _. do 12 (destruct e as [|e]; [unfold vv; cbn; unfold padd, pdet, vden; cbn; split; [f_equal; lra|lra]|]). lia.
  - intros e He. do 12 (destruct e as [|e]; [discriminate|]). lia.
Qed.
Lemma unequal_cf : closed_flat 12 unequal_s.
Proof.
  split; [split; [apply pair_wf|reflexivity| |]|].
  - intros e He. do 12 (destruct e as [|e]; [unfold vv; cbn; unfold pneg, vden; cbn; f_equal; lra|]). lia.
  - intros e He _. do 12 (destruct e as [|e]; [unfold vv; cbn; unfold padd, pdet, vden; cbn; split; [f_equal; lra|lra]|]). lia.
  - intros e He. do 12 (destruct e as [|e]; [discriminate|]). lia.
Qed.
(** Only one component is explored: two unit tori are found to be isomorphic to a unit torus and a torus with sides of length 3, by the identity matrix. *)
Theorem C66_disconnected_refuted : exists (s u : flat ExactZ) i, closed_flat 12 s /\ closed_flat 12 u /\ isomorphism zdiv 20 FACES only_identity any_map s u = Ok (Some i) /\
  ~ exists f, edge_bijection 12 12 f /\ forall x, x < 12 -> vv u (f x) = vv s x.
Proof.
  set (i := match isomorphism zdiv 20 FACES only_identity any_map tori_s unequal_s with Ok (Some i) => i | _ => mkIso (iz 0, iz 0, iz 0, iz 0) tori_s 0 0 end).
  exists tori_s, unequal_s, i. split; [apply tori_cf|]. split; [apply unequal_cf|]. split.
  - assert (H : forall x : outcome (option (isomorphism_result (K := ExactZ))), (exists z, iso_data x = Ok (Some z)) -> x = Ok (Some (match x with Ok (Some i) => i | _ => mkIso (iz 0, iz 0, iz 0, iz 0) tori_s 0 0 end))).
    { intros [[j|]| | |] (z & E); try discriminate. reflexivity. }
    apply H. eexists. vm_compute. reflexivity.
  - intros (f & E & V).
    assert (Q : forall y, y < 12 -> vv unequal_s y = (1, 0)%R -> y = 0).
    { intros y Hy. do 12 (destruct y as [|y]; [unfold vv; cbn; unfold vden; cbn; intros X; first [reflexivity|exfalso; assert (X1 := f_equal fst X); assert (X2 := f_equal snd X); cbn in X1, X2; lra]|]). lia. }
    assert (F0 : f 0 = 0). { apply Q; [apply (edge_bijection_lt 12 12 f 0 E); lia|]. rewrite V by lia. reflexivity. }
    assert (F6 : f 6 = 0). { apply Q; [apply (edge_bijection_lt 12 12 f 6 E); lia|]. rewrite V by lia. reflexivity. }
    assert (X : 0 = 6) by (apply (edge_bijection_inj 12 12 f 0 6 E); lia). discriminate.
Qed.
Print Assumptions C66_disconnected_refuted.
