(** * C63, C64, C65: equivalences of surfaces up to linear maps *)
From Coq Require Import ZArith QArith Qreals Reals List Arith Bool Lia Lra Permutation.
From Verif Require Import Base HalfEdge HalfEdgeFacts Perm PermSpec PermFacts IndexedSet Combinatorial CombinatorialSpec CombinatorialFacts CombinatorialOps
  ExactReal Vector PlaneSpec Plane VectorFacts VectorProps FlatTri FlatSpec FlatFacts FlatSum FlatLinear FlatOps FlatAngle FlatAngleProps FlatProps
  Point PointSpec PointProps Linear LinearProps SearchProps Saddle Deform DeformSpec DeformFacts DeformPath DeformGood DeformActs DeformCompose DeformProps DeformPathProps
  Equivalence EquivalenceWalk EquivalenceSame EquivalenceWord EquivalenceSpec EquivalenceFacts EquivalenceNormal EquivalenceCode EquivalenceCount EquivalenceLinear EquivalenceFrame EquivalenceMaps EquivalenceLinearIso EquivalenceLinearCode EquivalenceProps.
Import ListNotations.
Local Open Scope nat_scope.

Section lemmas.
Context {K : ExactReal}.
Implicit Types s u : flat K.
Lemma liso_codomain g b n s u u' f : closed_flat n s -> same_surface n u u' -> liso g b n n s u f -> liso g b n n s u' f.
Proof.
  intros S E (G & a & b' & c & d & V & I & D). assert (L := fun x => edge_bijection_lt n n f x (gluing_edges _ _ _ _ _ _ G)). split.
  - destruct b; cbn [gluing] in *; destruct G as [B G]; split; auto; intros x Hx; specialize (G x Hx).
    + destruct (E _ (L _ (fV_lt n s x (proj1 S) Hx))) as (_ & -> & _). exact G.
    + destruct (E _ (L x Hx)) as (-> & _). exact G.
  - exists a, b', c, d. split; auto. intros x Hx. destruct (E _ (L x Hx)) as (_ & _ & ->). auto.
Qed.
Lemma start_allowed oriented n x : In x (starts oriented n) -> allowed oriented (negb (snd x =? 1)%Z).
Proof. destruct x as [h o]. intros I E. apply in_starts in I as [_ [-> |[-> _]]]; auto. discriminate. Qed.
(** The isomorphism of two walkers with the same word is the way to the normal form and back. *)
Lemma through_normal n s u oriented Ms Mu x y : closed_connected n s -> closed_connected n u -> In x (starts oriented n) -> In y (starts oriented n) -> same_words n n s u Ms Mu x y ->
  forall z, z < n -> cJ n n s u x y z < n /\ lbl (clist n u y) (cJ n n s u x y z) = lbl (clist n s x) z.
Proof.
  intros CS CU Hx Hy W z Hz. destruct (words_vectors n n s u Ms Mu oriented x y CS CU Hx Hy W) as (_ & f & G & Ef & El & J & _). rewrite J by auto. assert (E := gluing_edges _ _ _ _ _ _ G).
  destruct (starts_sign _ _ _ Hx) as [Lx Ox]. pose proof CS as (S & Cs & P). assert (C : complete n (clist n s x)) by (now apply walk_complete). pose proof E as [_ Fn].
  split; [now apply (edge_bijection_lt n n f)|]. rewrite El. apply (lbl_map n); auto; [intros; now apply (edge_bijection_inj n n f)|apply (neg_ltn n _ (fs_wf n s (proj1 S)))|apply (lo_lt n _ (cp_ok n _ C))].
Qed.
(** If the normal form is the surface itself, then a walker changes nothing. *)
Lemma walker_home g n s u oriented Ms Mu x y w : closed_connected n s -> closed_connected n u -> framing g oriented n u Mu -> closed_flat n w -> same_surface n w u -> In x (starts oriented n) -> In y (starts oriented n) ->
  same_words n n s u Ms Mu x y -> nform n u y (Mu y) w ->
  exists y', In y' (starts oriented n) /\ same_words n n u u Mu Mu y y' /\ forall x', In x' (starts oriented n) -> same_words n n s u Ms Mu x' y -> forall z, z < n -> cJ n n s u x' y' z = lbl (clist n s x') z.
Proof.
  intros CS CU FU Wf E Hx Hy W N. assert (I := normal_iso g n u y (Mu y) w oriented Mu CU Wf Hy FU eq_refl N). apply (liso_codomain g _ n u w u _ (proj1 CU) E) in I.
  set (b := negb (snd y =? 1)%Z) in *. set (k := lbl (clist n u y)) in *. exists (k (fst y), turn b (snd y)).
  assert (H1 : In (k (fst y), turn b (snd y)) (starts oriented n)).
  { apply in_starts. destruct (starts_sign _ _ _ Hy) as [Ly Oy]. split; [apply (edge_bijection_lt n n k); auto; apply (gluing_edges b n n u u k), I|]. left. unfold b. destruct Oy as [-> | ->]; reflexivity. }
  split; auto. assert (W1 : same_words n n u u Mu Mu y (k (fst y), turn b (snd y))) by (now apply (l_iso_same g n n u u oriented)). split; auto.
  intros x' Hx' W' z Hz. assert (W2 : same_words n n s u Ms Mu x' (k (fst y), turn b (snd y))) by (unfold same_words in *; congruence).
  assert (T := through_normal n s u oriented Ms Mu x' y CS CU Hx' Hy W' z Hz).
  destruct (words_vectors n n s u Ms Mu oriented x' y CS CU Hx' Hy W') as (_ & f & G & Ef & El & J & _).
  destruct (iso_word n u u oriented b k y CU CU Hy (proj1 I)) as [_ Ek]. unfold cJ. rewrite Ek, El, map_map. destruct (starts_sign _ _ _ Hx') as [Lx Ox]. pose proof CS as (S & Cs & P).
  assert (C : complete n (clist n s x')) by (now apply walk_complete). assert (Eg := gluing_edges _ _ _ _ _ _ G). assert (Ei := gluing_edges _ _ _ _ _ _ (proj1 I)).
  rewrite (match_map n (clist n s x') (fun z => k (f z))); auto.
  - rewrite <- J by auto. apply T.
  - intros t Ht. destruct Eg as [B Fn], Ei as [B' Fn']. rewrite Fn by auto. apply Fn'. apply (edge_bijection_lt n n f); auto. split; auto.
Qed.
(** Walkers with the same normal form have the same word. *)
Lemma normal_words n s u oriented Ms Mu x y w w' : closed_connected n s -> closed_connected n u -> closed_flat n w -> In x (starts oriented n) -> In y (starts oriented n) -> nform n s x (Ms x) w -> nform n u y (Mu y) w' -> same_surface n w w' ->
  same_words n n s u Ms Mu x y.
Proof.
  intros CS CU Cw Hx Hy Nx Ny E. destruct (starts_sign _ _ _ Hx) as [Lx Ox]. destruct (starts_sign _ _ _ Hy) as [Ly Oy]. pose proof CS as (S & Cs & _). pose proof CU as (U & Cu & _).
  assert (C : complete n (clist n s x)) by (now apply walk_complete). assert (D : complete n (clist n u y)) by (now apply walk_complete).
  set (k := fun z => unlbl (clist n u y) (lbl (clist n s x) z)). assert (Lk : forall z, z < n -> k z < n) by (intros z Hz; apply (unlbl_lt n _ D); now apply (lbl_lt n _ C)).
  assert (Kl : forall z, z < n -> lbl (clist n u y) (k z) = lbl (clist n s x) z) by (intros z Hz; apply (lbl_unlbl n _ D); now apply (lbl_lt n _ C)).
  assert (Kn : forall z, z < n -> k (neg z) = neg (k z)).
  { intros z Hz. assert (Nz := neg_ltn n _ (fs_wf n s (proj1 S)) z Hz). assert (Nk := neg_ltn n _ (fs_wf n s (proj1 S)) _ (Lk z Hz)). apply (lbl_inj n _ D); auto. rewrite Kl by auto. rewrite (lbl_neg n _ D) by auto. rewrite Kl by auto. now apply (lbl_neg n _ C). }
  assert (Nv : forall z, z < n -> mpt (Ms x) (vv s z) = mpt (Mu y) (vv u (k z))).
  { intros z Hz. assert (Lz := lbl_lt n _ C z Hz). destruct (Ms x) as [[[a b] c] d], (Mu y) as [[[a' b'] c'] d']. cbn [mpt]. rewrite <- (nm_vec _ _ _ _ _ _ _ _ _ Nx) by auto. rewrite <- (nm_vec _ _ _ _ _ _ _ _ _ Ny) by auto. rewrite Kl by auto. destruct (E _ Lz) as (_ & _ & ->). auto. }
  assert (Gs := fun z => tg_lt n _ (gF_triangles n s (snd x) S) z). assert (Gu := fun z => tg_lt n _ (gF_triangles n u (snd y) U) z).
  assert (T : triangle_map n (gF s (snd x)) n (gF u (snd y)) k).
  { constructor; auto.
    - intros z t Hz Ht Q. apply (lbl_inj n _ C); auto. rewrite <- !Kl by auto. now rewrite Q.
    - intros z Hz. assert (Lz := lbl_lt n _ C z Hz). apply (lbl_inj n _ D); auto. rewrite Kl by auto. destruct (Ms x) as [[[a b] c] d], (Mu y) as [[[a' b'] c'] d']. rewrite <- (nm_face _ _ _ _ _ _ _ _ _ Nx) by auto. rewrite <- (nm_face _ _ _ _ _ _ _ _ _ Ny) by auto.
      rewrite Kl by auto. destruct (E _ Lz) as (-> & _). auto. }
  assert (Ev := wf_mod n _ (fs_wf n s (proj1 S))). destruct (iso_same_word n (gF s (snd x)) n (gF u (snd y)) k (fst x)) as [A B]; auto using gF_triangles.
  assert (Kx : k (fst x) = fst y).
  { destruct (walk_ok n (gF s (snd x)) (fst x) (gF_triangles n s (snd x) S) Ev Lx) as (_ & _ & X0). destruct (walk_ok n (gF u (snd y)) (fst y) (gF_triangles n u (snd y) U) Ev Ly) as (_ & _ & Y0).
    fold (clist n s x) in X0. fold (clist n u y) in Y0. assert (P : 0 < n) by lia.
    assert (Lc : 0 < length (clist n s x)) by (assert (Q := cp_length n _ C); lia). assert (Ld : 0 < length (clist n u y)) by (assert (Q := cp_length n _ D); lia).
    apply neg_inj. rewrite <- Kn by auto. apply (lbl_inj n _ D); auto; [apply Lk; now apply (neg_ltn n _ (fs_wf n s (proj1 S)))|now apply (neg_ltn n _ (fs_wf n u (proj1 U)))|].
    rewrite Kl by (now apply (neg_ltn n _ (fs_wf n s (proj1 S)))). rewrite <- X0, <- Y0. rewrite (lbl_in n _ C), (lbl_in n _ D); auto. }
  rewrite Kx in A, B. unfold same_words. apply (lword_same n n s u (Ms x) (Mu y) x y CS CU Lx Ly). split; [now symmetry|]. fold (clist n u y) in B. rewrite B. fold (clist n s x). rewrite map_map. apply map_ext_in. intros z I.
  assert (Hz : z < n) by (apply (lo_lt n _ (cp_ok n _ C)); auto). rewrite <- Kn by auto. apply Nv. now apply (neg_ltn n _ (fs_wf n s (proj1 S))).
Qed.
Lemma tracks_nth fuel n r s u f : tracks fuel n r s u f -> same_surface n (domain r) s /\ same_surface n (codomain r) u /\ forall h, h < n -> deformation_half_edge fuel r h = Ok (nth h (map f (seq 0 n)) 0).
Proof.
  intros T. pose proof T as (_ & _ & A & B & _). split; auto. split; auto. intros h H. rewrite (tracks_half_edge fuel n r s u f h T H). f_equal.
  rewrite (nth_indep _ 0 (f 0)) by (now rewrite map_length, seq_length). rewrite map_nth. f_equal. symmetry. now apply seq_nth.
Qed.
End lemmas.

(** ** C63: automorphisms *)
(** [unlabeled], [area_preserving] and [linear] are the equivalences [ELinear oriented g] with [g = TRIVIAL -> oriented = true]. *)
Theorem C63_linear : forall (K : ExactReal) truediv fuel oriented g n (s : flat K), n + 1 < fuel -> closed_connected n s -> exact_division truediv -> (g = TRIVIAL -> oriented = true) ->
  make_class truediv fuel (ELinear oriented g) s = Throw \/
  exists cl l, make_class truediv fuel (ELinear oriented g) s = Ok cl /\ ec_automorphisms cl = length l /\ NoDup l /\
    forall k, In k l <-> exists f, k = map f (seq 0 n) /\ linear_isomorphism g oriented n n s s f.
Proof.
  intros K truediv fuel oriented g n s F CS Hd G. unfold make_class. destruct (linear_code truediv Hd fuel oriented g n s F CS G) as [[_ ->]|(_ & Fr & cs & u & ds & x & -> & Ix & _ & _ & _ & Fd)]; [now left|right].
  set (M := lmat truediv g s) in *. cbn [bind]. eexists _, (map (image_list n (cJ n n s s) x) (lmins oriented n s M cs)). split; [reflexivity|]. cbn [ec_automorphisms].
  split; [rewrite map_length; clear - Fd; induction Fd; cbn [length]; auto|]. pose proof (proj1 (in_lmins _ _ _ _ _ _) Ix) as [Hx Ex].
  destruct (isomorphism_list lkey n n s s oriented (fun y => lword n s (M y) y) (fun y => lword n s (M y) y) (fun b f => liso g b n n s s f) (cJ n n s s) (proj1 CS) (proj1 CS) (proj2 (proj2 CS))
    (fun x' y' => l_same_iso g n n s s oriented M M x' y' CS CS Fr Fr) (fun b f x' => l_iso_same g n n s s oriented M M b f x' CS CS Fr Fr) (fun b f I => proj1 I) (fun b f x' => l_determined g n n s s oriented b f x' CS CS)
    x (lmins oriented n s M cs) Hx (lmins_NoDup _ _ _ _ _)) as [Nd I].
  - intros y. rewrite in_lmins, Ex. tauto.
  - split; auto. intros k. rewrite I. split.
    + intros (b & f & A & J & ->). exists f. split; auto. apply liso_linear. eauto.
    + intros (f & -> & J). apply liso_linear in J as (b & A & J). exists b, f. auto.
Qed.
Print Assumptions C63_linear.
(** The six automorphisms of the torus come from matrices of finite order; only one of them is a translation. *)
Example C63_linear_ex : closed_connected 6 torus_s /\ closed_connected 18 L_s /\ exact_division zdiv /\
  automorphisms (make_class zdiv 30 (linear true) torus_s) = Ok 6 /\ automorphisms (make_class zdiv 30 (linear false) torus_s) = Ok 12 /\
  automorphisms (make_class zdiv 30 (area_preserving true) torus_s) = Ok 6 /\ automorphisms (make_class zdiv 30 unlabeled torus_s) = Ok 1 /\
  automorphisms (make_class zdiv 30 (linear true) L_s) = Ok 2 /\ automorphisms (make_class zdiv 30 unlabeled L_s) = Ok 1.
Proof. split; [apply torus_cc|]. split; [apply L_cc|]. split; [apply zdiv_exact|]. repeat split; vm_compute; reflexivity. Qed.

(** ** C64: codes of linear equivalences are complete invariants *)
Theorem C64_isomorphic : forall (K : ExactReal) truediv fuel oriented g n m (s u : flat K), n + 1 < fuel -> m + 1 < fuel -> closed_connected n s -> closed_connected m u -> exact_division truediv -> (g = TRIVIAL -> oriented = true) ->
  isomorphic truediv fuel (ELinear oriented g) s u = Throw \/
  exists b, isomorphic truediv fuel (ELinear oriented g) s u = Ok b /\ (b = true <-> exists f, linear_isomorphism g oriented n m s u f).
Proof.
  intros K truediv fuel oriented g n m s u F Fu CS CU Hd G. unfold isomorphic, make_class.
  destruct (linear_code truediv Hd fuel oriented g n s F CS G) as [[_ ->]|(_ & Fs & cs & us & ds & x & -> & Ix & Mn & _)]; [now left|].
  destruct (linear_code truediv Hd fuel oriented g m u Fu CU G) as [[_ ->]|(_ & Fr & cu & uu & du & y & -> & Iy & Mu & _)]; [now left|right].
  cbn [bind ec_code]. eexists. split; [reflexivity|]. rewrite linear_code_eqb. apply in_lmins in Ix as [Ix Ex], Iy as [Iy Ey]. set (A := lmat truediv g s) in *. set (B := lmat truediv g u) in *.
  rewrite (minima_agree compare_linear lkey compare_linear_eq compare_linear_flip compare_linear_trans n m s u oriented (fun z => lword n s (A z) z) (fun z => lword m u (B z) z) (fun b f => liso g b n m s u f) (cJ n m s u)
    (proj2 (proj2 CS)) (fun x' y' => l_same_iso g n m s u oriented A B x' y' CS CU Fs Fr) (fun b f x' => l_iso_same g n m s u oriented A B b f x' CS CU Fs Fr) (fun b f I => proj1 I) (fun b f x' => l_determined g n m s u oriented b f x' CS CU) cs cu); eauto.
  split.
  - intros (b & f & P & I). exists f. apply liso_linear. eauto.
  - intros (f & I). apply liso_linear in I as (b & P & I). exists b, f. auto.
Qed.
Print Assumptions C64_isomorphic.
(** The torus and the torus after a flip differ by a shear, the torus and its mirror image by a reflection; with integer coordinates, the torus with sides of length 3 cannot be normalized. *)
Example C64_isomorphic_ex : closed_connected 6 torus_s /\ closed_connected 6 twist1 /\ closed_connected 18 L_s /\ exact_division zdiv /\
  isomorphic zdiv 30 (linear true) torus_s twist1 = Ok true /\ isomorphic zdiv 30 (area_preserving true) torus_s twist1 = Ok true /\ isomorphic zdiv 30 unlabeled torus_s twist1 = Ok false /\
  isomorphic zdiv 30 (linear true) torus_s L_s = Ok false /\ isomorphic zdiv 30 (linear false) torus_s mirrored_torus = Ok true /\ isomorphic zdiv 30 (linear true) big_s big_s = Throw.
Proof. split; [apply torus_cc|]. split; [apply twist1_cc|]. split; [apply L_cc|]. split; [apply zdiv_exact|]. repeat split; vm_compute; reflexivity. Qed.
(** Normalizing only fails if the ring lacks quotients: never over a field, and never when no matrix is needed. *)
Theorem C64_total : forall (K : ExactReal) truediv fuel oriented g n (s : flat K), n + 1 < fuel -> closed_connected n s -> exact_division truediv -> (g = TRIVIAL -> oriented = true) ->
  (g = TRIVIAL \/ forall x y : K, (den y <> 0)%R -> exists z, truediv x y = Some z) -> exists cl, make_class truediv fuel (ELinear oriented g) s = Ok cl.
Proof.
  intros K truediv fuel oriented g n s F CS Hd G D. unfold make_class. destruct (linear_code truediv Hd fuel oriented g n s F CS G) as [[T _]|(_ & _ & cs & u & ds & x & -> & _)].
  - exfalso. now apply (linear_walkers_field truediv Hd n s g oriented (proj1 CS) G D).
  - cbn [bind]. eauto.
Qed.
Print Assumptions C64_total.
(** Rational numbers can be divided, so the torus with sides of length 3 can be normalized with rational coordinates. *)
Definition qdiv (x y : ExactQ) : option ExactQ := if Qeq_bool y 0 then None else Some (Qred (x / y)%Q).
Lemma qdiv_total (x y : ExactQ) : (den y <> 0)%R -> exists z, qdiv x y = Some z /\ (den z * den y = den x)%R.
Proof.
  intros H. unfold qdiv. destruct (Qeq_bool y 0) eqn:E.
  - exfalso. apply H. apply Qeq_bool_iff in E. apply Qeq_eqR in E. cbn. rewrite E. unfold Q2R. cbn. lra.
  - eexists. split; [reflexivity|]. cbn [den ExactQ]. rewrite (Qeq_eqR _ _ (Qred_correct (x / y))). rewrite <- Q2R_mult. apply Qeq_eqR. field. intros Q. apply Qeq_bool_iff in Q. congruence.
Qed.
Lemma qdiv_exact : exact_division qdiv.
Proof. intros x y H. destruct (qdiv_total x y H) as (z & -> & E). exact E. Qed.
Definition qbig_s : flat ExactQ := mkFlat torus_t [qv 3 0; qv (-3) 0; qv 0 3; qv 0 (-3); qv (-3) (-3); qv 3 3].
Example C64_total_ex : (forall x y : ExactQ, (den y <> 0)%R -> exists z, qdiv x y = Some z) /\ exact_division qdiv /\
  match make_class qdiv 30 (linear true) qbig_s with Ok c => map (fun v : vec ExactQ => (Qred (vx v), Qred (vy v))) (fvec (ec_surface c)) | _ => [] end = [(-1, 0); (1, 0); (-1, 1); (1, -1); (0, -1); (0, 1)]%Q.
Proof. split; [intros x y H; destruct (qdiv_total x y H) as (z & E & _); eauto|]. split; [apply qdiv_exact|]. vm_compute. reflexivity. Qed.
(** The equivalences that can be created: over a field, they always decide whether there is a bijection of half edges induced by the identity, by a matrix of determinant 1 or -1, by any invertible matrix. *)
Theorem C64_named : forall (K : ExactReal) truediv fuel n m (s u : flat K), n + 1 < fuel -> m + 1 < fuel -> closed_connected n s -> closed_connected m u -> exact_division truediv ->
  (exists b, isomorphic truediv fuel unlabeled s u = Ok b /\ (b = true <-> exists f, same_gluing n m s u f /\ forall x, x < n -> vv u (f x) = vv s x)) /\
  ((forall x y : K, (den y <> 0)%R -> exists z, truediv x y = Some z) -> forall oriented,
    (exists b, isomorphic truediv fuel (area_preserving oriented) s u = Ok b /\
      (b = true <-> exists f p q r t, affine_gluing n m s u p q r t f /\ (p * t - q * r = 1 \/ oriented = false /\ p * t - q * r = -1)%R)) /\
    (exists b, isomorphic truediv fuel (linear oriented) s u = Ok b /\
      (b = true <-> exists f p q r t, affine_gluing n m s u p q r t f /\ (p * t - q * r > 0 \/ oriented = false /\ p * t - q * r < 0)%R))).
Proof.
  intros K truediv fuel n m s u F Fu CS CU Hd.
  assert (D : forall oriented g, (g = TRIVIAL -> oriented = true) -> (g = TRIVIAL \/ forall x y : K, (den y <> 0)%R -> exists z, truediv x y = Some z) ->
    exists b, isomorphic truediv fuel (ELinear oriented g) s u = Ok b /\ (b = true <-> exists f, linear_isomorphism g oriented n m s u f)).
  { intros oriented g G D. destruct (C64_isomorphic K truediv fuel oriented g n m s u F Fu CS CU Hd G) as [T|E]; [|exact E]. exfalso.
    destruct (C64_total K truediv fuel oriented g n s F CS Hd G D) as [cs Es]. destruct (C64_total K truediv fuel oriented g m u Fu CU Hd G D) as [cu Eu].
    unfold isomorphic in T. rewrite Es, Eu in T. discriminate. }
  split; [|intros Q oriented; split].
  - destruct (D true TRIVIAL) as (b & E & H); auto. exists b. split; [exact E|]. rewrite H. split.
    + intros (f & p & q & r & t & [V A] & (-> & -> & -> & ->) & _). exists f. split.
      * destruct A as [[_ A]|[A _]]; [exact A|exfalso; lra].
      * intros x Hx. rewrite (V x Hx). unfold papply. destruct (vv s x). cbn. f_equal; ring.
    + intros (f & A & V). exists f, 1%R, 0%R, 0%R, 1%R. split; [split|].
      * intros x Hx. rewrite (V x Hx). unfold papply. destruct (vv s x). cbn. f_equal; ring.
      * left. split; [lra|exact A].
      * split; [cbn; auto|intros _; lra].
  - destruct (D oriented SL) as (b & E & H); [discriminate|auto|]. exists b. split; [exact E|]. rewrite H. split.
    + intros (f & p & q & r & t & A & G & O). exists f, p, q, r, t. split; [exact A|]. cbn in G. destruct G as [G|G]; [auto|right]. split; [|exact G]. destruct oriented; [|reflexivity]. specialize (O eq_refl). exfalso. lra.
    + intros (f & p & q & r & t & A & G). exists f, p, q, r, t. split; [exact A|]. cbn. destruct G as [G|[-> G]]; split; auto; [|discriminate]. intros _. lra.
  - destruct (D oriented GL) as (b & E & H); [discriminate|auto|]. exists b. split; [exact E|]. rewrite H. split.
    + intros (f & p & q & r & t & A & G & O). exists f, p, q, r, t. split; [exact A|]. cbn in G. destruct oriented; [left; specialize (O eq_refl); lra|]. destruct (Rlt_dec 0 (p * t - q * r)) as [L|L]; [left; lra|right; split; [reflexivity|lra]].
    + intros (f & p & q & r & t & A & G). exists f, p, q, r, t. split; [exact A|]. cbn. destruct G as [G|[-> G]]; split; auto; try discriminate; lra.
Qed.
Print Assumptions C64_named.
(** The torus with sides of length 3 is an image of the unit torus but not under a matrix that keeps areas. *)
Definition qtorus_s : flat ExactQ := mkFlat torus_t [qv 1 0; qv (-1) 0; qv 0 1; qv 0 (-1); qv (-1) (-1); qv 1 1].
Lemma qtorus_cc : closed_connected 6 qtorus_s.
Proof.
  split; [split|split; [apply (within_connected 6 qtorus_s 5); vm_compute; reflexivity|lia]].
  - split; [apply torus_wf|reflexivity| |].
    + intros e He. do 6 (destruct e as [|e]; [unfold vv; cbn; unfold pneg, vden; cbn; unfold Q2R; cbn; f_equal; lra|]). lia.
    + intros e He _. do 6 (destruct e as [|e]; [unfold vv; cbn; unfold padd, pdet, vden; cbn; unfold Q2R; cbn; split; [f_equal; lra|lra]|]). lia.
  - intros e He. do 6 (destruct e as [|e]; [discriminate|]). lia.
Qed.
Lemma qbig_cc : closed_connected 6 qbig_s.
Proof.
  split; [split|split; [apply (within_connected 6 qbig_s 5); vm_compute; reflexivity|lia]].
  - split; [apply torus_wf|reflexivity| |].
    + intros e He. do 6 (destruct e as [|e]; [unfold vv; cbn; unfold pneg, vden; cbn; unfold Q2R; cbn; f_equal; lra|]). lia.
    + intros e He _. do 6 (destruct e as [|e]; [unfold vv; cbn; unfold padd, pdet, vden; cbn; unfold Q2R; cbn; split; [f_equal; lra|lra]|]). lia.
  - intros e He. do 6 (destruct e as [|e]; [discriminate|]). lia.
Qed.
Example C64_named_ex : closed_connected 6 qtorus_s /\ closed_connected 6 qbig_s /\ exact_division qdiv /\ isomorphic qdiv 30 (linear true) qtorus_s qbig_s = Ok true /\ isomorphic qdiv 30 (area_preserving true) qtorus_s qbig_s = Ok false /\
  isomorphic qdiv 30 (area_preserving false) qtorus_s qbig_s = Ok false /\ isomorphic qdiv 30 (area_preserving true) qtorus_s qtorus_s = Ok true /\ isomorphic qdiv 30 unlabeled qtorus_s qbig_s = Ok false.
Proof. split; [apply qtorus_cc|]. split; [apply qbig_cc|]. split; [apply qdiv_exact|]. repeat split; vm_compute; reflexivity. Qed.
(** The representative of a class is the image of the surface under a matrix of the group. *)
Theorem C64_representative : forall (K : ExactReal) truediv fuel oriented g n (s : flat K) cl, n + 1 < fuel -> closed_connected n s -> exact_division truediv -> (g = TRIVIAL -> oriented = true) ->
  make_class truediv fuel (ELinear oriented g) s = Ok cl -> closed_flat n (ec_surface cl) /\ exists f, linear_isomorphism g oriented n n s (ec_surface cl) f.
Proof.
  intros K truediv fuel oriented g n s cl F CS Hd G. unfold make_class. destruct (linear_code truediv Hd fuel oriented g n s F CS G) as [[_ ->]|(_ & Fr & cs & u & ds & x & -> & Ix & _ & U & N & _)]; [discriminate|].
  cbn [bind]. intros E. injection E as <-. cbn [ec_surface]. split; auto. specialize (N x Ix). apply in_lmins in Ix as [Ix _]. exists (lbl (clist n s x)). apply liso_linear. exists (negb (snd x =? 1)%Z).
  split; [now apply (start_allowed _ n)|]. now apply (normal_iso g n s x (lmat truediv g s x) u oriented (lmat truediv g s)).
Qed.
Print Assumptions C64_representative.
Definition class_vectors (x : outcome (eclass (K := ExactZ))) : list (Z * Z) := match x with Ok c => map (fun v => (vx v, vy v)) (fvec (ec_surface c)) | _ => [] end.
Example C64_representative_ex : class_vectors (make_class zdiv 30 (linear true) sheared_s) = [(-1, 0); (1, 0); (-1, 1); (1, -1); (0, -1); (0, 1)]%Z /\ map (fun v => (vx v, vy v)) (fvec sheared_s) = [(1, 0); (-1, 0); (3, 1); (-3, -1); (-4, -1); (4, 1)]%Z.
Proof. split; vm_compute; reflexivity. Qed.
(** Surfaces have the same representative exactly if they are isomorphic. *)
Theorem C64_canonical : forall (K : ExactReal) truediv fuel oriented g n (s u : flat K) cs cu, n + 1 < fuel -> closed_connected n s -> closed_connected n u -> exact_division truediv -> (g = TRIVIAL -> oriented = true) ->
  make_class truediv fuel (ELinear oriented g) s = Ok cs -> make_class truediv fuel (ELinear oriented g) u = Ok cu ->
  same_surface n (ec_surface cs) (ec_surface cu) <-> exists f, linear_isomorphism g oriented n n s u f.
Proof.
  intros K truediv fuel oriented g n s u c d F CS CU Hd G. unfold make_class.
  destruct (linear_code truediv Hd fuel oriented g n s F CS G) as [[_ ->]|(_ & Fs & cs & us & ds & x & -> & Ix & Mn & Us & Ns & _)]; [discriminate|].
  destruct (linear_code truediv Hd fuel oriented g n u F CU G) as [[_ ->]|(_ & Fr & cu & uu & du & y & -> & Iy & Mu & Uu & Nu & _)]; [discriminate|].
  cbn [bind]. intros E1 E2. injection E1 as <-. injection E2 as <-. cbn [ec_surface]. specialize (Ns x Ix). specialize (Nu y Iy). apply in_lmins in Ix as [Ix Ex], Iy as [Iy Ey].
  set (A := lmat truediv g s) in *. set (B := lmat truediv g u) in *.
  assert (Q : map lkey cs = map lkey cu <-> exists b f, allowed oriented b /\ liso g b n n s u f).
  { apply (minima_agree compare_linear lkey compare_linear_eq compare_linear_flip compare_linear_trans n n s u oriented (fun z => lword n s (A z) z) (fun z => lword n u (B z) z) (fun b f => liso g b n n s u f) (cJ n n s u)
      (proj2 (proj2 CS)) (fun x' y' => l_same_iso g n n s u oriented A B x' y' CS CU Fs Fr) (fun b f x' => l_iso_same g n n s u oriented A B b f x' CS CU Fs Fr) (fun b f I => proj1 I) (fun b f x' => l_determined g n n s u oriented b f x' CS CU) cs cu); eauto. }
  split.
  - intros E. assert (W := normal_words n s u oriented A B x y us uu CS CU Us Ix Iy Ns Nu E). assert (W' : map lkey cs = map lkey cu) by (unfold same_words in W; congruence).
    apply Q in W' as (b & f & P & I). exists f. apply liso_linear. eauto.
  - intros (f & I). apply liso_linear in I. destruct I as (b & P & I). assert (W : map lkey cs = map lkey cu) by (apply Q; eauto).
    assert (Sw : same_words n n s u A B x y) by (unfold same_words; congruence). assert (N2 := same_normal n s u oriented A B x y us CS CU Us Ix Iy Sw Ns).
    apply (normal_same n u y (B y) us uu); auto. apply walk_complete; [exact (proj1 CU)|exact (proj1 (proj2 CU))|now apply (starts_sign oriented)].
Qed.
Print Assumptions C64_canonical.
Example C64_canonical_ex : closed_connected 6 torus_s /\ closed_connected 6 twist1 /\
  class_vectors (make_class zdiv 30 (linear true) torus_s) = class_vectors (make_class zdiv 30 (linear true) twist1) /\ class_vectors (make_class zdiv 30 unlabeled torus_s) <> class_vectors (make_class zdiv 30 unlabeled twist1).
Proof. split; [apply torus_cc|]. split; [apply twist1_cc|]. split; [vm_compute; reflexivity|]. intros E. vm_compute in E. discriminate E. Qed.

(** ** C65: the isomorphisms *)
Theorem C65_isomorphisms : forall (K : ExactReal) truediv fuel oriented g n m (s u : flat K), n + 1 < fuel -> m + 1 < fuel -> closed_connected n s -> closed_connected m u -> exact_division truediv -> (g = TRIVIAL -> oriented = true) ->
  (isomorphisms truediv fuel (ELinear oriented g) s u = Throw /\ isomorphic truediv fuel (ELinear oriented g) s u = Throw) \/
  exists l ks, isomorphisms truediv fuel (ELinear oriented g) s u = Ok l /\ NoDup ks /\
    (forall k, In k ks <-> exists f, k = map f (seq 0 n) /\ linear_isomorphism g oriented n m s u f) /\
    Forall2 (fun r k => same_surface n (domain r) s /\ same_surface m (codomain r) u /\ forall h, h < n -> deformation_half_edge fuel r h = Ok (nth h k 0)) l ks.
Proof.
  intros K truediv fuel oriented g n m s u F Fu CS CU Hd G. unfold isomorphisms, isomorphic, make_class.
  destruct (linear_code truediv Hd fuel oriented g n s F CS G) as [[_ ->]|(_ & Fs & cs & us & ds & x & -> & Ix & Mn & Us & Ns & Ds)]; [now left|].
  destruct (linear_code truediv Hd fuel oriented g m u Fu CU G) as [[_ ->]|(_ & Fr & cu & uu & du & y & -> & Iy & Mu & Uu & Nu & Du)]; [now left|right].
  cbn [bind]. set (A := lmat truediv g s) in *. set (B := lmat truediv g u) in *. pose proof (proj1 (in_lmins _ _ _ _ _ _) Ix) as [Hx Ex]. pose proof (proj1 (in_lmins _ _ _ _ _ _) Iy) as [Hy Ey].
  assert (Q : map lkey cs = map lkey cu <-> exists b f, allowed oriented b /\ liso g b n m s u f).
  { apply (minima_agree compare_linear lkey compare_linear_eq compare_linear_flip compare_linear_trans n m s u oriented (fun z => lword n s (A z) z) (fun z => lword m u (B z) z) (fun b f => liso g b n m s u f) (cJ n m s u)
      (proj2 (proj2 CS)) (fun x' y' => l_same_iso g n m s u oriented A B x' y' CS CU Fs Fr) (fun b f x' => l_iso_same g n m s u oriented A B b f x' CS CU Fs Fr) (fun b f I => proj1 I) (fun b f x' => l_determined g n m s u oriented b f x' CS CU) cs cu); eauto. }
  pose proof (linear_code_eqb cs cu) as Ce. destruct (code_eqb _ _) eqn:E; cbn [negb].
  2:{ exists [], []. split; auto. split; [constructor|]. split; [|constructor]. intros k. split; [intros []|]. intros (f & _ & I). apply liso_linear in I. destruct I as (b & P & I).
      assert (X : false = true) by (apply Ce, Q; eauto). discriminate. }
  assert (W : map lkey cs = map lkey cu) by now apply Ce. assert (Sw : same_words n m s u A B x y) by (unfold same_words; congruence).
  destruct (words_vectors n m s u A B oriented x y CS CU Hx Hy Sw) as (<- & _).
  assert (Swx : forall x', In x' (lmins oriented n s A cs) -> In x' (starts oriented n) /\ same_words n n s u A B x' y) by (intros x' I; apply in_lmins in I as [I1 I2]; split; auto; unfold same_words; congruence).
  assert (Sn : same_surface n us uu).
  { assert (N2 := same_normal n s u oriented A B x y us CS CU Us Hx Hy Sw (Ns x Ix)). apply (normal_same n u y (B y) us uu); auto. apply walk_complete; [exact (proj1 CU)|exact (proj1 (proj2 CU))|now apply (starts_sign oriented)]. }
  rewrite (proj2 (same_eqb n us uu Us Uu) Sn). cbn [bind negb].
  assert (L : forall y', In y' (starts oriented n) -> map lkey (lword n u (B y') y') = map lkey cu -> let ks := map (image_list n (cJ n n s u) y') (lmins oriented n s A cs) in
    NoDup ks /\ forall k, In k ks <-> exists f, k = map f (seq 0 n) /\ linear_isomorphism g oriented n n s u f).
  { intros y' Iy' Ey'. destruct (isomorphism_list lkey n n s u oriented (fun z => lword n s (A z) z) (fun z => lword n u (B z) z) (fun b f => liso g b n n s u f) (cJ n n s u) (proj1 CS) (proj1 CU) (proj2 (proj2 CS))
      (fun x' y' => l_same_iso g n n s u oriented A B x' y' CS CU Fs Fr) (fun b f x' => l_iso_same g n n s u oriented A B b f x' CS CU Fs Fr) (fun b f I => proj1 I) (fun b f x' => l_determined g n n s u oriented b f x' CS CU)
      y' (lmins oriented n s A cs) Iy' (lmins_NoDup _ _ _ _ _)) as [Nd I].
    - intros z. rewrite in_lmins, Ey', W. tauto.
    - split; auto. intros k. rewrite I. split.
      + intros (b & f & P & J & ->). exists f. split; auto. apply liso_linear. eauto.
      + intros (f & -> & J). apply liso_linear in J as (b & P & J). exists b, f. auto. }
  destruct (eqb_total n uu u Uu (proj1 CU)) as (here & Eh). rewrite Eh. cbn [bind]. destruct here.
  - apply (same_eqb n uu u Uu (proj1 CU)) in Eh. destruct (walker_home g n s u oriented A B x y uu CS CU Fr Uu Eh Hx Hy Sw (Nu y Iy)) as (y' & Hy' & Wy' & Jy').
    destruct (L y' Hy') as [Nd I]; [unfold same_words in Wy'; congruence|]. eexists _, _. split; [reflexivity|]. split; [exact Nd|]. split; [exact I|].
    clear Ix Mn Ns Nd I L. induction Ds as [|x' d xs ds' [T _] _ IH]; cbn [map]; constructor.
    + apply tracks_nth. destruct (Swx x') as [Hx' Wx']; [now left|]. apply (tracks_ext fuel n d s u (lbl (clist n s x'))); [intros h H; symmetry; now apply Jy'|]. apply (tracks_same fuel n d s us _ s u (same_refl n s) (same_trans n _ _ _ Sn Eh) T).
    + apply IH. intros z I. apply Swx. now right.
  - assert (First : exists y0 d0 d0', vat du 0 = Ok d0 /\ In y0 (lmins oriented n u B cu) /\ tracks fuel n d0 u uu (lbl (clist n u y0)) /\ relation_section truediv d0 = Ok d0').
    { destruct Du as [|y0 d0 ys du' [T0 (d0' & E0)] Du]; [destruct Iy|]. exists y0, d0, d0'. split; auto. split; [now left|]. auto. }
    destruct First as (y0 & d0 & back & -> & Iy0 & T0 & E0). cbn [bind]. rewrite E0. cbn [bind]. pose proof (proj1 (in_lmins _ _ _ _ _ _) Iy0) as [Hy0 Ey0].
    assert (C0 : complete n (clist n u y0)) by (apply walk_complete; [exact (proj1 CU)|exact (proj1 (proj2 CU))|now apply (starts_sign oriented)]).
    assert (Tb := tracks_section truediv Hd fuel n d0 back u uu _ _ F (lbl_bijection n _ C0) T0 E0). destruct (L y0 Hy0 Ey0) as [Nd I].
    assert (Swy : forall x', In x' (lmins oriented n s A cs) -> In x' (starts oriented n) /\ same_words n n s u A B x' y0) by (intros x' J; apply in_lmins in J as [J1 J2]; split; auto; unfold same_words; congruence).
    assert (R : exists l, omap (fun f => do (r, _, _) <- compose fuel back f; Ok r) ds = Ok l /\
      Forall2 (fun r k => same_surface n (domain r) s /\ same_surface n (codomain r) u /\ forall h, h < n -> deformation_half_edge fuel r h = Ok (nth h k 0)) l (map (image_list n (cJ n n s u) y0) (lmins oriented n s A cs))).
    { clear Ix Mn Ns Nd I L Swx. induction Ds as [|x' d xs ds' [T _] _ IH]; cbn [map omap]; [exists []; split; [reflexivity|constructor]|].
      destruct (Swy x') as [Hx' Wx']; [now left|]. destruct (tracks_compose fuel n back d s us u (lbl (clist n s x')) (unlbl (clist n u y0)) F T) as (r & f' & g' & -> & Tr).
      { apply (tracks_same fuel n back uu u _ us u (same_sym n _ _ Sn) (same_refl n u) Tb). }
      cbn [bind]. destruct IH as (l & -> & Fl); [intros z J; apply Swy; now right|]. cbn [bind]. eexists. split; [reflexivity|]. constructor; auto. apply tracks_nth.
      apply (tracks_ext fuel n r s u (fun h => unlbl (clist n u y0) (lbl (clist n s x') h))); auto. intros h H. destruct (through_normal n s u oriented A B x' y0 CS CU Hx' Hy0 Wx' h H) as [Lt <-]. now apply (unlbl_lbl n _ C0). }
    destruct R as (l & El & Fl). exists l. eexists. split; [exact El|]. split; [exact Nd|]. split; [exact I|exact Fl].
Qed.
Print Assumptions C65_isomorphisms.
(** The torus can be mapped to the torus after a flip in six ways, among them the one that turns each half edge by half a turn. *)
Definition isomorphism_data {K : ExactReal} (n fuel : nat) (x : outcome (list (relation K))) : outcome (list (list nat)) :=
  do l <- x; omap (fun r => omap (deformation_half_edge fuel r) (seq 0 n)) l.
Example C65_isomorphisms_ex : closed_connected 6 torus_s /\ closed_connected 6 twist1 /\ exact_division zdiv /\
  isomorphism_data 6 30 (isomorphisms zdiv 30 (linear true) torus_s twist1) =
    Ok [[0; 1; 4; 5; 3; 2]; [1; 0; 5; 4; 2; 3]; [3; 2; 0; 1; 4; 5]; [2; 3; 1; 0; 5; 4]; [4; 5; 3; 2; 0; 1]; [5; 4; 2; 3; 1; 0]] /\
  isomorphism_data 6 30 (isomorphisms zdiv 30 unlabeled torus_s twist1) = Ok [] /\
  isomorphism_data 6 30 (isomorphisms zdiv 30 unlabeled torus_s torus_s) = Ok [[0; 1; 2; 3; 4; 5]].
Proof. split; [apply torus_cc|]. split; [apply twist1_cc|]. split; [apply zdiv_exact|]. repeat split; vm_compute; reflexivity. Qed.
