(** * C40: isomorphism codes are complete invariants *)
From Coq Require Import ZArith Reals List Arith Bool Lia Lra Permutation.
From Verif Require Import Base HalfEdge HalfEdgeFacts Perm PermSpec PermFacts IndexedSet Combinatorial CombinatorialSpec CombinatorialFacts CombinatorialOps
  ExactReal Vector PlaneSpec Plane VectorFacts VectorProps FlatTri FlatSpec FlatFacts FlatSum FlatLinear FlatOps FlatAngle FlatAngleProps FlatProps
  Point PointSpec PointProps Linear LinearProps SearchProps Saddle Deform DeformSpec DeformFacts DeformPath DeformGood DeformCompose DeformProps
  Equivalence EquivalenceWalk EquivalenceSame EquivalenceWord EquivalenceSpec EquivalenceFacts EquivalenceNormal EquivalenceCode EquivalenceCount.
Import ListNotations.
Local Open Scope nat_scope.

(** ** Examples *)
(** A way to see that a surface is connected: collect what can be reached in [k] steps. *)
Definition grow {K} (n : nat) (s : flat K) (l : list nat) : list nat := nodup Nat.eq_dec (filter (fun x => x <? n) (l ++ map neg l ++ map (fF s) l)).
Fixpoint reached {K} (n : nat) (s : flat K) (k : nat) (l : list nat) : list nat := match k with O => l | S k => reached n s k (grow n s l) end.
Definition connected_within {K} (n : nat) (s : flat K) (k : nat) : bool :=
  forallb (fun x => let l := reached n s k [x] in forallb (fun y => existsb (Nat.eqb y) l) (seq 0 n)) (seq 0 n).
Lemma within_connected {K : ExactReal} n (s : flat K) k : connected_within n s k = true -> connected n s.
Proof.
  intros E P (x & Hx & Px) I y Hy. unfold connected_within in E. rewrite forallb_forall in E. specialize (E x). rewrite in_seq in E. specialize (E (conj (Nat.le_0_l x) Hx)). cbv zeta in E.
  rewrite forallb_forall in E. specialize (E y). rewrite in_seq in E. specialize (E (conj (Nat.le_0_l y) Hy)). apply existsb_exists in E as (z & Hz & E). apply Nat.eqb_eq in E. subst z.
  assert (G : forall k l, (forall z, In z l -> z < n /\ P z) -> forall z, In z (reached n s k l) -> P z).
  { clear - I. induction k as [|k IH]; cbn [reached]; intros l A z Hz; [now apply A|]. apply (IH (grow n s l)); auto. clear z Hz. intros z Hz. unfold grow in Hz. apply nodup_In, filter_In in Hz as [Hz Lz]. apply Nat.ltb_lt in Lz. split; auto.
    apply in_app_iff in Hz as [Hz|Hz]; [now apply A|]. apply in_app_iff in Hz as [Hz|Hz]; apply in_map_iff in Hz as (w & <- & Hw); apply A in Hw as [L Pw]; now apply I. }
  apply (G k [x]); auto. intros z [<-|[]]. auto.
Qed.
Lemma torus_cc : closed_connected 6 torus_s.
Proof. split; [apply torus_cf|]. split; [apply (within_connected 6 torus_s 5); vm_compute; reflexivity|lia]. Qed.
Lemma twist1_cc : closed_connected 6 twist1.
Proof. split; [apply twist1_cf|]. split; [apply (within_connected 6 twist1 5); vm_compute; reflexivity|lia]. Qed.
Lemma L_cc : closed_connected 18 L_s.
Proof. split; [destruct L_flat as (_ & A & B); now split|]. split; [apply (within_connected 18 L_s 12); vm_compute; reflexivity|lia]. Qed.

(** ** The codes *)
(** Every walker of the library would produce a word when it ran on its own; the code is the smallest of these words in lexicographic order. *)
Theorem C40_minimum : forall (K : ExactReal) truediv fuel oriented n (s : flat K), n + 1 < fuel -> closed_connected n s ->
  exists cs u ds, code_of truediv fuel (combinatorial oriented) s = Ok (CCombinatorial cs, u, ds) /\
    (forall w, In w (combinatorial_walkers oriented s) -> exists wd w', emits (cw_step fuel) w wd w' /\ lex compare_characters cs wd <> Gt) /\
    (exists w w', In w (combinatorial_walkers oriented s) /\ emits (cw_step fuel) w cs w').
Proof.
  intros K truediv fuel oriented n s F CC. pose proof CC as (S & C & P). destruct (combinatorial_code truediv fuel oriented n s F CC) as (cs & u & ds & x & E & _ & Ix & M & _). exists cs, u, ds. split; auto.
  assert (Q : forall y, In y (starts oriented n) -> emits (cw_step fuel) (make_cwalker s (fst y) (snd y)) (cword n s y) (cw_at s (snd y) (length (clist n s y)) (clist n s y))).
  { intros y I. apply (cw_emits fuel) with (n := n); auto; [lia|]. now apply (starts_sign oriented). }
  rewrite (combinatorial_starts oriented n s S). split.
  - intros w I. rewrite map_map in I. apply in_map_iff in I as (y & <- & I). cbn [cjob j_walker]. eexists _, _. split; [now apply Q|]. now apply M.
  - apply in_minimal in Ix as [I <-]. eexists _, _. split; [|now apply Q]. rewrite map_map. apply (in_map (fun y => j_walker (cjob n s y))) in I. exact I.
Qed.
Print Assumptions C40_minimum.
Definition code_data {K : ExactReal} (x : outcome (code (K := K) * flat K * list (relation K))) : option (list (list Z) * nat) :=
  match x with Ok (CCombinatorial w, _, ds) => Some (w, length ds) | Ok (CLinear w _, _, ds) => Some (w, length ds) | _ => None end.
Example C40_minimum_ex : closed_connected 18 L_s /\ code_data (code_of zdiv 30 (combinatorial true) L_s) =
  Some ([[1; 2]; [-2; 3]; []; [4; 5]; [6; 0]; [7; 8]; [-7; -8]; []; []]%Z, 2).
Proof. split; [apply L_cc|vm_compute; reflexivity]. Qed.

(** Two surfaces are isomorphic when there is a bijection of their half edges that respects edges and triangles, possibly reversing the orientation. *)
Theorem C40_isomorphic : forall (K : ExactReal) truediv fuel oriented n m (s u : flat K), n + 1 < fuel -> m + 1 < fuel -> closed_connected n s -> closed_connected m u ->
  exists b, isomorphic truediv fuel (combinatorial oriented) s u = Ok b /\
    (b = true <-> exists f, same_gluing n m s u f \/ (oriented = false /\ mirror_gluing n m s u f)).
Proof.
  intros K truediv fuel oriented n m s u F Fu CS CU.
  destruct (combinatorial_code truediv fuel oriented n s F CS) as (cs & us & ds & x & E & _ & Ix & M & _).
  destruct (combinatorial_code truediv fuel oriented m u Fu CU) as (cu & uu & du & y & Eu & _ & Iy & Mu & _).
  unfold isomorphic, make_class, combinatorial. rewrite E, Eu. cbn [bind ec_code code_eqb]. eexists. split; [reflexivity|]. rewrite words_spec.
  apply in_minimal in Ix as [Ix Ex], Iy as [Iy Ey].
  assert (Q := minima_agree compare_characters (fun c => c) compare_eq compare_flip compare_trans n m s u oriented (cword n s) (cword m u) (fun b f => gluing b n m s u f) (cJ n m s u)).
  specialize (Q (proj2 (proj2 CS)) (fun x' y' => c_same_iso n m s u oriented x' y' CS CU) (fun b f x' => c_iso_same n m s u oriented b f x' CS CU) (fun b f G => G) (fun b f x' => c_determined n m s u oriented b f x' CS CU) cs cu).
  rewrite !map_id in Q. rewrite Q; auto.
  - split.
    + intros (b & f & A & G). exists f. destruct b; [right; split; auto|left; auto].
    + intros (f & [G|[O G]]); [exists false, f|exists true, f]; split; auto; intros B; auto; discriminate.
  - exists x. split; auto. now rewrite !map_id.
  - exists y. split; auto. now rewrite !map_id.
Qed.
Print Assumptions C40_isomorphic.
(** A square torus and the torus after a flip are isomorphic, and the one with three squares is another surface. *)
Example C40_isomorphic_ex : closed_connected 6 torus_s /\ closed_connected 6 twist1 /\ closed_connected 18 L_s /\
  isomorphic zdiv 30 (combinatorial true) torus_s twist1 = Ok true /\ isomorphic zdiv 30 (combinatorial false) torus_s L_s = Ok false /\ flat_eqb torus_s twist1 = Ok false.
Proof. split; [apply torus_cc|]. split; [apply twist1_cc|]. split; [apply L_cc|]. repeat split; vm_compute; reflexivity. Qed.
(** With boundary, some half edges are never labeled, and the walkers follow an iterator that points to the end. *)
Theorem C40_boundary_refuted : exists s : flat ExactZ, flat_surface 10 s /\ connected 10 s /\ isomorphic zdiv 30 (combinatorial true) s s = UB.
Proof. exists kite_s. split; [apply kite_flat|]. split; [apply (within_connected 10 kite_s 8); vm_compute; reflexivity|]. vm_compute. reflexivity. Qed.
Print Assumptions C40_boundary_refuted.

(** The code does not depend on the labels of the half edges. *)
Theorem C40_relabel : forall (K : ExactReal) truediv fuel oriented n (s u : flat K) p, n + 1 < fuel -> closed_connected n s -> renaming n p -> frelabel s p = Ok u ->
  isomorphic truediv fuel (combinatorial oriented) s u = Ok true.
Proof.
  intros K truediv fuel oriented n s u p F CS [W E] Eu. pose proof CS as ((S & C) & Cn & P). destruct (frelabel_Ok n s p S C W E) as (u' & Eu' & U & Q). rewrite Eu in Eu'. injection Eu' as <-.
  pose proof W as (_ & _ & B1 & B2).
  assert (CU : closed_connected n u).
  { split; [split; auto|split; auto].
    - intros x Hx B. destruct (B2 x Hx) as [L X]. destruct (Q _ L) as (A & _). rewrite X in A. rewrite B in A. apply (C _ L).
      assert (L' := fF_lt n s _ S L). destruct (B1 _ L') as [_ Y]. rewrite <- A in Y. destruct (B1 _ L) as [_ Z]. congruence.
    - intros A (x & Hx & Ax) I. assert (R : forall y, y < n -> A (fw p y)).
      { apply Cn.
        - exists (bw p x). destruct (B2 x Hx) as [L X]. split; auto. now rewrite X.
        - intros y Hy Ay. destruct (B1 y Hy) as [L _]. destruct (I _ L Ay) as [A1 A2]. rewrite E by auto. split; auto. destruct (Q y Hy) as (<- & _). auto. }
      intros y Hy. destruct (B2 y Hy) as [L X]. rewrite <- X. auto. }
  destruct (C40_isomorphic K truediv fuel oriented n n s u F F CS CU) as (b & -> & I). f_equal. apply I. exists (fw p). left. split; [split|].
  - exists (bw p). split; auto.
  - exact E.
  - intros h H. destruct (Q h H) as (A & _). auto.
Qed.
Print Assumptions C40_relabel.
Example C40_relabel_ex : renaming 6 turn_perm /\ (exists u, frelabel torus_s turn_perm = Ok u) /\ papp turn_perm 0 <> Ok 0.
Proof. split; [apply turn_renaming|]. split; [eexists; reflexivity|]. vm_compute. discriminate. Qed.

(** The representative of a class is the surface with other labels. *)
Theorem C40_representative : forall (K : ExactReal) truediv fuel oriented n (s : flat K), n + 1 < fuel -> closed_connected n s ->
  exists cl f, make_class truediv fuel (combinatorial oriented) s = Ok cl /\ closed_flat n (ec_surface cl) /\ same_gluing n n s (ec_surface cl) f /\
    forall h, h < n -> vv (ec_surface cl) (f h) = vv s h.
Proof.
  intros K truediv fuel oriented n s F CS. destruct (combinatorial_code truediv fuel oriented n s F CS) as (cs & u & ds & x & E & _ & _ & _ & U & (B & Fn & R)).
  unfold make_class, combinatorial. rewrite E. cbn [bind]. eexists _, _. split; [reflexivity|]. cbn [ec_surface]. split; auto. split; [split|].
  - split; [eexists; exact B|exact Fn].
  - intros h H. destruct (R h H) as (A & _). auto.
  - intros h H. now apply R.
Qed.
Print Assumptions C40_representative.
Definition class_faces {K : ExactReal} (x : outcome (eclass (K := K))) : list nat := match x with Ok c => map (fF (ec_surface c)) (half_edges (fT (ec_surface c))) | _ => [] end.
(** The representative has other labels: the half edges -1, 2 and 3 are one of its triangles. *)
Example C40_representative_ex : class_faces (make_class zdiv 30 (combinatorial true) L_s) = [9; 2; 4; 5; 1; 6; 3; 8; 10; 12; 7; 14; 0; 15; 16; 17; 11; 13] /\
  map (fF L_s) (seq 0 18) <> class_faces (make_class zdiv 30 (combinatorial true) L_s).
Proof. split; [vm_compute; reflexivity|]. intros E. vm_compute in E. discriminate E. Qed.

(** ** C63: automorphisms *)
(** [automorphisms] is the number of ways to map the surface to itself. *)
Theorem C63_combinatorial : forall (K : ExactReal) truediv fuel oriented n (s : flat K), n + 1 < fuel -> closed_connected n s ->
  exists cl l, make_class truediv fuel (combinatorial oriented) s = Ok cl /\ ec_automorphisms cl = length l /\ NoDup l /\
    forall k, In k l <-> exists f, k = map f (seq 0 n) /\ (same_gluing n n s s f \/ (oriented = false /\ mirror_gluing n n s s f)).
Proof.
  intros K truediv fuel oriented n s F CS. destruct (combinatorial_code truediv fuel oriented n s F CS) as (cs & u & ds & x & E & Ld & Ix & _ & U & _).
  unfold make_class, combinatorial. rewrite E. cbn [bind]. eexists _, (map (image_list n (cJ n n s s) x) (minimal_starts oriented n s cs)). split; [reflexivity|]. cbn [ec_automorphisms].
  split; [now rewrite map_length|]. pose proof (proj1 (in_minimal _ _ _ _ _) Ix) as [Hx Ex].
  destruct (isomorphism_list (fun c : list Z => c) n n s s oriented (cword n s) (cword n s) (fun b f => gluing b n n s s f) (cJ n n s s) (proj1 CS) (proj1 CS) (proj2 (proj2 CS))
    (fun x' y' => c_same_iso n n s s oriented x' y' CS CS) (fun b f x' => c_iso_same n n s s oriented b f x' CS CS) (fun b f G => G) (fun b f x' => c_determined n n s s oriented b f x' CS CS)
    x (minimal_starts oriented n s cs) Hx) as [Nd I].
  - unfold minimal_starts. apply NoDup_filter, starts_NoDup.
  - intros y. rewrite in_minimal, !map_id, Ex. tauto.
  - split; auto. intros k. rewrite I. split.
    + intros (b & f & A & G & ->). exists f. split; auto. destruct b; [right; split; auto|left; auto].
    + intros (f & -> & [G|[O G]]); [exists false, f|exists true, f]; split; auto; intros B; auto; discriminate.
Qed.
Print Assumptions C63_combinatorial.
(** The torus that consists of two triangles has six automorphisms, and six more that reverse the orientation. *)
Definition automorphisms {K : ExactReal} (x : outcome (eclass (K := K))) : outcome nat := do c <- x; Ok (ec_automorphisms c).
Example C63_combinatorial_ex : automorphisms (make_class zdiv 30 (combinatorial true) torus_s) = Ok 6 /\ automorphisms (make_class zdiv 30 (combinatorial false) torus_s) = Ok 12 /\
  automorphisms (make_class zdiv 30 (combinatorial true) L_s) = Ok 2 /\ automorphisms (make_class zdiv 30 (combinatorial false) L_s) = Ok 4.
Proof. repeat split; vm_compute; reflexivity. Qed.
