(** * Linear isomorphisms and the codes of linear equivalences *)
From Coq Require Import ZArith Reals List Arith Bool Lia Lra Permutation.
From Verif Require Import Base HalfEdge HalfEdgeFacts Perm PermSpec PermFacts IndexedSet Combinatorial CombinatorialSpec CombinatorialFacts CombinatorialOps
  ExactReal Vector PlaneSpec Plane VectorFacts FlatTri FlatSpec FlatFacts FlatSum FlatLinear FlatOps FlatAngle
  Point PointSpec Linear Saddle Deform DeformSpec DeformFacts DeformPath DeformGood DeformActs DeformCompose DeformPathProps
  Equivalence EquivalenceWalk EquivalenceSame EquivalenceWord EquivalenceSpec EquivalenceFacts EquivalenceNormal EquivalenceCode EquivalenceCount EquivalenceLinear EquivalenceFrame EquivalenceMaps.
Import ListNotations.
Local Open Scope nat_scope.

Section facts.
Context {K : ExactReal}.
Implicit Types s u v w : flat K.

Lemma mpt_neg (m : matrix (K := K)) p : mpt m (pneg p) = pneg (mpt m p).
Proof. destruct m as [[[a b] c] d]. unfold mpt, papply, pneg. cbn [fst snd]. apply pt_eq; cbn [fst snd]; ring. Qed.
(** The matrix that undoes [m'] after [m]. *)
Lemma mpt_quotient (m m' : matrix (K := K)) : (mdet m' <> 0)%R -> exists a b c d, (forall p q, mpt m p = mpt m' q -> q = papply a b c d p) /\ ((a * d - b * c) * mdet m' = mdet m)%R /\
  (forall g (v w v' w' : pt), framed g v w m -> framed g v' w' m' -> (pdet v w <> 0)%R -> (pdet v' w' <> 0)%R -> in_group g a b c d).
Proof.
  destruct m as [[[a b] c] d], m' as [[[a' b'] c'] d']. cbn [mdet mpt]. intros D. set (D' := (den a' * den d' - den b' * den c')%R) in *.
  exists ((den d' * den a - den b' * den c) / D')%R, ((den d' * den b - den b' * den d) / D')%R, ((den a' * den c - den c' * den a) / D')%R, ((den a' * den d - den c' * den b) / D')%R.
  assert (Q : (((den d' * den a - den b' * den c) / D' * ((den a' * den d - den c' * den b) / D') - (den d' * den b - den b' * den d) / D' * ((den a' * den c - den c' * den a) / D')) * D' = den a * den d - den b * den c)%R).
  { unfold D'. field. exact D. }
  split; [|split; [exact Q|]].
  - intros [x y] [x' y'] E. unfold papply in *. cbn [fst snd] in *. injection E as E1 E2. apply pt_eq; cbn [fst snd].
    + transitivity ((den d' * (den a * x + den b * y) - den b' * (den c * x + den d * y)) / D')%R; [|unfold Rdiv; ring]. rewrite E1, E2. unfold D'. field. exact D.
    + transitivity ((den a' * (den c * x + den d * y) - den c' * (den a * x + den b * y)) / D')%R; [|unfold Rdiv; ring]. rewrite E1, E2. unfold D'. field. exact D.
  - intros g v w v' w' F F' N N'. assert (G := framed_group g v w a b c d N F). assert (G' := framed_group g v' w' a' b' c' d' N' F'). destruct g; cbn [in_group] in *.
    + destruct G as (A1 & A2 & A3 & A4), G' as (B1 & B2 & B3 & B4). unfold D'. rewrite A1, A2, A3, A4, B1, B2, B3, B4. repeat split; field.
    + fold D' in G'. rewrite <- Q in G. destruct G' as [E|E]; rewrite E in *; lra.
    + intros Z. rewrite Z in Q. lra.
Qed.

(** ** Isomorphisms *)
Definition liso g (b : bool) n m s u (f : nat -> nat) : Prop :=
  gluing b n m s u f /\ exists a b' c d, (forall x, x < n -> vv u (f x) = papply a b' c d (vv s x)) /\ in_group g a b' c d /\ (if b then a * d - b' * c < 0 else 0 < a * d - b' * c)%R.
Lemma liso_linear g oriented n m s u f : (exists b, allowed oriented b /\ liso g b n m s u f) <-> linear_isomorphism g oriented n m s u f.
Proof.
  unfold linear_isomorphism, affine_gluing. split.
  - intros (b & A & G & a & b' & c & d & V & I & D). exists a, b', c, d. split; [split; auto; destruct b; [right|left]; split; auto|]. split; auto. intros ->. destruct b; auto. discriminate (A eq_refl).
  - intros (a & b' & c & d & [V C] & I & O). destruct C as [[D G]|[D G]]; [exists false|exists true]; (split; [|split; auto; exists a, b', c, d; auto]).
    + intros E. discriminate.
    + intros _. destruct oriented; auto. specialize (O eq_refl). lra.
Qed.

(** Walkers with their matrices. *)
Definition framing g (oriented : bool) n s (M : nat * Z -> matrix (K := K)) : Prop :=
  forall x, In x (starts oriented n) -> framed g (vv s (fst x)) (vv s (second s x)) (M x) /\ sign_is (snd x) (mdet (M x)).
Definition same_words n m s u (Ms Mu : nat * Z -> matrix (K := K)) x y : Prop := map lkey (lword n s (Ms x) x) = map lkey (lword m u (Mu y) y).

Lemma words_vectors n m s u Ms Mu oriented x y : closed_connected n s -> closed_connected m u -> In x (starts oriented n) -> In y (starts oriented m) -> same_words n m s u Ms Mu x y ->
  n = m /\ exists f, gluing (mirrored x y) n m s u f /\ f (fst x) = fst y /\ clist m u y = map f (clist n s x) /\ (forall z, z < n -> cJ n m s u x y z = f z) /\
    forall z, z < n -> mpt (Ms x) (vv s z) = mpt (Mu y) (vv u (f z)).
Proof.
  intros CS CU Hx Hy W. destruct (starts_sign _ _ _ Hx) as [Lx Ox]. destruct (starts_sign _ _ _ Hy) as [Ly Oy]. apply (lword_same n m s u (Ms x) (Mu y) x y CS CU Lx Ly) in W as [Wc Wv].
  destruct (word_iso n m s u oriented x y CS CU Hx Hy Wc) as (<- & f & G & Ef & El & J). split; auto. exists f. split; auto. split; auto. split; auto. split; auto.
  pose proof CS as (S & Cs & P). pose proof CU as (U & _). assert (C : complete n (clist n s x)) by (now apply walk_complete). assert (E := gluing_edges _ _ _ _ _ _ G).
  rewrite El, map_map in Wv. assert (Q : forall z, In z (clist n s x) -> mpt (Ms x) (vv s (neg z)) = mpt (Mu y) (vv u (neg (f z)))).
  { revert Wv. generalize (clist n s x). intros l. induction l as [|a l IH]; cbn [map]; intros W z I; [destruct I|]. injection W as W1 W2. destruct I as [<-|I]; auto. }
  assert (Fn : forall z, z < n -> f (neg z) = neg (f z)) by apply E. assert (Lf := fun z => edge_bijection_lt n n f z E).
  intros z Hz. destruct (complete_cases n _ C z Hz) as (i & Hi & [Ez|Ez]).
  - assert (I : In z (clist n s x)) by (rewrite Ez; now apply nth_In). specialize (Q z I). rewrite (fs_odd n s (proj1 S) z Hz), (fs_odd n u (proj1 U) (f z) (Lf z Hz)), !mpt_neg in Q.
    destruct (mpt (Ms x) (vv s z)) as [p1 p2], (mpt (Mu y) (vv u (f z))) as [q1 q2]. unfold pneg in Q. cbn [fst snd] in Q. injection Q as Q1 Q2. apply pt_eq; cbn; lra.
  - set (t := nth i (clist n s x) 0) in *. assert (I : In t (clist n s x)) by (now apply nth_In). assert (Ht : t < n) by (apply (lo_lt n _ (cp_ok n _ C)); auto). rewrite Ez, Fn by auto. auto.
Qed.
Lemma l_same_iso g n m s u oriented Ms Mu x y : closed_connected n s -> closed_connected m u -> framing g oriented n s Ms -> framing g oriented m u Mu ->
  In x (starts oriented n) -> In y (starts oriented m) -> same_words n m s u Ms Mu x y -> liso g (mirrored x y) n m s u (cJ n m s u x y) /\ cJ n m s u x y (fst x) = fst y.
Proof.
  intros CS CU FS FU Hx Hy W. destruct (words_vectors n m s u Ms Mu oriented x y CS CU Hx Hy W) as (<- & f & G & Ef & _ & J & V).
  destruct (starts_sign _ _ _ Hx) as [Lx Ox]. destruct (starts_sign _ _ _ Hy) as [Ly Oy]. split; [|now rewrite J]. split; [apply (gluing_ext _ n n s u f); auto; apply CS|].
  destruct (FS x Hx) as [Fx Dx]. destruct (FU y Hy) as [Fy Dy]. assert (Nx := sign_nonzero _ _ (second_det n s x (proj1 CS) Lx Ox)). assert (Ny := sign_nonzero _ _ (second_det n u y (proj1 CU) Ly Oy)).
  destruct (mpt_quotient (Ms x) (Mu y) (sign_nonzero _ _ Dy)) as (a & b & c & d & Q & D & I). exists a, b, c, d. split; [intros z Hz; rewrite J by auto; apply Q; auto|]. split; [eapply I; eauto|].
  unfold mirrored. set (dt := (a * d - b * c)%R) in *. destruct Dx as [[Ex Dx]|[Ex Dx]], Dy as [[Ey Dy]|[Ey Dy]]; rewrite Ex, Ey; cbn; nra.
Qed.
Lemma gluing_second b n s u f x : closed_flat n s -> closed_flat n u -> fst x < n -> (snd x = 1%Z \/ snd x = (-1)%Z) -> gluing b n n s u f ->
  second u (f (fst x), turn b (snd x)) = f (second s x).
Proof.
  intros S U H O G. assert (E := gluing_edges _ _ _ _ _ _ G). assert (Lf := fun z => edge_bijection_lt n n f z E). assert (W := fs_wf n s (proj1 S)). assert (Wu := fs_wf n u (proj1 U)).
  assert (Lp := pV_lt n (fT s) W (fst x) H). assert (Lv := fV_lt n s (fst x) (proj1 S) H). assert (Vp : fV s (pV (fT s) (fst x)) = fst x) by (now apply (nV_pV n)).
  assert (Vf : b = false -> forall z, z < n -> f (fV s z) = fV u (f z)).
  { intros -> z Hz. destruct G as [_ G]. cbn in G. assert (L := fun z => fF_lt n s z (proj1 S)). rewrite (fV_eq n s z (proj1 S) Hz) by (now apply (proj2 S)). rewrite (fV_eq n u (f z) (proj1 U)) by (auto; apply (proj2 U); auto).
    destruct E as [E Fn]. rewrite Fn by auto. now rewrite !G by auto. }
  assert (Inj : forall z t, z < n -> t < n -> fV u z = fV u t -> z = t) by (intros z t Hz Ht; now apply (nV_inj n _ Wu)).
  assert (Pu : fV u (pV (fT u) (f (fst x))) = f (fst x)) by (apply (nV_pV n); auto). assert (Lu := pV_lt n (fT u) Wu (f (fst x)) (Lf _ H)).
  unfold second. cbn [fst snd]. destruct O as [-> | ->], b; cbn [turn Z.opp Z.ltb Z.compare].
  - apply Inj; auto. rewrite Pu. destruct G as [_ G]. now rewrite G.
  - symmetry. now apply Vf.
  - destruct G as [_ G]. rewrite <- (G _ Lp), Vp. reflexivity.
  - apply Inj; auto. rewrite Pu, <- Vf by auto. now rewrite Vp.
Qed.
Lemma l_iso_same g n m s u oriented Ms Mu b f x : closed_connected n s -> closed_connected m u -> framing g oriented n s Ms -> framing g oriented m u Mu -> liso g b n m s u f ->
  In x (starts oriented n) -> In (f (fst x), turn b (snd x)) (starts oriented m) -> same_words n m s u Ms Mu x (f (fst x), turn b (snd x)).
Proof.
  intros CS CU FS FU (G & a & b' & c & d & V & Gr & _) Hx Hy. assert (E := gluing_edges b n m s u f G). assert (n = m) as <- by (now apply (edge_bijection_size n m f)).
  destruct (starts_sign _ _ _ Hx) as [Lx Ox]. destruct (starts_sign _ _ _ Hy) as [Ly Oy]. set (y := (f (fst x), turn b (snd x))) in *.
  destruct (iso_word n s u oriented b f x CS CU Hx G) as [Wc El]. fold y in Wc, El. unfold same_words. apply (lword_same n n s u (Ms x) (Mu y) x y CS CU Lx Ly). split; auto. rewrite El, map_map.
  pose proof CS as (S & Cs & P). pose proof CU as (U & _). assert (C : complete n (clist n s x)) by (now apply walk_complete). assert (N := neg_ltn n _ (fs_wf n s (proj1 S))).
  destruct (FS x Hx) as [Fx _]. destruct (FU y Hy) as [Fy _]. assert (Nx := sign_nonzero _ _ (second_det n s x S Lx Ox)).
  assert (Q := framed_transport g _ _ _ _ _ _ a b' c d Nx Fx Fy Gr). assert (V2 : vv u (second u y) = papply a b' c d (vv s (second s x))) by (unfold y; rewrite (gluing_second b n s u f x) by auto; apply V; now apply second_lt).
  specialize (Q (V _ Lx) V2). apply map_ext_in. intros z I. assert (Hz : z < n) by (apply (lo_lt n _ (cp_ok n _ C)); auto). destruct E as [E Fn]. rewrite <- Fn, V by auto. now rewrite Q.
Qed.
Lemma l_determined g n m s u oriented b f x : closed_connected n s -> closed_connected m u -> liso g b n m s u f -> In x (starts oriented n) ->
  forall y, y < n -> f y = cJ n m s u x (f (fst x), turn b (snd x)) y.
Proof. intros CS CU [G _]. now apply c_determined. Qed.

(** ** The normal form *)
Lemma same_normal n s u oriented Ms Mu x y w : closed_connected n s -> closed_connected n u -> closed_flat n w -> In x (starts oriented n) -> In y (starts oriented n) -> same_words n n s u Ms Mu x y ->
  nform n s x (Ms x) w -> nform n u y (Mu y) w.
Proof.
  intros CS CU Wf Hx Hy W N. destruct (words_vectors n n s u Ms Mu oriented x y CS CU Hx Hy W) as (_ & f & G & Ef & El & _ & V).
  destruct (starts_sign _ _ _ Hx) as [Lx Ox]. destruct (starts_sign _ _ _ Hy) as [Ly Oy]. pose proof CS as (S & Cs & P). pose proof CU as (U & _). assert (C : complete n (clist n s x)) by (now apply walk_complete).
  assert (T := gluing_map _ n s u f (snd x) S U Ox G). unfold mirrored in T. rewrite (turn_mirrored _ _ Ox Oy) in T.
  assert (E := gluing_edges _ _ _ _ _ _ G). pose proof E as [(k & B1 & B2) Fn].
  assert (Lb : forall z, z < n -> lbl (clist n u y) (f z) = lbl (clist n s x) z).
  { intros z Hz. rewrite El. apply (lbl_map n); auto; [intros; now apply (edge_bijection_inj n n f)|apply (neg_ltn n _ (fs_wf n s (proj1 S)))|apply (lo_lt n _ (cp_ok n _ C))]. }
  assert (Lg : forall z, z < n -> gF s (snd x) z < n) by (intros z Hz; apply (tg_lt n _ (gF_triangles n s (snd x) S)); auto).
  assert (A : forall h, h < n -> fF w (lbl (clist n u y) h) = lbl (clist n u y) (gF u (snd y) h)).
  { intros h H. destruct (B2 h H) as [Hk Ek]. rewrite <- Ek. rewrite Lb by auto. rewrite <- (tm_next _ _ _ _ _ T) by auto. rewrite Lb by auto. destruct (Ms x) as [[[a b] c] d]. now apply (nm_face _ _ _ _ _ _ _ _ _ N). }
  assert (Bv : forall h, h < n -> vv w (lbl (clist n u y) h) = mpt (Mu y) (vv u h)).
  { intros h H. destruct (B2 h H) as [Hk Ek]. rewrite <- Ek. rewrite Lb by auto. rewrite <- V by auto. destruct (Ms x) as [[[a b] c] d]. now apply (nm_vec _ _ _ _ _ _ _ _ _ N). }
  destruct (Mu y) as [[[a b] c] d]. constructor; auto.
Qed.
Lemma normal_same n s x m u v : closed_flat n u -> closed_flat n v -> complete n (clist n s x) -> nform n s x m u -> nform n s x m v -> same_surface n u v.
Proof.
  intros U V C Nu Nv. destruct m as [[[a b] c] d]. destruct (lbl_bijection n _ C) as [_ B2].
  assert (F : forall h, h < n -> fF u h = fF v h) by (intros h H; destruct (B2 h H) as [Hk <-]; rewrite (nm_face _ _ _ _ _ _ _ _ _ Nu), (nm_face _ _ _ _ _ _ _ _ _ Nv) by auto; auto).
  intros h H. split; [symmetry; auto|]. split.
  - assert (L := fun z => fF_lt n v z (proj1 V)). rewrite (fV_eq n u h (proj1 U) H) by (now apply (proj2 U)). rewrite (fV_eq n v h (proj1 V) H) by (now apply (proj2 V)). now rewrite !F by (rewrite ?F; auto).
  - destruct (B2 h H) as [Hk <-]. rewrite (nm_vec _ _ _ _ _ _ _ _ _ Nu), (nm_vec _ _ _ _ _ _ _ _ _ Nv) by auto. auto.
Qed.
(** Walking to the normal form is an isomorphism. *)
Lemma normal_iso g n s x m u oriented M : closed_connected n s -> closed_flat n u -> In x (starts oriented n) -> framing g oriented n s M -> m = M x -> nform n s x m u ->
  liso g (negb (snd x =? 1)%Z) n n s u (lbl (clist n s x)).
Proof.
  intros CS U Hx FS -> N. destruct (starts_sign _ _ _ Hx) as [Lx Ox]. pose proof CS as (S & Cs & P). assert (C : complete n (clist n s x)) by (now apply walk_complete). destruct (FS x Hx) as [Fx Dx].
  assert (Nx := sign_nonzero _ _ (second_det n s x S Lx Ox)). destruct (M x) as [[[a b] c] d]. assert (T : triangle_map n (gF s (snd x)) n (gF u 1%Z) (lbl (clist n s x))).
  { constructor; [now apply lbl_lt|intros y z; now apply (lbl_inj n _ C)|now apply (lbl_neg n _ C)|]. intros y Hy. rewrite (gF_eq n u 1%Z) by (auto; now apply (lbl_lt n _ C)). cbn. now rewrite (nm_face _ _ _ _ _ _ _ _ _ N). }
  split; [apply map_gluing; auto|]. exists (den a), (den b), (den c), (den d). split; [apply (nm_vec _ _ _ _ _ _ _ _ _ N)|]. split; [now apply (framed_group g _ _ _ _ _ _ Nx Fx)|].
  cbn [mdet] in Dx. destruct Dx as [[E D]|[E D]]; rewrite E; cbn; auto.
Qed.
End facts.
