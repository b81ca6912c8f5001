(** * Walkers with the same word correspond to isomorphisms *)
From Coq Require Import ZArith Reals List Arith Bool Lia Lra Permutation.
From Verif Require Import Base HalfEdge HalfEdgeFacts Perm PermSpec PermFacts IndexedSet Combinatorial CombinatorialSpec CombinatorialFacts CombinatorialOps
  ExactReal Vector PlaneSpec Plane VectorFacts FlatTri FlatSpec FlatFacts FlatSum FlatLinear FlatOps FlatAngle
  Point PointSpec Linear Saddle Deform DeformSpec DeformFacts DeformPath DeformGood DeformCompose
  Equivalence EquivalenceWalk EquivalenceSame EquivalenceWord EquivalenceSpec EquivalenceFacts EquivalenceNormal EquivalenceCode.
Import ListNotations.
Local Open Scope nat_scope.

Section rigid.
Context {K : ExactReal}.
Implicit Types s u : flat K.
Lemma gluing_disjoint n s u f f' : closed_flat n s -> closed_flat n u -> 0 < n -> gluing true n n s u f -> gluing false n n s u f' -> (forall x, x < n -> f x = f' x) -> False.
Proof.
  intros S U P [E M] [_ G] Q. assert (Lf := fun x => edge_bijection_lt n n f x E). assert (L := fun x => fF_lt n s x (proj1 S)).
  assert (H1 := fV_lt n s 0 (proj1 S) P). specialize (M 0 P).
  assert (V : f (fV s 0) = fV u (f 0)).
  { rewrite (fV_eq n s 0 (proj1 S) P) by (now apply (proj2 S)). rewrite (fV_eq n u (f 0) (proj1 U)) by (auto; apply (proj2 U); auto). destruct E as [E Fn]. rewrite Fn by auto. f_equal.
    rewrite Q by auto. rewrite !G by auto. now rewrite Q. }
  rewrite V in M. assert (D1 := corner_det n u (f 0) (proj1 U) (Lf 0 P) (proj2 U _ (Lf 0 P))). assert (H2 := fV_lt n u _ (proj1 U) (Lf 0 P)).
  assert (D2 := corner_det n u _ (proj1 U) H2 (proj2 U _ H2)). rewrite M in D2. unfold pdet in *. lra.
Qed.
End rigid.

Section count.
Context {K : ExactReal} {C X : Type}.
Variable cmp : C -> C -> comparison.
Variable key : C -> X.
Hypothesis cmp_eq : forall a b, cmp a b = Eq <-> key a = key b.
Hypothesis cmp_flip : forall a b, cmp b a = CompOpp (cmp a b).
Hypothesis cmp_trans : forall a b c, cmp a b = Lt -> cmp b c = Lt -> cmp a c = Lt.
Variables (n m : nat) (s u : flat K) (oriented : bool).
Variables (ws wu : nat * Z -> list C).
Variable Iso : bool -> (nat -> nat) -> Prop.
Variable J : nat * Z -> nat * Z -> nat -> nat.
Hypothesis Hs : closed_flat n s.
Hypothesis Hu : closed_flat m u.
Hypothesis Hn : 0 < n.
Definition mirrored (x y : nat * Z) : bool := negb (snd x =? snd y)%Z.
Hypothesis same_iso : forall x y, In x (starts oriented n) -> In y (starts oriented m) -> map key (ws x) = map key (wu y) -> Iso (mirrored x y) (J x y) /\ J x y (fst x) = fst y.
Hypothesis iso_same : forall b f x, Iso b f -> In x (starts oriented n) -> In (f (fst x), turn b (snd x)) (starts oriented m) -> map key (ws x) = map key (wu (f (fst x), turn b (snd x))).
Hypothesis iso_gluing : forall b f, Iso b f -> gluing b n m s u f.
Hypothesis iso_determined : forall b f x, Iso b f -> In x (starts oriented n) -> forall y, y < n -> f y = J x (f (fst x), turn b (snd x)) y.

Definition allowed (b : bool) : Prop := b = true -> oriented = false.
Lemma starts_image b f x : allowed b -> Iso b f -> In x (starts oriented n) -> In (f (fst x), turn b (snd x)) (starts oriented m).
Proof.
  intros A I Hx. destruct x as [h o]. cbn [fst snd]. apply in_starts in Hx as [H O]. apply in_starts. split; [apply (edge_bijection_lt n m f h); [now apply (gluing_edges b n m s u), iso_gluing|auto]|].
  destruct b; cbn [turn]; auto. rewrite (A eq_refl) in *. destruct O as [-> |[_ ->]]; cbn; auto.
Qed.
Lemma starts_preimage b f y : allowed b -> Iso b f -> In y (starts oriented m) -> exists x, In x (starts oriented n) /\ (f (fst x), turn b (snd x)) = y.
Proof.
  intros A I Hy. destruct y as [g o]. apply in_starts in Hy as [H O]. assert (E := gluing_edges b n m s u f (iso_gluing b f I)). destruct E as [(k & B1 & B2) _].
  destruct (B2 g H) as [H' E]. exists (k g, turn b o). cbn [fst snd]. rewrite E. split.
  - apply in_starts. split; auto. destruct b; cbn [turn]; auto. rewrite (A eq_refl) in *. destruct O as [-> |[_ ->]]; cbn; auto.
  - f_equal. destruct b; cbn [turn]; auto. lia.
Qed.
Lemma mirrored_allowed x y : In x (starts oriented n) -> In y (starts oriented m) -> allowed (mirrored x y).
Proof.
  destruct x as [h o], y as [g p]. intros A B E. apply in_starts in A as [_ A], B as [_ B]. destruct oriented; auto. exfalso. unfold mirrored in E. cbn [snd] in E.
  destruct A as [-> |[A _]]; [|discriminate]. destruct B as [-> |[B _]]; [|discriminate]. discriminate.
Qed.

(** The smallest words agree when there is an isomorphism. *)
Lemma minima_agree cs cu : (exists x, In x (starts oriented n) /\ map key (ws x) = map key cs) -> (forall x, In x (starts oriented n) -> lex cmp cs (ws x) <> Gt) ->
  (exists y, In y (starts oriented m) /\ map key (wu y) = map key cu) -> (forall y, In y (starts oriented m) -> lex cmp cu (wu y) <> Gt) ->
  map key cs = map key cu <-> exists b f, allowed b /\ Iso b f.
Proof.
  intros (x & Hx & Ex) Mx (y & Hy & Ey) My. split.
  - intros E. assert (E' : map key (ws x) = map key (wu y)) by congruence. destruct (same_iso x y Hx Hy E') as [I _]. exists (mirrored x y), (J x y). split; auto. now apply mirrored_allowed.
  - intros (b & f & A & I).
    assert (P : lex cmp cs cu <> Gt).
    { destruct (starts_preimage b f y A I Hy) as (z & Hz & Ez). assert (Q := iso_same b f z I Hz). rewrite Ez in Q. specialize (Q Hy).
      rewrite (lex_right cmp key cmp_eq cmp_flip cmp_trans cs cu (ws z)) by congruence. auto. }
    assert (R : lex cmp cu cs <> Gt).
    { assert (Hz := starts_image b f x A I Hx). assert (Q := iso_same b f x I Hx Hz). rewrite (lex_right cmp key cmp_eq cmp_flip cmp_trans cu cs (wu (f (fst x), turn b (snd x)))) by congruence. auto. }
    apply (lex_eq cmp key cmp_eq). rewrite (lex_flip cmp cmp_flip cs cu) in R. destruct (lex cmp cs cu); auto; exfalso; auto.
Qed.

(** The walkers that produce the same word as a given one are in bijection with the isomorphisms. *)
Definition image_list (y x : nat * Z) : list nat := map (J x y) (seq 0 n).
Lemma map_seq_eq (f g : nat -> nat) : map f (seq 0 n) = map g (seq 0 n) <-> forall x, x < n -> f x = g x.
Proof.
  split.
  - intros E x H. assert (Q : nth x (map f (seq 0 n)) 0 = nth x (map g (seq 0 n)) 0) by now rewrite E.
    assert (L : forall k : nat -> nat, nth x (map k (seq 0 n)) 0 = k x). { intros k. rewrite (nth_indep _ 0 (k 0)) by (now rewrite map_length, seq_length). rewrite map_nth. f_equal. now apply seq_nth. }
    now rewrite !L in Q.
  - intros E. apply map_ext_in. intros x I. apply in_seq in I. apply E. lia.
Qed.
Lemma isomorphism_list y mins : In y (starts oriented m) -> NoDup mins -> (forall x, In x mins <-> In x (starts oriented n) /\ map key (ws x) = map key (wu y)) ->
  NoDup (map (image_list y) mins) /\ forall k, In k (map (image_list y) mins) <-> exists b f, allowed b /\ Iso b f /\ k = map f (seq 0 n).
Proof.
  intros Hy Nd M. split.
  - apply NoDup_map_inj; auto. intros x x' I I' E. apply M in I as [Hx Ex], I' as [Hx' Ex']. destruct (same_iso x y Hx Hy Ex) as [A B]. destruct (same_iso x' y Hx' Hy Ex') as [A' B'].
    unfold image_list in E. rewrite map_seq_eq in E. assert (Em : n = m) by (apply (edge_bijection_size n m (J x y)); exact (gluing_edges _ _ _ _ _ _ (iso_gluing _ _ A))).
    assert (G := iso_gluing _ _ A). assert (G' := iso_gluing _ _ A'). destruct x as [h o], x' as [h' o'], y as [g p]. cbn [fst snd] in *.
    apply in_starts in Hx as [Hh O], Hx' as [Hh' O'], Hy as [Hg Op]. unfold mirrored in *. cbn [snd] in *.
    assert (Eo : o = o').
    { destruct (Z.eq_dec o o') as [Q|Q]; auto. exfalso. subst m.
      assert (Z1 : o = 1%Z \/ o = (-1)%Z) by tauto. assert (Z2 : o' = 1%Z \/ o' = (-1)%Z) by tauto. assert (Z3 : p = 1%Z \/ p = (-1)%Z) by tauto.
      destruct Z1 as [-> | ->], Z2 as [-> | ->], Z3 as [-> | ->]; try (now apply Q); cbn in G, G'.
      - apply (gluing_disjoint n s u _ _ Hs Hu Hn G' G). intros z Hz. symmetry. auto.
      - apply (gluing_disjoint n s u _ _ Hs Hu Hn G G'). auto.
      - apply (gluing_disjoint n s u _ _ Hs Hu Hn G G'). auto.
      - apply (gluing_disjoint n s u _ _ Hs Hu Hn G' G). intros z Hz. symmetry. auto. }
    subst o'. f_equal. assert (E1 := gluing_edges _ _ _ _ _ _ G). apply (edge_bijection_inj n m (J (h, o) (g, p))); auto. rewrite B, E by auto. auto.
  - intros k. rewrite in_map_iff. split.
    + intros (x & <- & I). apply M in I as [Hx Ex]. destruct (same_iso x y Hx Hy Ex) as [A _]. exists (mirrored x y), (J x y). split; [now apply mirrored_allowed|]. split; auto.
    + intros (b & f & A & I & ->). destruct (starts_preimage b f y A I Hy) as (x & Hx & Ex). exists x. split.
      * unfold image_list. apply map_seq_eq. intros z Hz. rewrite <- Ex. symmetry. now apply iso_determined.
      * apply M. split; auto. rewrite <- Ex. apply iso_same; auto. now apply starts_image.
Qed.
End count.

(** ** Combinatorial isomorphisms *)
Section combinatorial.
Context {K : ExactReal}.
Implicit Types s u : flat K.
Lemma match_map n L f y : complete n L -> (forall x, x < n -> f (neg x) = neg (f x)) -> y < n -> match_lists L (map f L) y = f y.
Proof.
  intros C Fn H. assert (O := cp_ok n L C). unfold match_lists. destruct (complete_cases n L C y H) as (i & Hi & [-> | ->]).
  - rewrite pos_of_nth by (auto; apply O). rewrite (nth_indep _ 0 (f 0)) by (now rewrite map_length). now rewrite map_nth.
  - rewrite (proj2 (pos_of_None (neg (nth i L 0)) L)) by (apply (lo_neg n L O); now apply nth_In). rewrite neg_neg, pos_of_nth by (auto; apply O).
    rewrite (nth_indep _ 0 (f 0)) by (now rewrite map_length). rewrite map_nth. rewrite <- Fn; auto. apply (lo_lt n L O). now apply nth_In.
Qed.
Definition cJ n m s u (x y : nat * Z) : nat -> nat := match_lists (clist n s x) (clist m u y).
Lemma starts_sign oriented n x : In x (starts oriented n) -> fst x < n /\ (snd x = 1%Z \/ snd x = (-1)%Z).
Proof. destruct x as [h o]. intros I. apply in_starts in I as [H O]. cbn [fst snd]. split; auto. tauto. Qed.
Lemma turn_mirrored o o' : (o = 1%Z \/ o = (-1)%Z) -> (o' = 1%Z \/ o' = (-1)%Z) -> turn (negb (o =? o')%Z) o = o'.
Proof. intros [-> | ->] [-> | ->]; reflexivity. Qed.
Lemma word_iso n m s u oriented x y : closed_connected n s -> closed_connected m u -> In x (starts oriented n) -> In y (starts oriented m) -> cword n s x = cword m u y ->
  n = m /\ exists f, gluing (mirrored x y) n m s u f /\ f (fst x) = fst y /\ clist m u y = map f (clist n s x) /\ (forall z, z < n -> cJ n m s u x y z = f z).
Proof.
  intros (S & Cs & P) (U & Cu & Q) Hx Hy E. destruct (starts_sign _ _ _ Hx) as [Lx Ox]. destruct (starts_sign _ _ _ Hy) as [Ly Oy].
  assert (Ev := wf_mod n _ (fs_wf n s (proj1 S))). assert (Eu := wf_mod m _ (fs_wf m u (proj1 U))).
  destruct (same_word_iso n (gF s (snd x)) (vv s) m (gF u (snd y)) (vv u) (fst x) (fst y)) as (<- & f & T & Ef & El);
    auto using gF_triangles, gF_closing, gF_reaches.
  split; auto. exists f. split; [now apply map_gluing|]. split; auto. split; auto. intros z Hz. unfold cJ. unfold clist at 2. rewrite El.
  apply (match_map n); auto; [now apply walk_complete|apply T].
Qed.
Lemma iso_word n s u oriented b f x : closed_connected n s -> closed_connected n u -> In x (starts oriented n) -> gluing b n n s u f ->
  cword n s x = cword n u (f (fst x), turn b (snd x)) /\ clist n u (f (fst x), turn b (snd x)) = map f (clist n s x).
Proof.
  intros (S & Cs & P) (U & Cu & Q) Hx G. destruct (starts_sign _ _ _ Hx) as [Lx Ox]. assert (T := gluing_map b n s u f (snd x) S U Ox G).
  destruct (iso_same_word n (gF s (snd x)) n (gF u (turn b (snd x))) f (fst x)) as [A B]; auto using gF_triangles, (wf_mod n _ (fs_wf n s (proj1 S))).
Qed.
Lemma gluing_ext b n m s u f f' : closed_flat n s -> (forall x, x < n -> f' x = f x) -> gluing b n m s u f -> gluing b n m s u f'.
Proof.
  intros S J G. assert (N := neg_ltn n _ (fs_wf n s (proj1 S))). assert (L := fun z => fF_lt n s z (proj1 S)). assert (Lv := fun z => fV_lt n s z (proj1 S)).
  destruct b; cbn [gluing] in G |- *; destruct G as (((g & B1 & B2) & Fn) & G); (split; [split; [exists g; split; intros z Hz|intros z Hz]; rewrite ?J by auto; auto|intros z Hz; rewrite !J by auto; auto]).
  all: destruct (B2 z Hz); split; auto; now rewrite J.
Qed.
Lemma c_same_iso n m s u oriented x y : closed_connected n s -> closed_connected m u -> In x (starts oriented n) -> In y (starts oriented m) ->
  map (fun c => c) (cword n s x) = map (fun c => c) (cword m u y) -> gluing (mirrored x y) n m s u (cJ n m s u x y) /\ cJ n m s u x y (fst x) = fst y.
Proof.
  intros CS CU Hx Hy W. rewrite !map_id in W. destruct (word_iso n m s u oriented x y CS CU Hx Hy W) as (_ & f & G & Ef & _ & J).
  split; [|rewrite J; auto; now apply (starts_sign oriented)]. apply (gluing_ext _ n m s u f); auto. apply CS.
Qed.
Lemma c_iso_same n m s u oriented b f x : closed_connected n s -> closed_connected m u -> gluing b n m s u f -> In x (starts oriented n) -> In (f (fst x), turn b (snd x)) (starts oriented m) ->
  map (fun c => c) (cword n s x) = map (fun c => c) (cword m u (f (fst x), turn b (snd x))).
Proof.
  intros CS CU G Hx _. rewrite !map_id. assert (n = m) as <- by (apply (edge_bijection_size n m f); now apply (gluing_edges b n m s u)). now apply (iso_word n s u oriented).
Qed.
Lemma c_determined n m s u oriented b f x : closed_connected n s -> closed_connected m u -> gluing b n m s u f -> In x (starts oriented n) ->
  forall y, y < n -> f y = cJ n m s u x (f (fst x), turn b (snd x)) y.
Proof.
  intros CS CU G Hx y Hy. assert (E := gluing_edges b n m s u f G). assert (n = m) as <- by (now apply (edge_bijection_size n m f)). destruct (iso_word n s u oriented b f x CS CU Hx G) as [_ El].
  unfold cJ. rewrite El. symmetry. destruct (starts_sign _ _ _ Hx) as [Lx _]. apply (match_map n); auto; [apply walk_complete; auto; apply CS|apply E].
Qed.
End combinatorial.
