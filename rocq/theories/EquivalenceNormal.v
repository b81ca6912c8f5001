(** * Normal forms of surfaces *)
From Coq Require Import ZArith Reals List Arith Bool Lia Lra Permutation.
From Verif Require Import Base HalfEdge HalfEdgeFacts Perm PermSpec PermFacts PermCycles IndexedSet Combinatorial CombinatorialSpec CombinatorialFacts CombinatorialOps CombinatorialSlit
  ExactReal Vector PlaneSpec Plane VectorFacts FlatTri FlatSpec FlatFacts FlatSum FlatLinear FlatOps FlatAngle
  Point PointSpec Linear Saddle Deform DeformSpec DeformFacts DeformPath DeformGood DeformCompose
  Equivalence EquivalenceWalk EquivalenceSame EquivalenceWord EquivalenceSpec EquivalenceFacts.
Import ListNotations.
Local Open Scope nat_scope.

(** ** New labels *)
(** The label of [h] in the normal form. *)
Definition lbl (L : list nat) (h : nat) : nat :=
  match pos_of h L with
  | Some i => 2 * i
  | None => match pos_of (neg h) L with Some i => S (2 * i) | None => 0 end
  end.
(** The half edge with label [k]. *)
Definition unlbl (L : list nat) (k : nat) : nat := if Nat.even k then nth (k / 2) L 0 else neg (nth (k / 2) L 0).
(** All edges are labeled. *)
Record complete (n : nat) (L : list nat) : Prop := {
  cp_ok : labeled_ok n L;
  cp_all : forall x, x < n -> In x L \/ In (neg x) L;
  cp_length : n = 2 * length L
}.
Section complete.
Variables (n : nat) (L : list nat).
Hypothesis C : complete n L.
Let O := cp_ok n L C.

Lemma lbl_in i : i < length L -> lbl L (nth i L 0) = 2 * i.
Proof. intros H. unfold lbl. rewrite pos_of_nth; auto. apply O. Qed.
Lemma lbl_out i : i < length L -> lbl L (neg (nth i L 0)) = S (2 * i).
Proof.
  intros H. unfold lbl. rewrite (proj2 (pos_of_None (neg (nth i L 0)) L)) by (apply (lo_neg n L O); now apply nth_In).
  rewrite neg_neg, pos_of_nth; auto. apply O.
Qed.
Lemma complete_cases h : h < n -> exists i, i < length L /\ (h = nth i L 0 \/ h = neg (nth i L 0)).
Proof.
  intros H. destruct (cp_all n L C h H) as [I|I]; apply In_nth with (d := 0) in I as (i & Hi & E); exists i; split; auto. right. now rewrite E, neg_neg.
Qed.
Lemma lbl_lt h : h < n -> lbl L h < n.
Proof.
  intros H. assert (Q := cp_length n L C). destruct (complete_cases h H) as (i & Hi & [-> | ->]); rewrite ?lbl_in, ?lbl_out by auto; lia.
Qed.
Lemma lbl_neg h : h < n -> lbl L (neg h) = neg (lbl L h).
Proof.
  intros H. destruct (complete_cases h H) as (i & Hi & [-> | ->]); rewrite ?neg_neg, ?lbl_in, ?lbl_out by auto; [now rewrite neg_even|now rewrite neg_odd].
Qed.
Lemma unlbl_lbl h : h < n -> unlbl L (lbl L h) = h.
Proof.
  intros H. destruct (complete_cases h H) as (i & Hi & [-> | ->]); rewrite ?lbl_in, ?lbl_out by auto; unfold unlbl.
  - rewrite Nat.even_mul. cbn [Nat.even orb]. now rewrite Nat.mul_comm, Nat.div_mul by lia.
  - rewrite Nat.even_succ, <- Nat.negb_even, Nat.even_mul. cbn [Nat.even orb negb]. f_equal. f_equal.
    symmetry. apply (Nat.div_unique _ _ _ 1); lia.
Qed.
Lemma unlbl_lt k : k < n -> unlbl L k < n.
Proof.
  intros H. assert (Q := cp_length n L C). assert (D := Nat.div_mod_eq k 2). assert (M := Nat.mod_upper_bound k 2).
  assert (I : In (nth (k / 2) L 0) L) by (apply nth_In; lia). assert (N := lo_lt n L O _ I).
  unfold unlbl. destruct (Nat.even k); auto. rewrite Q in *. now apply neg_lt.
Qed.
Lemma lbl_unlbl k : k < n -> lbl L (unlbl L k) = k.
Proof.
  intros H. assert (Q := cp_length n L C). assert (D := Nat.div_mod_eq k 2). assert (M := Nat.mod_upper_bound k 2).
  assert (I : k / 2 < length L) by lia. unfold unlbl. rewrite <- (Nat.negb_odd k). destruct (Nat.odd k) eqn:E; cbn [negb].
  - rewrite lbl_out by auto. apply Nat.odd_spec in E as (j & ->). rewrite Nat.add_1_r in *. f_equal. f_equal. symmetry. apply (Nat.div_unique _ _ _ 1); lia.
  - rewrite lbl_in by auto. rewrite <- Nat.negb_even in E. apply negb_false_iff in E. apply Nat.even_spec in E as (j & ->). rewrite (Nat.mul_comm 2 j), Nat.div_mul by lia. lia.
Qed.
Lemma lbl_bijection : bijection n (lbl L) (unlbl L).
Proof. split; intros h H; split; auto using lbl_lt, unlbl_lbl, unlbl_lt, lbl_unlbl. Qed.
Lemma lbl_inj x y : x < n -> y < n -> lbl L x = lbl L y -> x = y.
Proof. intros Hx Hy E. rewrite <- (unlbl_lbl x Hx), <- (unlbl_lbl y Hy). now f_equal. Qed.
Definition labels_of : list (nat * nat) := map (fun h => (h, lbl L h)) (seq 0 n).
Lemma labels_maps : maps_to n labels_of (lbl L).
Proof. exists (seq 0 n). split; auto. intros h. rewrite in_seq. lia. Qed.
Lemma labels_perm : exists p, perm_of_pairs labels_of = Ok p /\ renaming n p /\ forall h, h < n -> fw p h = lbl L h.
Proof.
  destruct (rep_perm n (lbl L) labels_of) as (p & E & W & Q).
  - split.
    + unfold labels_of. rewrite map_map. cbn [fst]. rewrite map_id. apply seq_NoDup.
    + intros k v. unfold labels_of. rewrite in_map_iff. split.
      * intros (h & [= <- <-] & I). apply in_seq in I. split; auto. lia.
      * intros [H ->]. exists k. split; auto. apply in_seq. lia.
  - apply lbl_lt.
  - apply lbl_inj.
  - exists p. split; auto. split; auto. split; auto. intros h H. assert (Hn : neg h < n) by (rewrite (cp_length n L C) in *; now apply neg_lt). rewrite !Q by auto. now apply lbl_neg.
Qed.
End complete.
Lemma lbl_map n L f h : (forall x y, x < n -> y < n -> f x = f y -> x = y) -> (forall x, x < n -> f (neg x) = neg (f x)) -> (forall x, x < n -> neg x < n) ->
  (forall x, In x L -> x < n) -> h < n -> lbl (map f L) (f h) = lbl L h.
Proof.
  intros Inj Neg N A H. unfold lbl. rewrite <- Neg, !pos_of_map; auto.
Qed.

Section facts.
Context {K : ExactReal}.
Implicit Types s u : flat K.

Lemma walk_complete n s o h : closed_flat n s -> connected n s -> h < n -> complete n (walk_list n (gF s o) h).
Proof.
  intros S Cn H. assert (T := gF_triangles n s o S). assert (Ev := wf_mod n _ (fs_wf n s (proj1 S))).
  destruct (walk_ok n _ h T Ev H) as (W & _ & _). assert (Cl := gF_closing n s o S). assert (R := gF_reaches n s o S Cn). constructor.
  - apply W.
  - now apply (all_known n _ (vv s) T Cl).
  - rewrite (all_length n _ (vv s) T Cl _ Ev R W). assert (D := Nat.div_mod_eq n 2). lia.
Qed.

(** ** The normal form of a combinatorial walker *)
Lemma relabeling_at n s o k L : closed_flat n s -> complete n L -> relabeling (cw_at s o k L) = Ok (labels_of n L).
Proof.
  intros S C. unfold relabeling, labels_of, half_edges. cbn [cw_surface cw_labels cw_at].
  assert (E : tsize (fT s) = n) by (apply (wf_size n), S). rewrite E. apply omap_map. intros h I. apply in_seq in I. rewrite !find_number. unfold lbl.
  destruct (pos_of h L) as [i|] eqn:P; cbn [option_map].
  - f_equal. f_equal. unfold he_of_id. replace (0 <? Z.of_nat i + 1)%Z with true by (symmetry; apply Z.ltb_lt; lia). lia.
  - destruct (pos_of (neg h) L) as [i|] eqn:P'; cbn [option_map].
    + f_equal. f_equal. unfold he_of_id. replace (0 <? - (Z.of_nat i + 1))%Z with false by (symmetry; apply Z.ltb_ge; lia). lia.
    + exfalso. apply pos_of_None in P, P'. destruct (cp_all n L C h); [lia|auto|auto].
Qed.
Lemma relabels_total n s u m f es b : closed_flat n s -> closed_flat n u -> maps_to n m f -> (forall h, h < n -> f h < n) -> (forall e, In e es -> e < n) ->
  exists b', relabels s u m es b = Ok b'.
Proof.
  intros S U M Lt. induction es as [|e es IH]; intros H; cbn [relabels]; [now exists b|].
  assert (He : e < n) by (apply H; cbn; auto). unfold positive. rewrite (lookup_mapped n m f e M He).
  rewrite (from_he_Ok s e) by (now rewrite (fs_length n s (proj1 S))). cbn [bind].
  rewrite (from_he_Ok u (f e)) by (rewrite (fs_length n u (proj1 U)); auto). cbn [bind].
  destruct (negb _); [now exists false|]. apply IH. intros x I. apply H. now right.
Qed.
Lemma make_combinatorial_total n s u m f : closed_flat n s -> closed_flat n u -> maps_to n m f -> (forall h, h < n -> f h < n) ->
  exists b, make_combinatorial s u m = Ok (RCombinatorial s u m b).
Proof.
  intros S U M Lt. unfold make_combinatorial. destruct (relabels_total n s u m f (edges (fT s)) true S U M Lt) as (b & ->); [|now exists b].
  intros e I. now apply (in_edges n _ e (fs_wf n s (proj1 S))) in I.
Qed.
Lemma relabel_total n s p : closed_flat n s -> renaming n p ->
  exists r, deform_relabel s p = Ok r /\ closed_flat n (codomain r) /\ forall h, h < n -> fF (codomain r) (fw p h) = fw p (fF s h) /\ fV (codomain r) (fw p h) = fw p (fV s h) /\ vv (codomain r) (fw p h) = vv s h.
Proof.
  intros [S C] [W E]. unfold deform_relabel. destruct (frelabel_Ok n s p S C W E) as (u & -> & U & Q). cbn [bind].
  assert (Cu : closed_surface n u).
  { intros x Hx B. pose proof W as (_ & _ & B1 & B2). destruct (B2 x Hx) as [L X]. destruct (Q _ L) as (F & _). rewrite X in F. rewrite B in F. apply (C _ L).
    assert (L' := fF_lt n s _ S L). destruct (B1 _ L') as [_ Y]. rewrite <- F in Y. destruct (B1 _ L) as [_ Z]. congruence. }
  assert (Pf : psize p = n) by (destruct W as (X & _); exact X).
  unfold make_combinatorial_perm. rewrite (omap_map _ (fun h => (h, fw p h))).
  2:{ intros a I. apply in_seq in I. rewrite (papp_Ok n); [reflexivity|apply W|lia]. }
  cbn [bind]. assert (M : maps_to n (map (fun h => (h, fw p h)) (seq 0 (psize p))) (fw p)).
  { exists (seq 0 (psize p)). split; auto. intros h. rewrite in_seq. lia. }
  destruct (make_combinatorial_total n s u _ (fw p) (conj S C) (conj U Cu) M) as (b & Eb); [intros h H; now apply W|].
  eexists. split; [exact Eb|]. cbn [codomain]. split; [now split|]. intros h H. now apply Q.
Qed.
Lemma clone_total n s : closed_flat n s -> exists u, fclone s = Ok u /\ closed_flat n u /\ same_surface n s u.
Proof.
  intros [S C]. destruct (fclone_Ok n s S) as (u & E & U & A & B). exists u. split; auto.
  assert (Sm : same_surface n s u) by (intros h H; destruct (A h H); auto). split; auto. split; auto. intros e H. destruct (A e H) as [-> _]. now apply C.
Qed.
(** The normal form of a complete walker: the surface with new labels. *)
Lemma cw_normal n s o k L : closed_flat n s -> complete n L ->
  exists u, cw_normalization (cw_at s o k L) = Ok u /\ closed_flat n u /\ renames n s u (lbl L) (unlbl L).
Proof.
  intros S C. unfold cw_normalization. rewrite (relabeling_at n) by auto. cbn [bind].
  destruct (labels_perm n L C) as (p & -> & P & Q). cbn [bind]. destruct (relabel_total n s p S P) as (r & E & U & Eu). cbn [cw_surface cw_at]. rewrite E. cbn [bind].
  destruct (clone_total n _ U) as (v & Ev & V & Sm). exists v. split; auto. split; auto. split; [now apply lbl_bijection|]. split; [now apply (lbl_neg n L C)|].
  intros h H. assert (Hl := lbl_lt n L C h H). destruct (Sm _ Hl) as (-> & -> & ->). rewrite <- !Q by (auto; try (now apply (fF_lt n s _ (proj1 S))); now apply (fV_lt n s _ (proj1 S))). now apply Eu.
Qed.
Lemma cw_deformation_total n s o k L u : closed_flat n s -> closed_flat n u -> complete n L ->
  exists b, cw_deformation (cw_at s o k L) u = Ok (RCombinatorial s u (labels_of n L) b).
Proof.
  intros S U C. unfold cw_deformation. rewrite (relabeling_at n) by auto. cbn [bind cw_surface cw_at].
  apply (make_combinatorial_total n s u _ (lbl L)); auto using labels_maps. now apply lbl_lt.
Qed.

(** ** The normal form of a linear walker *)
(** [u] is the image of [s] under the linear map with matrix [a], [b], [c], [d], with new labels; [o] is the sign of the determinant. *)
Record normal_form (n : nat) s (o : Z) (L : list nat) (a b c d : R) u : Prop := {
  nm_face : forall h, h < n -> fF u (lbl L h) = lbl L (gF s o h);
  nm_vec : forall h, h < n -> vv u (lbl L h) = papply a b c d (vv s h)
}.
Definition sign_is (o : Z) (det : R) : Prop := (o = 1%Z /\ 0 < det)%R \/ (o = (-1)%Z /\ det < 0)%R.
Lemma matrix_total n s (a b c d : K) : closed_flat n s -> (den a * den d - den b * den c <> 0)%R ->
  exists u, deform_matrix s a b c d = Ok (RLinear s u a b c d) /\ closed_flat n u /\ linearly n s u (den a) (den b) (den c) (den d).
Proof.
  intros S D. destruct (apply_matrix_Ok n s a b c d (proj1 S) (proj2 S) D) as (u & E & _). exists u. unfold deform_matrix. rewrite E. split; auto. now apply linearly_matrix.
Qed.
(** The triangles of the image of a surface. *)
Lemma linearly_gF n s u o a b c d h : closed_flat n s -> linearly n s u a b c d -> sign_is o (a * d - b * c) -> h < n -> fF u h = gF s o h.
Proof.
  intros S (_ & _ & P & M) [[-> D]|[-> D]] H; rewrite (gF_eq n) by auto; cbn.
  - now apply P.
  - assert (W := fs_wf n s (proj1 S)). assert (Hn := neg_ltn n _ W h H). set (x := fF s (fF s (neg h))).
    assert (Hx : x < n) by (unfold x; auto using (fF_lt n s _ (proj1 S))). destruct (M D x Hx) as [E _]. unfold x in E at 1. rewrite (fF3 n s _ (proj1 S)), neg_neg in E by auto. exact E.
Qed.
Lemma lw_normal n s o k L (a b c d : K) : closed_flat n s -> complete n L -> sign_is o (den a * den d - den b * den c) ->
  exists u, lw_normalization (mkLW (cw_at s o k L) (a, b, c, d)) = Ok u /\ closed_flat n u /\ normal_form n s o L (den a) (den b) (den c) (den d) u.
Proof.
  intros S C D. unfold lw_normalization. cbn [lw_combinatorial lw_matrix]. destruct (cw_normal n s o k L S C) as (u & -> & U & R). cbn [bind].
  assert (D0 : (den a * den d - den b * den c <> 0)%R) by (destruct D as [[_ D]|[_ D]]; lra).
  destruct (matrix_total n u a b c d U D0) as (v & -> & V & Ln). cbn [bind codomain]. destruct (clone_total n v V) as (w & -> & W & Sm).
  exists w. split; auto. split; auto. destruct R as (B & Fn & Ru). assert (N := neg_ltn n _ (fs_wf n s (proj1 S))). assert (Lt := fun x => fF_lt n s x (proj1 S)).
  constructor; intros h H; destruct (B) as [B1 B2]; destruct (B1 h H) as [Hl _].
  - destruct (Sm _ Hl) as (-> & _). rewrite (linearly_gF n u v o _ _ _ _ _ U Ln D Hl). rewrite !(gF_eq n) by auto. destruct (0 <? o)%Z; [now apply Ru|].
    rewrite <- Fn by auto. destruct (Ru (neg h)) as (-> & _); auto. destruct (Ru (fF s (neg h))) as (-> & _); auto. rewrite Fn; auto.
  - destruct (Sm _ Hl) as (_ & _ & ->). destruct Ln as (_ & Vv & _). rewrite (Vv _ Hl). destruct (Ru h H) as (_ & _ & ->). reflexivity.
Qed.

(** The deformation to the normal form. *)
Lemma normal_renames n s u o L a b c d v : closed_flat n s -> closed_flat n u -> closed_flat n v -> complete n L -> linearly n s u a b c d -> sign_is o (a * d - b * c) -> normal_form n s o L a b c d v ->
  renames n u v (lbl L) (unlbl L).
Proof.
  intros S U V C Ln D Nf. split; [now apply lbl_bijection|]. split; [now apply (lbl_neg n L C)|]. intros h H.
  assert (F : forall x, x < n -> fF v (lbl L x) = lbl L (fF u x)). { intros x Hx. rewrite (nm_face _ _ _ _ _ _ _ _ _ Nf x Hx). f_equal. symmetry. now apply (linearly_gF n s u o a b c d). }
  split; auto. split.
  - assert (Hl := lbl_lt n L C h H). assert (H1 := fF_lt n u h (proj1 U) H). assert (H2 := fF_lt n u _ (proj1 U) H1).
    rewrite (fV_eq n v _ (proj1 V) Hl) by (now apply (proj2 V)). rewrite (fV_eq n u h (proj1 U) H) by (now apply (proj2 U)). now rewrite !F, (lbl_neg n L C) by auto.
  - rewrite (nm_vec _ _ _ _ _ _ _ _ _ Nf h H). destruct Ln as (_ & -> & _); auto.
Qed.
End facts.
