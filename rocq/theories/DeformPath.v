(** * Images of paths *)
From Coq Require Import ZArith Reals List Arith Bool Lia Lra Psatz Relations Permutation.
From Verif Require Import Base HalfEdge HalfEdgeFacts Perm PermSpec PermFacts IndexedSet Combinatorial CombinatorialSpec CombinatorialFacts CombinatorialOps
  ExactReal Vector PlaneSpec Plane VectorFacts FlatTri FlatSpec FlatFacts FlatSum FlatLinear FlatOps FlatAngle FlatSector
  Point PointSpec PointFacts PointOps PointHash Linear LinearProps Chain ChainSpec ChainFacts Saddle SaddleSpec SaddleFacts Deform DeformSpec DeformFacts.
Import ListNotations.
Local Open Scope nat_scope.

Section facts.
Context {K : ExactReal}.
Implicit Types s u : flat K.

(** ** Flips *)
Lemma pneg_nz (p : pt) : p <> (0, 0)%R -> pneg p <> (0, 0)%R.
Proof. intros H Q. apply H. rewrite <- (pneg_pneg p), Q. unfold pneg; cbn. apply pt_eq; cbn; lra. Qed.
Lemma segment_vectors n (x : segment K) : flat_surface n (sg_over x) -> length (sg_chain x) = n / 2 ->
  exists v w, sg_vector x = Ok v /\ vden v = sdir n x /\ zc_vector (sg_over x) (zc_neg (sg_chain x)) = Ok w /\ vden w = pneg (sdir n x).
Proof.
  intros S L. destruct (zc_vector_Ok n _ S (sg_chain x) L) as (v & E & V).
  destruct (zc_vector_Ok n _ S (zc_neg (sg_chain x))) as (w & E' & V'); [now rewrite zc_neg_length|].
  exists v, w. split; [exact E|]. split; [exact V|]. split; [exact E'|]. rewrite V', cvector_neg. reflexivity.
Qed.
Lemma flip_segment_ok n s u e x fuel : closed_flat n s -> closed_flat n u -> diagonals n s u e -> n + 1 < fuel ->
  departs n x -> same_surface n (sg_surface x) s ->
  exists y, flip_segment fuel s u e x = Ok y /\ sg_surface y = u /\ sg_chain y = sg_chain x /\ sg_over y = sg_over x /\ departs n y /\
    same_corner s u e (sg_source x) (sg_source y) (sdir n x) /\ same_corner s u e (sg_target x) (sg_target y) (pneg (sdir n x)).
Proof.
  intros S U D F (Sx & Ox & L & Hs & Ht & Nz & Cs & Ct) Sm.
  destruct (segment_vectors n x (proj1 Ox) L) as (v & w & Ev & Vv & Ew & Vw).
  apply (same_contains n _ s) in Cs; auto. apply (same_contains n _ s) in Ct; auto.
  rewrite <- Vv in Nz, Cs. rewrite <- Vw in Ct. assert (Nw : vden w <> (0, 0)%R) by (rewrite Vw, <- Vv; now apply pneg_nz).
  destruct (flip_sector n s u e _ v fuel S U D Hs Nz F Cs) as (h0 & h & E0 & E & H & Q).
  destruct (flip_sector n s u e _ w fuel S U D Ht Nw F Ct) as (g0 & g & E0' & E' & H' & Q').
  exists (mkSegment u h g (sg_chain x) (sg_over x)). unfold flip_segment. rewrite E0. cbn [bind]. rewrite E0'. cbn [bind]. rewrite Ev. cbn [bind].
  rewrite E. cbn [bind]. rewrite Ew. cbn [bind]. rewrite E'. cbn [bind]. rewrite Vv in *. rewrite Vw in *.
  do 4 (split; [reflexivity|]). split; [|split; assumption].
  unfold departs. cbn [sg_surface sg_over sg_chain sg_source sg_target]. change (sdir n (mkSegment u h g (sg_chain x) (sg_over x))) with (sdir n x).
  destruct Q as (_ & Q & _). destruct Q' as (_ & Q' & _). auto 12.
Qed.

(** ** Linear maps *)
(** [u] is the image of [s] under a linear map. *)
Definition linearly (n : nat) s u (a b c d : R) : Prop :=
  (a * d - b * c <> 0)%R /\ (forall h, h < n -> vv u h = papply a b c d (vv s h)) /\
  ((0 < a * d - b * c)%R -> forall h, h < n -> fF u h = fF s h /\ fV u h = fV s h) /\
  ((a * d - b * c < 0)%R -> forall h, h < n -> fF u (neg (fF s h)) = neg h /\ fV u (fV s h) = h).
Lemma linearly_matrix n s u (a b c d : K) : closed_flat n s -> apply_matrix s a b c d = Ok u ->
  closed_flat n u /\ linearly n s u (den a) (den b) (den c) (den d).
Proof.
  intros [S C] E.
  destruct (Req_dec (mdet (den a) (den b) (den c) (den d)) 0) as [Z|Z]; [rewrite (apply_matrix_Throw n s a b c d S) in E; [discriminate|auto]|].
  destruct (apply_matrix_Ok n s a b c d S C Z) as (u' & E' & U & Cu & V & P & M). rewrite E in E'. injection E' as <-. split; [now split|].
  unfold mdet in *. split; auto. split; auto. split.
  - intros D h H. assert (H1 := fF_lt n s h S H). split; [now apply P|]. rewrite !(fV_eq n) by auto. now rewrite (P D h H), (P D _ H1).
  - intros D h H. assert (H1 := fF_lt n s h S H). assert (H2 := fF_lt n s _ S H1). assert (Hn := neg_ltn n _ (fs_wf n s S) _ H2). split; [now apply M|].
    rewrite (fV_eq n s) by auto. rewrite (fV_eq n u) by auto. rewrite (M D _ H1), (M D h H). apply neg_neg.
Qed.
Lemma papply_nz a b c d p : (a * d - b * c <> 0)%R -> p <> (0, 0)%R -> papply a b c d p <> (0, 0)%R.
Proof.
  intros D N Q. apply N. unfold papply in Q. injection Q as Q1 Q2. destruct p as [x y]. cbn [fst snd] in *.
  assert ((a * d - b * c) * x = 0)%R by (replace ((a * d - b * c) * x)%R with (d * (a * x + b * y) - b * (c * x + d * y))%R by ring; rewrite Q1, Q2; ring).
  assert ((a * d - b * c) * y = 0)%R by (replace ((a * d - b * c) * y)%R with (a * (c * x + d * y) - c * (a * x + b * y))%R by ring; rewrite Q1, Q2; ring).
  apply pt_eq; cbn [fst snd].
  - apply Rmult_integral in H as [H|H]; [contradiction|exact H].
  - apply Rmult_integral in H0 as [H0|H0]; [contradiction|exact H0].
Qed.
Lemma sector_strict n s h d : closed_flat n s -> h < n -> d <> (0, 0)%R -> sector_contains s h d -> pdet (vv s (fV s h)) d <> 0%R.
Proof. intros S H N C. apply (contains_signs n) in C as [_ C]; auto. rewrite pdet_swap'. lra. Qed.

Lemma linear_sector n s u a b c d (p : bool) h w (v : vec K) fuel : closed_flat n s -> closed_flat n u -> linearly n s u a b c d ->
  (if p then 0 < a * d - b * c else a * d - b * c < 0)%R -> h < n -> w <> (0, 0)%R -> vden v = papply a b c d w -> n + 1 < fuel -> sector_contains s h w ->
  exists h0 h', (if p then Ok h else nextAtVertex (fT s) h) = Ok h0 /\ sector_turn fuel u h0 COUNTERCLOCKWISE v false = Ok h' /\ h' < n /\
    corner_image s (fun h => h) (a * d - b * c) h w h' /\ sector_contains u h' (papply a b c d w).
Proof.
  intros S U (Dt & V & P & M) Sg H Nw Ev F C. assert (Nv : vden v <> (0, 0)%R) by (rewrite Ev; now apply papply_nz).
  pose proof C as Ch. apply (contains_signs n) in Ch as [C1 C2]; auto. assert (H1 := fV_lt n s h (proj1 S) H).
  assert (Tu : forall k, k < n -> (0 <= pdet (vv u k) (vden v))%R -> (0 < pdet (vden v) (vv u (fV u k)))%R -> sector_contains u k (vden v)).
  { intros k Hk Q1 Q2. apply (contains_signs n); auto. }
  set (det := (a * d - b * c)%R) in *. destruct p.
  - exists h, h. assert (Q : sector_contains u h (vden v)).
    { apply Tu; auto; rewrite Ev; rewrite ?(proj2 (P Sg h H)), ?V, pdet_papply by auto; fold det; [now apply Rmult_le_pos; lra|now apply Rmult_lt_0_compat]. }
    split; auto. split; [now apply (turn_here n)|]. split; auto. rewrite <- Ev. split; auto. repeat split; auto; lra.
  - exists (fV s h). rewrite (nextV_Ok n) by (auto; apply S). fold (fV s h). destruct (M Sg h H) as [_ Vn].
    destruct (Req_dec (pdet (vv s h) w) 0) as [Z|Z].
    + exists h. split; auto.
      assert (N : ~ sector_contains u (fV s h) (vden v)).
      { intros Q. apply (contains_signs n) in Q as [_ Q]; auto. rewrite Vn, Ev, V, pdet_papply in Q by auto. rewrite pdet_swap', Z in Q. lra. }
      assert (Q : sector_contains u h (vden v)).
      { apply Tu; auto; [rewrite Ev, V, pdet_papply, Z by auto; lra|]. assert (K' := corner_det n u h (proj1 U) H (proj2 U h H)).
        (* w is a positive multiple of h *)
        assert (E : exists r, (0 < r)%R /\ vden v = pscale r (vv u h)).
        { assert (Ks := corner_det n s h (proj1 S) H (proj2 S h H)). rewrite Ev, V by auto. clear - Z C2 Ks. destruct (vv s h) as [x y], (vv s (fV s h)) as [x' y'], w as [p q].
          unfold pdet in *; cbn [fst snd] in *. exists ((p * y' - q * x') / (x * y' - y * x'))%R. split; [now apply Rdiv_lt_0_compat|].
          assert (I1 : (p * (x * y' - y * x') = (p * y' - q * x') * x)%R) by (replace (p * (x * y' - y * x'))%R with ((p * y' - q * x') * x + x' * (x * q - y * p))%R by ring; rewrite Z; ring).
          assert (I2 : (q * (x * y' - y * x') = (p * y' - q * x') * y)%R) by (replace (q * (x * y' - y * x'))%R with ((p * y' - q * x') * y + y' * (x * q - y * p))%R by ring; rewrite Z; ring).
          assert (E1 : (p = (p * y' - q * x') / (x * y' - y * x') * x)%R) by (field_simplify_eq; [lra|lra]).
          assert (E2 : (q = (p * y' - q * x') / (x * y' - y * x') * y)%R) by (field_simplify_eq; [lra|lra]).
          set (r := ((p * y' - q * x') / (x * y' - y * x'))%R) in *. unfold papply, pscale. cbn [fst snd]. rewrite E1, E2 at 1. apply pt_eq; cbn [fst snd]; [|rewrite E1, E2 at 1]; ring. }
        destruct E as (r & R0 & ->). replace (pdet (pscale r (vv u h)) (vv u (fV u h))) with (r * pdet (vv u h) (vv u (fV u h)))%R by (unfold pdet, pscale; cbn; ring).
        now apply Rmult_lt_0_compat. }
      split; [|split; auto].
      * rewrite <- Vn at 2. apply (turn_next n); auto. now rewrite Vn.
      * rewrite <- Ev. split; auto. repeat split; auto; lra.
    + exists (fV s h). split; auto.
      assert (Q : sector_contains u (fV s h) (vden v)).
      { apply Tu; auto; rewrite ?Vn, Ev, !V, pdet_papply by auto; fold det; rewrite pdet_swap'; nra. }
      split; [now apply (turn_here n)|]. split; auto. rewrite <- Ev. split; auto. repeat split; auto; lra.
Qed.

(** ** Chains *)
Lemma half_edge_coefs n s h : flat_surface n s -> h < n ->
  exists c, zc_half_edge s h = Ok c /\ length c = n / 2 /\ forall i, nth i c 0%Z = single h i.
Proof.
  intros S H. destruct (zc_add_he_Ok n s S (zc_zero s) h (zc_zero_length n s S) H) as (c & E & L & _ & N). exists c. split; auto. split; auto.
  intros i. rewrite N. unfold zc_zero. destruct (nth_in_or_default i (repeat 0%Z (tsize (fT s) / 2)) 0%Z) as [Q|Q]; [apply repeat_spec in Q|]; rewrite Q; lia.
Qed.
Lemma nth_scale z c i : nth i (map (Z.mul z) c) 0%Z = (z * nth i c 0)%Z.
Proof. rewrite <- (Z.mul_0_r z) at 1. apply map_nth. Qed.
Lemma add_scaled n s z h d : flat_surface n s -> h < n -> length d = n / 2 ->
  exists r, (do x <- zc_half_edge s h; zc_op Z.add d (map (Z.mul z) x)) = Ok r /\ length r = n / 2 /\ forall i, nth i r 0%Z = (nth i d 0 + z * single h i)%Z.
Proof.
  intros S H L. destruct (half_edge_coefs n s h S H) as (c & E & Lc & N). rewrite E. cbn [bind].
  destruct (zc_op_Ok Z.add d (map (Z.mul z) c)) as (r & Er & Lr & Nr); [rewrite map_length; congruence|reflexivity|]. exists r. split; auto. split; [congruence|].
  intros i. now rewrite Nr, nth_scale, N.
Qed.
Lemma single_even k i : single (2 * k) i = if i =? k then 1%Z else 0%Z.
Proof. unfold single. rewrite div2_even. now rewrite (proj2 (Nat.even_spec (2 * k))) by (now exists k). Qed.
Lemma copy_chain_ok n u c : flat_surface n u -> length c = n / 2 -> forall l k d, k + l <= n / 2 -> length d = n / 2 ->
  exists r, copy_chain u (map (fun i => 2 * i) (seq k l)) c d = Ok r /\ length r = n / 2 /\
    forall i, nth i r 0%Z = (nth i d 0 + if (Nat.leb k i && Nat.ltb i (k + l)%nat)%bool then nth i c 0 else 0)%Z.
Proof.
  intros U L. assert (En := n_even n u U). induction l as [|l IH]; intros k d B Ld; cbn [seq map copy_chain].
  - exists d. split; auto. split; auto. intros i. replace ((k <=? i) && (i <? k + 0)) with false; [lia|]. symmetry. apply andb_false_iff.
    destruct (le_lt_dec k i); [right; apply Nat.ltb_ge; lia|left; apply Nat.leb_gt; lia].
  - unfold edge_index. rewrite div2_even. rewrite (vget_nth _ _ 0%Z) by lia. cbn [bind].
    destruct (add_scaled n u (nth k c 0%Z) (2 * k) d U) as (r & E & Lr & Nr); auto; [lia|]. unfold positive.
    destruct (zc_half_edge u (2 * k)) as [x| | |]; try discriminate. cbn [bind] in *. rewrite E. cbn [bind].
    destruct (IH (Datatypes.S k) r) as (q & Eq & Lq & Nq); auto; [lia|]. exists q. split; [exact Eq|]. split; auto.
    intros i. rewrite Nq, Nr, single_even. destruct (Nat.eqb_spec i k) as [->|Ne].
    + rewrite Nat.leb_refl. replace (k <? k + Datatypes.S l) with true by (symmetry; apply Nat.ltb_lt; lia).
      replace (Datatypes.S k <=? k) with false by (symmetry; apply Nat.leb_gt; lia). cbn [andb]. lia.
    + replace (Datatypes.S k + l) with (k + Datatypes.S l) by lia.
      replace (Datatypes.S k <=? i) with (k <=? i); [lia|]. apply eq_true_iff_eq. rewrite !Nat.leb_le. lia.
Qed.
Lemma copy_ok n s u c : flat_surface n s -> flat_surface n u -> length c = n / 2 ->
  exists r, copy_chain u (edges (fT s)) c (zc_zero u) = Ok r /\ length r = n / 2 /\ forall i, nth i r 0%Z = nth i c 0%Z.
Proof.
  intros S U L. unfold edges. rewrite (wf_size n _ (fs_wf n s S)).
  destruct (copy_chain_ok n u c U L (n / 2) 0 (zc_zero u)) as (r & E & Lr & N); auto; [now apply zc_zero_length|]. exists r. split; auto. split; auto.
  intros i. rewrite N. assert (Z : nth i (zc_zero u) 0%Z = 0%Z).
  { unfold zc_zero. destruct (nth_in_or_default i (repeat 0%Z (tsize (fT u) / 2)) 0%Z) as [Q|Q]; [apply repeat_spec in Q|]; exact Q. }
  rewrite Z. cbn [Nat.leb andb plus]. destruct (Nat.ltb_spec i (n / 2)) as [Q|Q]; [lia|]. rewrite (nth_overflow c) by lia. lia.
Qed.
Lemma psum_papply a b c d {A} (f : A -> pt) l : papply a b c d (psum (map f l)) = psum (map (fun x => papply a b c d (f x)) l).
Proof.
  induction l as [|x l IH]; cbn [map psum]; [apply papply_zero|]. rewrite <- IH. symmetry. apply padd_papply.
Qed.
Lemma cvector_linear n s u a b c d k : (forall h, h < n -> vv u h = papply a b c d (vv s h)) -> flat_surface n s ->
  cvector n u k = papply a b c d (cvector n s k).
Proof.
  intros V S. assert (En := n_even n s S). unfold cvector, chain_vector. rewrite psum_papply. f_equal. apply map_ext_in. intros i I. apply in_seq in I. rewrite V by lia.
  unfold papply, pscale; cbn [fst snd]. apply pt_eq; cbn [fst snd]; ring.
Qed.
Lemma cvector_coefs n s c d : (forall i, nth i c 0%Z = nth i d 0%Z) -> cvector n s c = cvector n s d.
Proof. intros H. apply cvector_ext. auto. Qed.
Lemma papply_pneg a b c d p : papply a b c d (pneg p) = pneg (papply a b c d p).
Proof. symmetry. apply pneg_papply. Qed.

Lemma linear_segment_ok n s u (a b c d : K) a' b' c' d' x fuel : closed_flat n s -> closed_flat n u -> linearly n s u a' b' c' d' ->
  (den a * den d - den b * den c <> 0)%R -> (0 < den a * den d - den b * den c <-> 0 < a' * d' - b' * c')%R -> n + 1 < fuel -> seg_on n s x ->
  exists y, linear_segment fuel s u a b c d x = Ok y /\ sg_surface y = u /\ sg_over y = u /\ departs n y /\ (forall i, nth i (sg_chain y) 0%Z = nth i (sg_chain x) 0%Z) /\
    sdir n y = papply a' b' c' d' (sdir n x) /\
    corner_image s (fun h => h) (a' * d' - b' * c') (sg_source x) (sdir n x) (sg_source y) /\
    corner_image s (fun h => h) (a' * d' - b' * c') (sg_target x) (pneg (sdir n x)) (sg_target y).
Proof.
  intros S U Ln Dk Sg F ((Sx & Ox & L & Hs & Ht & Nz & Cs & Ct) & Sm & So).
  destruct (copy_ok n s u (sg_chain x) (proj1 S) (proj1 U) L) as (r & Er & Lr & Nr).
  apply (same_contains n _ s) in Cs; auto. apply (same_contains n _ s) in Ct; auto.
  assert (Vx : sdir n x = cvector n s (sg_chain x)) by (unfold sdir; symmetry; apply same_cvector; auto; apply Ox).
  assert (Vr : cvector n u r = papply a' b' c' d' (sdir n x)).
  { rewrite Vx, (cvector_coefs n u r (sg_chain x)) by auto. apply cvector_linear; [apply Ln|apply S]. }
  destruct (zc_vector_Ok n u (proj1 U) r Lr) as (v & Ev & Vv). destruct (zc_vector_Ok n u (proj1 U) (zc_neg r)) as (w & Ew & Vw); [now rewrite zc_neg_length|].
  rewrite cvector_neg in Vw. rewrite Vr in Vv, Vw. rewrite <- papply_pneg in Vw.
  assert (P : if linear_positive a b c d then (0 < a' * d' - b' * c')%R else (a' * d' - b' * c' < 0)%R).
  { unfold linear_positive. destruct (0 <? a * d - b * c)%X eqn:Q.
    - apply lt0b_spec in Q. rewrite den_sub, !den_mul in Q. now apply Sg.
    - assert (~ (0 < den a * den d - den b * den c)%R). { intros X. apply not_true_iff_false in Q. apply Q. apply lt0b_spec. rewrite den_sub, !den_mul. exact X. }
      destruct Ln as [Dl _]. destruct (Rtotal_order (a' * d' - b' * c') 0) as [X|[X|X]]; auto; [contradiction|]. exfalso. apply H. now apply Sg. }
  destruct (linear_sector n s u a' b' c' d' _ _ (sdir n x) v fuel S U Ln P Hs Nz Vv F Cs) as (h0 & h & E0 & E & H & Q & Z).
  destruct (linear_sector n s u a' b' c' d' _ _ (pneg (sdir n x)) w fuel S U Ln P Ht (pneg_nz _ Nz) Vw F Ct) as (g0 & g & E0' & E' & H' & Q' & Z').
  exists (mkSegment u h g r u). unfold linear_segment. rewrite Er. cbn [bind]. rewrite E0. cbn [bind]. rewrite E0'. cbn [bind]. rewrite Ev. cbn [bind].
  rewrite E. cbn [bind]. rewrite Ew. cbn [bind]. rewrite E'. cbn [bind]. cbn [sg_surface sg_over sg_chain sg_source sg_target].
  do 3 (split; [reflexivity|]). assert (Vy : sdir n (mkSegment u h g r u) = papply a' b' c' d' (sdir n x)) by exact Vr.
  split. { unfold departs. rewrite Vy, <- papply_pneg. cbn [sg_surface sg_over sg_chain sg_source sg_target]. destruct Ln as [Dl _]. auto 12 using papply_nz. }
  auto.
Qed.

(** ** Relabelings *)
Definition zsum (l : list Z) : Z := fold_right Z.add 0%Z l.
Definition maps_to (n : nat) (m : list (nat * nat)) (f : nat -> nat) : Prop := exists l, (forall h, In h l <-> h < n) /\ m = map (fun h => (h, f h)) l.
Lemma lookup_mapped n m f h : maps_to n m f -> h < n -> lookup_map m h = Some (f h).
Proof.
  intros (l & I & ->) H. apply I in H. unfold lookup_map. clear I. induction l as [|x l IH]; [destruct H|]. cbn [map find fst].
  destruct (Nat.eqb_spec x h) as [->|N]; auto. destruct H as [H|H]; [contradiction|auto].
Qed.
Lemma map_to_ok n m f h : maps_to n m f -> h < n -> map_to m h = Ok (f h).
Proof. intros M H. unfold map_to. now rewrite (lookup_mapped n m f h M H). Qed.
Lemma maps_back n m f g : maps_to n m f -> bijection n f g -> maps_to n (map (fun p => (snd p, fst p)) m) g.
Proof.
  intros (l & I & ->) [B1 B2]. exists (map f l). split.
  - intros h. rewrite in_map_iff. split; [intros (x & <- & X); apply I in X; now apply B1|]. intros H. exists (g h). destruct (B2 h H) as [L E]. split; auto. now apply I.
  - rewrite !map_map. cbn [fst snd]. apply map_ext_in. intros x X. apply I in X. destruct (B1 x X) as [_ ->]. reflexivity.
Qed.

Lemma map_chain_ok n u m f c : flat_surface n u -> maps_to n m f -> (forall h, h < n -> f h < n) -> forall i d, i + length c = n / 2 -> length d = n / 2 ->
  exists r, map_chain u m c i d = Ok r /\ length r = n / 2 /\
    forall k, nth k r 0%Z = (nth k d 0 + zsum (map (fun j => nth j c 0%Z * single (f (2 * (i + j))%nat) k)%Z (seq 0 (length c))))%Z.
Proof.
  intros U M Lt. assert (En := n_even n u U). induction c as [|z c IH]; intros i d B Ld; cbn [length] in B |- *; cbn [map_chain].
  - exists d. split; auto. split; auto. intros k. cbn. lia.
  - assert (Sm : forall k, zsum (map (fun j => nth j (z :: c) 0%Z * single (f (2 * (i + j))%nat) k)%Z (seq 0 (Datatypes.S (length c)))) =
      (z * single (f (2 * i)%nat) k + zsum (map (fun j => nth j c 0%Z * single (f (2 * (Datatypes.S i + j))%nat) k)%Z (seq 0 (length c))))%Z).
    { intros k. cbn [seq map zsum fold_right nth]. rewrite Nat.add_0_r. f_equal. rewrite <- seq_shift, map_map. unfold zsum. f_equal. apply map_ext. intros j.
      replace (i + Datatypes.S j) with (Datatypes.S i + j) by lia. reflexivity. }
    destruct (Z.eqb_spec z 0) as [->|Nz].
    + destruct (IH (Datatypes.S i) d) as (r & E & L & N); auto; [lia|]. exists r. split; auto. split; auto. intros k. rewrite N, Sm. lia.
    + assert (Hi : 2 * i < n) by lia. rewrite (map_to_ok n m f) by auto. cbn [bind].
      destruct (add_scaled n u z (f (2 * i)) d U) as (q & E & Lq & Nq); auto. destruct (zc_half_edge u (f (2 * i))) as [x| | |]; try discriminate. cbn [bind] in *.
      rewrite E. cbn [bind]. destruct (IH (Datatypes.S i) q) as (r & E' & L & N); auto; [lia|]. exists r. split; auto. split; auto.
      intros k. rewrite N, Nq, Sm. lia.
Qed.
Lemma zero_coef n s i : flat_surface n s -> nth i (zc_zero s) 0%Z = 0%Z.
Proof. intros _. unfold zc_zero. destruct (nth_in_or_default i (repeat 0%Z (tsize (fT s) / 2)) 0%Z) as [Q|Q]; [apply repeat_spec in Q|]; exact Q. Qed.
Lemma cvector_sum n s {A} (g : A -> nat -> Z) l : flat_surface n s ->
  chain_vector n s (fun k => zsum (map (fun x => g x k) l)) = psum (map (fun x => chain_vector n s (g x)) l).
Proof.
  intros S. induction l as [|x l IH]; cbn [map psum zsum fold_right].
  - apply cv_zero.
  - rewrite <- IH. unfold zsum. rewrite <- (cvec_add n s). reflexivity.
Qed.
Lemma cvector_scale n s z h : flat_surface n s -> h < n -> chain_vector n s (fun k => (z * single h k)%Z) = pscale (IZR z) (vv s h).
Proof.
  intros S H. rewrite <- (cv_single n s S h H). unfold chain_vector. rewrite <- psum_scale. apply psum_ext. intros i _. rewrite mult_IZR. unfold pscale; cbn [fst snd]. apply pt_eq; cbn [fst snd]; ring.
Qed.
(** The vector of the image of a chain when vectors are kept. *)
Lemma mapped_vector n s u f c r : flat_surface n s -> flat_surface n u -> (forall h, h < n -> f h < n /\ vv u (f h) = vv s h) -> length c = n / 2 ->
  (forall k, nth k r 0%Z = zsum (map (fun j => nth j c 0%Z * single (f (2 * j)%nat) k)%Z (seq 0 (length c)))) -> cvector n u r = cvector n s c.
Proof.
  intros S U V L N. assert (En := n_even n u U). unfold cvector at 1. etransitivity; [apply (cv_ext n u) with (b := fun k => zsum (map (fun j => nth j c 0%Z * single (f (2 * j)%nat) k)%Z (seq 0 (length c)))); auto|].
  rewrite (cvector_sum n u (fun j k => (nth j c 0 * single (f (2 * j)%nat) k)%Z)) by auto. unfold cvector, chain_vector at 2. rewrite L. apply psum_ext. intros j J. apply in_seq in J.
  assert (Hj : 2 * j < n) by lia. destruct (V _ Hj) as [L1 V1]. rewrite cvector_scale by auto. now rewrite V1.
Qed.
Lemma single_neg h k : single (neg h) k = (- single h k)%Z.
Proof.
  unfold single. rewrite neg_div2. destruct (k =? h / 2); [|reflexivity]. destruct (he_cases h) as (j & [->| ->]).
  - rewrite neg_even, Nat.even_succ, <- Nat.negb_even. rewrite (proj2 (Nat.even_spec (2 * j))) by (now exists j). reflexivity.
  - rewrite neg_odd, Nat.even_succ, <- Nat.negb_even. rewrite (proj2 (Nat.even_spec (2 * j))) by (now exists j). reflexivity.
Qed.
Lemma zsum_single (g : nat -> Z) i l : NoDup l -> In i l -> (forall j, In j l -> j <> i -> g j = 0%Z) -> zsum (map g l) = g i.
Proof.
  induction l as [|x l IH]; intros D I Z; [destruct I|]. apply NoDup_cons_iff in D as [Nx D]. cbn [map zsum fold_right].
  destruct I as [->|I].
  - assert (Q : fold_right Z.add 0%Z (map g l) = 0%Z); [|rewrite Q; lia]. assert (X : forall j, In j l -> g j = 0%Z) by (intros j J; apply Z; cbn; auto; intros ->; contradiction).
    clear - X. induction l as [|y l IH]; cbn; auto. rewrite X, IH; cbn; auto. intros; apply X; cbn; auto.
  - unfold zsum in IH. rewrite IH; auto; [|intros j J; apply Z; cbn; auto]. rewrite (Z x); cbn; auto. intros ->. contradiction.
Qed.
(** The image of the chain of a half edge. *)
Lemma mapped_single n u f c h : flat_surface n u -> (forall h, h < n -> f (neg h) = neg (f h)) -> h < n -> length c = n / 2 -> (forall i, nth i c 0%Z = single h i) ->
  forall k, zsum (map (fun j => nth j c 0%Z * single (f (2 * j)%nat) k)%Z (seq 0 (length c))) = single (f h) k.
Proof.
  intros U Fn H L N k. assert (En := n_even n u U). assert (Hl := half_lt n u U h H).
  rewrite (zsum_single _ (h / 2)).
  - rewrite N. destruct (he_cases h) as (j & [Ej|Ej]); subst h.
    + rewrite div2_even, single_even, Nat.eqb_refl. lia.
    + rewrite <- neg_even, single_neg, Fn, single_neg, neg_div2, div2_even by lia. rewrite single_even, Nat.eqb_refl. lia.
  - apply seq_NoDup.
  - apply in_seq. rewrite L. lia.
  - intros j _ J. rewrite N. unfold single at 1. rewrite (proj2 (Nat.eqb_neq j (h / 2)) J). lia.
Qed.

(** [u] is [s] with the half edges renamed. *)
Definition renames (n : nat) s u (f g : nat -> nat) : Prop :=
  bijection n f g /\ (forall h, h < n -> f (neg h) = neg (f h)) /\
  forall h, h < n -> fF u (f h) = f (fF s h) /\ fV u (f h) = f (fV s h) /\ vv u (f h) = vv s h.
Lemma combinatorial_segment_ok n s u m f g x : closed_flat n s -> closed_flat n u -> renames n s u f g -> maps_to n m f -> seg_on n s x ->
  exists y, combinatorial_segment u m x = Ok y /\ sg_surface y = u /\ sg_over y = u /\ departs n y /\ sdir n y = sdir n x /\
    sg_source y = f (sg_source x) /\ sg_target y = f (sg_target x).
Proof.
  intros S U ([B1 B2] & Fn & Ru) M ((Sx & Ox & L & Hs & Ht & Nz & Cs & Ct) & Sm & So).
  assert (Lt : forall h, h < n -> f h < n) by (intros h H; now apply B1).
  destruct (map_chain_ok n u m f (sg_chain x) (proj1 U) M Lt 0 (zc_zero u)) as (r & Er & Lr & Nr); [exact L|now apply zc_zero_length; apply U|].
  exists (mkSegment u (f (sg_source x)) (f (sg_target x)) r u). unfold combinatorial_segment. rewrite Er. cbn [bind]. rewrite !(map_to_ok n m f) by auto. cbn [bind].
  do 3 (split; [reflexivity|]). cbn [sg_source sg_target].
  assert (V : sdir n (mkSegment u (f (sg_source x)) (f (sg_target x)) r u) = sdir n x).
  { unfold sdir. cbn [sg_over sg_chain]. rewrite <- (same_cvector n (sg_over x) s) by (auto; apply Ox).
    apply (mapped_vector n s u f); [apply S|apply U| |exact L|].
    - intros h H. split; auto. now apply Ru.
    - intros k. rewrite Nr, (zero_coef n u k (proj1 U)). reflexivity. }
  split; [|auto]. unfold departs. rewrite V. cbn [sg_surface sg_over sg_chain sg_source sg_target]. apply (same_contains n _ s) in Cs; auto. apply (same_contains n _ s) in Ct; auto.
  assert (T : forall h d, h < n -> sector_contains s h d -> sector_contains u (f h) d).
  { intros h d H C. unfold sector_contains in *. destruct (Ru h H) as (_ & -> & ->). assert (H1 := fV_lt n s h (proj1 S) H). destruct (Ru _ H1) as (_ & _ & ->). exact C. }
  auto 12.
Qed.
End facts.
