(** * Facts about chains given by lists, and about turning around a vertex *)
From Coq Require Import ZArith Reals List Arith Bool Lia Lra Psatz Permutation.
From Verif Require Import Base HalfEdge HalfEdgeFacts Perm PermSpec PermFacts PermCycles PermLemmas
  IndexedSet IndexedSetSpec IndexedSetFacts Combinatorial CombinatorialSpec CombinatorialFacts CombinatorialFlip
  CombinatorialHistory CombinatorialOps ExactReal Vector PlaneSpec Plane VectorFacts FlatTri FlatSpec FlatFacts FlatSum FlatDelaunay FlatAngle
  FlatLinear Arb ArbFacts Chain ChainSpec ChainFacts Saddle SaddleSpec.
Import ListNotations.

Section chains.
Context {K : ExactReal}.
Variable n : nat.
Variable s : flat K.
Hypothesis S0 : flat_surface n s.
Local Notation m := (n / 2).

Lemma zc_vector_loop_Ok c : forall i v, i + length c = m ->
  exists w, zc_vector_loop s c i v = Ok w /\ vden w = padd (vden v) (psum (map (fun j => pscale (IZR (nth j c 0%Z)) (vv s (2 * (i + j)))) (seq 0 (length c)))).
Proof.
  assert (E := n_even n s S0).
  induction c as [|z c IH]; intros i v L; cbn [zc_vector_loop].
  - exists v. split; auto. cbn. unfold padd; destruct (vden v); cbn; f_equal; lra.
  - cbn [length] in L. rewrite from_he_Ok by (rewrite (fs_length n s S0); lia). cbn [bind].
    destruct (IH (Datatypes.S i) (vadd v (vscaleZ z (vat' s (2 * i))))) as (w & W & D); [lia|].
    exists w. split; auto. rewrite D, vden_add, vden_scaleZ. cbn [length seq map psum]. change (nth 0 (z :: c) 0%Z) with z. rewrite Nat.add_0_r.
    fold (vat' s (2 * i)). change (vden (vat' s (2 * i))) with (vv s (2 * i)).
    assert (P : psum (map (fun j => pscale (IZR (nth j (z :: c) 0%Z)) (vv s (2 * (i + j)))) (seq 1 (length c))) =
      psum (map (fun j => pscale (IZR (nth j c 0%Z)) (vv s (2 * (Datatypes.S i + j)))) (seq 0 (length c)))).
    { rewrite <- seq_shift, map_map. apply psum_ext. intros j _. cbn [nth]. now replace (i + Datatypes.S j) with (Datatypes.S i + j) by lia. }
    rewrite <- P. generalize (psum (map (fun j => pscale (IZR (nth j (z :: c) 0%Z)) (vv s (2 * (i + j)))) (seq 1 (length c)))). intros q.
    unfold padd; cbn [fst snd]; apply pt_eq; cbn [fst snd]; ring.
Qed.

Lemma zc_vector_Ok c : length c = m -> exists w, zc_vector s c = Ok w /\ vden w = cvector n s c.
Proof.
  intros L. destruct (zc_vector_loop_Ok c 0 vzero) as (w & W & D); [lia|]. exists w. split; auto. rewrite D, vden_zero, L.
  unfold cvector, chain_vector. change (fun j => pscale (IZR (nth j c 0%Z)) (vv s (2 * (0 + j)))) with (fun j => pscale (IZR (nth j c 0%Z)) (vv s (2 * j))).
  generalize (psum (map (fun j => pscale (IZR (nth j c 0%Z)) (vv s (2 * j))) (seq 0 m))). intros q. unfold padd. apply pt_eq; cbn [fst snd]; ring.
Qed.

Lemma cvector_ext c d : (forall i, i < m -> nth i c 0%Z = nth i d 0%Z) -> cvector n s c = cvector n s d.
Proof. intros H. now apply cv_ext. Qed.
Lemma cvector_zero : cvector n s (zc_zero s) = (0, 0)%R.
Proof.
  etransitivity; [|apply (cv_zero n s)]. apply cv_ext. intros i _. unfold zc_zero, czero. destruct (nth_in_or_default i (repeat 0%Z (tsize (fT s) / 2)) 0%Z) as [H|H]; auto.
  now apply repeat_spec in H.
Qed.
Lemma zc_zero_length : length (zc_zero s) = m.
Proof. unfold zc_zero. now rewrite repeat_length, (wf_size n _ (fs_wf n s S0)). Qed.
Lemma zc_neg_length c : length (zc_neg c) = length c.
Proof. apply map_length. Qed.
Lemma nth_zc_neg c i : nth i (zc_neg c) 0%Z = (- nth i c 0)%Z.
Proof. unfold zc_neg. change 0%Z with (- 0)%Z at 1. apply map_nth. Qed.
Lemma cvector_neg c : cvector n s (zc_neg c) = pneg (cvector n s c).
Proof.
  transitivity (chain_vector n s (fun i => czero i - nth i c 0%Z)%Z).
  - apply cv_ext. intros i _. rewrite nth_zc_neg. unfold czero. lia.
  - rewrite cvec_sub, cv_zero. unfold padd, pneg, cvector; cbn [fst snd]. f_equal; lra.
Qed.

Lemma zc_add_he_Ok c h : length c = m -> h < n ->
  exists d, zc_add_he c h = Ok d /\ length d = m /\ cvector n s d = padd (cvector n s c) (vv s h) /\
    forall i, nth i d 0%Z = (nth i c 0 + single h i)%Z.
Proof.
  intros L Hh. assert (Hl := half_lt n s S0 h Hh). unfold zc_add_he. rewrite (vget_nth _ _ 0%Z) by lia. cbn [bind].
  rewrite vset_Ok by lia. eexists. split; [reflexivity|]. split; [now rewrite upd_length|].
  assert (E : forall i, nth i (upd c (h / 2) (nth (h / 2) c 0 + he_sign h)%Z) 0%Z = (nth i c 0 + single h i)%Z).
  { intros i. rewrite nth_upd by lia. unfold single, he_sign. rewrite (Nat.eqb_sym i). destruct (Nat.eqb_spec (h / 2) i) as [<-|N]; lia. }
  split; auto. unfold cvector. rewrite <- (cv_single n s S0 h Hh), <- cvec_add. apply cv_ext. intros i _. now rewrite E.
Qed.

Lemma zc_half_edge_Ok h : h < n -> exists d, zc_half_edge s h = Ok d /\ length d = m /\ cvector n s d = vv s h.
Proof.
  intros Hh. destruct (zc_add_he_Ok (zc_zero s) h zc_zero_length Hh) as (d & E & L & V & _). exists d. split; auto. split; auto.
  rewrite V, cvector_zero. unfold padd; destruct (vv s h); cbn; f_equal; lra.
Qed.

Lemma zc_sub_he_Ok c h : length c = m -> h < n ->
  exists d, zc_sub_he c h = Ok d /\ length d = m /\ cvector n s d = padd (cvector n s c) (pneg (vv s h)) /\
    forall i, nth i d 0%Z = (nth i c 0 + single (neg h) i)%Z.
Proof.
  intros L Hh. unfold zc_sub_he. rewrite <- (fs_odd n s S0) by auto. apply zc_add_he_Ok; auto.
  apply (neg_ltn n (fT s)); auto. apply S0.
Qed.

Lemma zc_op_Ok op c : forall d, length c = length d -> (op 0 0 = 0)%Z ->
  exists r, zc_op op c d = Ok r /\ length r = length c /\ forall i, nth i r 0%Z = op (nth i c 0%Z) (nth i d 0%Z).
Proof.
  induction c as [|x c IH]; intros [|y d] L Z; cbn [length] in L; try lia; cbn [zc_op].
  - exists []. split; auto. split; auto. intros [|i]; auto.
  - destruct (IH d) as (r & -> & Lr & N); [lia|auto|]. cbn [bind]. eexists. split; [reflexivity|]. split; [cbn; lia|].
    intros [|i]; cbn [nth]; auto.
Qed.
Lemma zc_add_Ok c d : length c = m -> length d = m ->
  exists r, zc_op Z.add c d = Ok r /\ length r = m /\ cvector n s r = padd (cvector n s c) (cvector n s d).
Proof.
  intros Lc Ld. destruct (zc_op_Ok Z.add c d) as (r & E & L & N); [congruence|reflexivity|]. exists r. split; auto. split; [congruence|].
  unfold cvector. rewrite <- cvec_add. apply cv_ext. intros i _. apply N.
Qed.
Lemma zc_subtract_Ok c d : length c = m -> length d = m ->
  exists r, zc_op Z.sub c d = Ok r /\ length r = m /\ cvector n s r = padd (cvector n s c) (pneg (cvector n s d)).
Proof.
  intros Lc Ld. destruct (zc_op_Ok Z.sub c d) as (r & E & L & N); [congruence|reflexivity|]. exists r. split; auto. split; [congruence|].
  unfold cvector. rewrite <- cvec_sub. apply cv_ext. intros i _. apply N.
Qed.
End chains.

(** ** Saddle connections *)
Section saddle.
Context {K : ExactReal}.
Implicit Types x y : sconn K.

Lemma sc_vector_Ok n x : sc_valid n x -> exists v, sc_vector x = Ok v /\ vden v = sv n x.
Proof. intros (S & _ & _ & L). now apply zc_vector_Ok. Qed.
Lemma sc_neg_valid n x : sc_valid n x -> sc_valid n (sc_neg x).
Proof. intros (S & A & B & L). split; [|split; [|split]]; auto. cbn. now rewrite zc_neg_length. Qed.
Lemma sv_neg n x : sc_valid n x -> sv n (sc_neg x) = pneg (sv n x).
Proof. intros _. apply cvector_neg. Qed.
Lemma sc_neg_neg x : sc_neg (sc_neg x) = x.
Proof. destruct x as [s a b c]. unfold sc_neg; cbn. f_equal. unfold zc_neg. rewrite map_map. rewrite <- (map_id c) at 2. apply map_ext. intros z. lia. Qed.

Lemma sc_eqb_spec n m x y : sc_valid n x -> sc_valid m y ->
  exists b, sc_eqb x y = Ok b /\
    (b = true <-> flat_eqb (sc_surface x) (sc_surface y) = Ok true /\ sv n x = sv m y /\ sc_source x = sc_source y).
Proof.
  intros X Y. destruct (flat_eqb_spec n m _ _ (proj1 X) (proj1 Y)) as (e & E & _). unfold sc_eqb. rewrite E. cbn [bind].
  destruct e; cbn [negb]; [|exists false; split; auto; split; [discriminate|intros (Q & _); discriminate]].
  destruct (sc_vector_Ok n x X) as (v & -> & Dv). destruct (sc_vector_Ok m y Y) as (w & -> & Dw). cbn [bind].
  eexists. split; [reflexivity|]. rewrite andb_true_iff, veqb_spec, Nat.eqb_eq, Dv, Dw. intuition.
Qed.
End saddle.
