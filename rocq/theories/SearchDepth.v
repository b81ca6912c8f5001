(** * How deep the search can be *)
From Coq Require Import ZArith Reals List Arith Bool Lia Lra Psatz.
From Verif Require Import Base HalfEdge HalfEdgeFacts Combinatorial CombinatorialSpec CombinatorialFacts CombinatorialHistory ExactReal Vector PlaneSpec Plane VectorFacts
  FlatTri FlatSpec FlatFacts FlatSum Chain ChainSpec Saddle SaddleSpec Search SearchSpec SearchPlane PointFacts.
Import ListNotations.
Local Open Scope R_scope.

Lemma positive_minimum (P : nat -> Prop) (f : nat -> R) : (forall x, P x \/ ~ P x) -> forall l, (forall x, In x l -> P x -> 0 < f x) ->
  exists m, 0 < m /\ forall x, In x l -> P x -> m <= f x.
Proof.
  intros Dec. induction l as [|a l IH]; intros H; [exists 1; split; [lra|intros x []]|].
  destruct IH as (m & Hm & IH); [intros x I; apply H; now right|]. destruct (Dec a) as [Pa|Na].
  - exists (Rmin m (f a)). split; [apply Rmin_glb_lt; auto; apply H; auto; now left|]. intros x [<-|I] Px; [apply Rmin_r|]. apply Rle_trans with m; [apply Rmin_l|auto].
  - exists m. split; auto. intros x [<-|I] Px; [contradiction|auto].
Qed.
Lemma maximum (f : nat -> R) (l : list nat) : exists m, 0 < m /\ forall x, In x l -> f x <= m.
Proof.
  induction l as [|a l (m & Hm & IH)]; [exists 1; split; [lra|intros x []]|]. exists (Rmax m (f a)). split; [apply Rlt_le_trans with m; auto; apply Rmax_l|].
  intros x [<-|I]; [apply Rmax_r|]. apply Rle_trans with m; auto. apply Rmax_l.
Qed.

Definition norm1 (v : pt) : R := Rabs (fst v) + Rabs (snd v).
Lemma norm1_nonneg v : 0 <= norm1 v.
Proof. unfold norm1. pose proof (Rabs_pos (fst v)). pose proof (Rabs_pos (snd v)). lra. Qed.
Lemma norm1_pos v : v <> (0, 0) -> 0 < norm1 v.
Proof.
  intros N. destruct (Rle_lt_or_eq_dec _ _ (norm1_nonneg v)) as [|Z]; auto. exfalso. apply N. unfold norm1 in Z. destruct v as [x y]; cbn [fst snd] in *.
  pose proof (Rabs_pos x). pose proof (Rabs_pos y). assert (A : Rabs x = 0) by lra. assert (B : Rabs y = 0) by lra.
  f_equal; [destruct (Req_dec x 0) as [|C]; auto; apply Rabs_no_R0 in C; contradiction|destruct (Req_dec y 0) as [|C]; auto; apply Rabs_no_R0 in C; contradiction].
Qed.
Lemma norm1_scale k v : norm1 (pscale k v) = Rabs k * norm1 v.
Proof. unfold norm1, pscale; cbn [fst snd]. rewrite !Rabs_mult. ring. Qed.
Lemma norm1_add u v : norm1 (padd u v) <= norm1 u + norm1 v.
Proof. unfold norm1, padd; cbn [fst snd]. pose proof (Rabs_triang (fst u) (fst v)). pose proof (Rabs_triang (snd u) (snd v)). lra. Qed.
Lemma norm1_det u v : pdet u v <= norm1 u * norm1 v.
Proof.
  unfold pdet, norm1. pose proof (Rabs_pos (fst u)). pose proof (Rabs_pos (snd u)). pose proof (Rabs_pos (fst v)). pose proof (Rabs_pos (snd v)).
  pose proof (Rle_abs (fst u * snd v)) as A. rewrite Rabs_mult in A. pose proof (Rle_abs (- (snd u * fst v))) as B. rewrite Rabs_Ropp, Rabs_mult in B.
  assert (0 <= Rabs (fst u) * Rabs (fst v)) by now apply Rmult_le_pos. assert (0 <= Rabs (snd u) * Rabs (snd v)) by now apply Rmult_le_pos. 
  assert (E : (Rabs (fst u) + Rabs (snd u)) * (Rabs (fst v) + Rabs (snd v)) = Rabs (fst u) * Rabs (fst v) + Rabs (fst u) * Rabs (snd v) + Rabs (snd u) * Rabs (fst v) + Rabs (snd u) * Rabs (snd v)) by ring.
  rewrite E. lra.
Qed.
Lemma norm1_dot v : norm1 v * norm1 v <= 2 * pdot v v.
Proof.
  unfold norm1, pdot. assert (A : forall x, Rabs x * Rabs x = x * x) by (intros x; rewrite <- Rabs_mult; apply Rabs_pos_eq; nra).
  rewrite <- (A (fst v)), <- (A (snd v)). pose proof (Rle_0_sqr (Rabs (fst v) - Rabs (snd v))) as B. unfold Rsqr in B. lra.
Qed.

Section depth.
Context {K : ExactReal} (n : nat) (s : flat K).
Hypothesis S0 : flat_surface n s.

(** The two edges that can be crossed after crossing an edge: to the left, or to the right. *)
Definition child (left : bool) (x : pt * nat) : pt * nat :=
  let a := fF s (neg (snd x)) in if left then (padd (fst x) (vv s a), fF s a) else (fst x, a).
Definition crossing (d : pt) (x : pt * nat) : Prop :=
  let q := padd (fst x) (vv s (snd x)) in (snd x < n)%nat /\ 0 < pdet (fst x) q /\ cone (fst x) q d.
(** The ray in the direction of [d] crosses edge after edge. *)
Fixpoint path_ok (d : pt) (x : pt * nat) (l : list bool) : Prop :=
  crossing d x /\ match l with [] => True | b :: l => fF s (neg (snd x)) <> neg (snd x) /\ path_ok d (child b x) l end.
Definition walk (x : pt * nat) (l : list bool) : pt * nat := fold_left (fun x b => child b x) l x.

Lemma path_crossing d x l : path_ok d x l -> crossing d x.
Proof. destruct l; intros H; apply H. Qed.
Lemma path_app d l : forall x l', path_ok d x (l ++ l') -> path_ok d x l /\ path_ok d (walk x l) l'.
Proof.
  induction l as [|b l IH]; intros x l' H; cbn [app] in H.
  - split; [split; auto; now apply path_crossing in H|auto].
  - destruct H as (C & N & H). apply IH in H. destruct H. split; [split; auto|auto].
Qed.
Lemma path_end d l : forall x, path_ok d x l -> crossing d (walk x l).
Proof. intros x H. rewrite <- (app_nil_r l) in H. apply path_app in H. destruct H as [_ H]. now apply path_crossing in H. Qed.

(** When the ray crosses the edge, and where on the edge. *)
Definition when (d : pt) (x : pt * nat) : R := pdet (fst x) (vv s (snd x)) / pdet d (vv s (snd x)).
Definition part (d : pt) (x : pt * nat) : R := pdet (fst x) d / pdet d (vv s (snd x)).

Lemma crossing_facts d x : crossing d x -> 0 < pdet d (vv s (snd x)) /\ 0 < pdet (fst x) (vv s (snd x)) /\ 0 < when d x /\ 0 <= part d x <= 1.
Proof.
  intros (H & D & C). pose proof (cone_half _ _ _ D C) as P. destruct C as (A & B & N).
  assert (Q : pdet (fst x) (padd (fst x) (vv s (snd x))) = pdet (fst x) (vv s (snd x))) by (unfold pdet, padd; cbn; ring). rewrite Q in D.
  split; auto. split; auto. split; [now apply Rdiv_lt_0_compat|]. unfold part. assert (E : pdet d (vv s (snd x)) = pdet (fst x) d + pdet d (padd (fst x) (vv s (snd x)))) by (unfold pdet, padd; cbn; ring).
  split; [apply Rmult_le_pos; auto; apply Rlt_le, Rinv_0_lt_compat; auto|]. apply (Rmult_le_reg_r (pdet d (vv s (snd x)))); auto. unfold Rdiv. rewrite Rmult_assoc, Rinv_l by lra. lra.
Qed.

(** The area of the triangle between an edge and the next edge. *)
Definition area_at (x : pt * nat) : R := pdet (vv s (fF s (neg (snd x)))) (vv s (snd x)).

Lemma child_progress b d x : crossing d x -> fF s (neg (snd x)) <> neg (snd x) -> crossing d (child b x) ->
  let f := fun y => if b then 1 - part d y else part d y in
  (when d (child b x) - when d x) * pdet d (vv s (snd x)) = f (child b x) * area_at x /\
  (when d (child b x) - when d x) * pdet d (vv s (snd (child b x))) = f x * area_at x.
Proof.
  intros C N C' f. destruct (crossing_facts _ _ C) as (P & _). destruct (crossing_facts _ _ C') as (P' & _). destruct C as [Hh _].
  destruct (across' n s S0 (fst x) (snd x) Hh N) as [Ew _]. unfold f, when, part, area_at. destruct x as [p h]. unfold child in *. cbn [fst snd] in *. set (e := vv s h) in *. set (a := vv s (fF s (neg h))) in *. 
  destruct b; cbn [fst snd] in *.
  - set (c := vv s (fF s (fF s (neg h)))) in *. assert (Ec : c = padd e (pneg a)). { destruct e, a, c, p. unfold padd, pneg in *; cbn [fst snd] in *. injection Ew as E1 E2. apply pt_eq; cbn [fst snd]; lra. }
    clearbody c. subst c. clear - P P'. clearbody e a. destruct e, a, p, d. unfold padd, pneg, pdet in *; cbn [fst snd] in *. split; field; lra.
  - fold a in P' |- *. clear - P P'. clearbody e a. destruct e, a, p, d. unfold padd, pneg, pdet in *; cbn [fst snd] in *. split; field; lra.
Qed.

Section bounds.
Variables (M A : R).
Hypothesis HM : 0 < M.
Hypothesis HA : 0 < A.
Hypothesis Edges : forall h, (h < n)%nat -> norm1 (vv s h) <= M.
Hypothesis Areas : forall h, (h < n)%nat -> fF s (neg h) <> neg h -> A <= pdet (vv s (fF s (neg h))) (vv s h).
Variable d : pt.
Hypothesis Unit : norm1 d = 1.

Lemma det_bound h : (h < n)%nat -> pdet d (vv s h) <= M.
Proof. intros H. pose proof (norm1_det d (vv s h)) as B. rewrite Unit in B. pose proof (Edges h H). lra. Qed.
Lemma quotient_bound a b c : 0 <= c -> 0 < b -> b <= M -> a * b = c -> c / M <= a.
Proof.
  intros C B BM E. apply (Rmult_le_reg_r M); auto. unfold Rdiv. rewrite Rmult_assoc, Rinv_l, Rmult_1_r by lra. assert (0 <= a) by nra. nra.
Qed.
Lemma child_later b x : path_ok d x [b] -> when d x <= when d (child b x).
Proof.
  intros (C & N & C' & _). destruct (child_progress b d x C N C') as [E _]. destruct (crossing_facts _ _ C) as (P & _). destruct (crossing_facts _ _ C') as (_ & _ & _ & F).
  assert (0 <= area_at x) by (pose proof (Areas (snd x) (proj1 C) N); unfold area_at; lra).
  assert (0 <= (if b then 1 - part d (child b x) else part d (child b x)) * area_at x) by (apply Rmult_le_pos; auto; destruct b; lra). nra.
Qed.
Lemma turn_later b x : path_ok d x [b; negb b] -> when d x + A / M <= when d (walk x [b; negb b]).
Proof.
  intros (C0 & N0 & C1 & N1 & C2 & _). cbn [walk fold_left]. set (x1 := child b x) in *. set (x2 := child (negb b) x1) in *.
  destruct (child_progress b d x C0 N0 C1) as [E1 _]. destruct (child_progress (negb b) d x1 C1 N1 C2) as [_ E2]. fold x1 in E1. fold x2 in E2.
  destruct (crossing_facts _ _ C0) as (P0 & _). destruct (crossing_facts _ _ C1) as (P1 & _ & _ & F). destruct (crossing_facts _ _ C2) as (P2 & _).
  pose proof (Areas (snd x) (proj1 C0) N0) as A0. pose proof (Areas (snd x1) (proj1 C1) N1) as A1. fold (area_at x) in A0. fold (area_at x1) in A1.
  pose proof (det_bound _ (proj1 C0)) as B0. pose proof (det_bound _ (proj1 C2)) as B2.
  set (f := if b then 1 - part d x1 else part d x1) in *. assert (Ef : (if negb b then 1 - part d x1 else part d x1) = 1 - f) by (unfold f; destruct b; cbn; lra).
  rewrite Ef in E2. assert (F' : 0 <= f <= 1) by (unfold f; destruct b; lra).
  apply (quotient_bound _ _ _) in E1; auto; [|apply Rmult_le_pos; lra]. apply (quotient_bound _ _ _) in E2; auto; [|apply Rmult_le_pos; lra].
  assert (G1 : f * A / M <= f * area_at x / M) by (apply Rmult_le_compat_r; [apply Rlt_le, Rinv_0_lt_compat; auto|nra]).
  assert (G2 : (1 - f) * A / M <= (1 - f) * area_at x1 / M) by (apply Rmult_le_compat_r; [apply Rlt_le, Rinv_0_lt_compat; auto|nra]).
  assert (Q : A / M = f * A / M + (1 - f) * A / M) by (field; lra). lra.
Qed.
Lemma path_later l : forall x, path_ok d x l -> when d x <= when d (walk x l).
Proof.
  induction l as [|b l IH]; intros x H; [apply Rle_refl|]. destruct H as (C & N & H). apply Rle_trans with (when d (child b x)); [|now apply IH].
  apply child_later. split; auto. split; auto. split; auto. now apply path_crossing in H.
Qed.

(** Around a vertex, only as many edges as there are half edges are crossed. *)
Fixpoint edges (x : pt * nat) (b : bool) (k : nat) : list nat := match k with O => [snd x] | Datatypes.S k => snd x :: edges (child b x) b k end.
Lemma fan_turns b k : forall x, path_ok d x (repeat b k) -> forall g, In g (edges x b k) ->
  (g < n)%nat /\ 0 < pdet d (vv s g) /\ (g = snd x \/ if b then 0 < pdet (vv s (snd x)) (vv s g) else 0 < pdet (vv s g) (vv s (snd x))).
Proof.
  induction k as [|k IH]; intros x H g I; cbn [repeat edges] in *.
  - destruct I as [<-|[]]. destruct H as [H _]. split; [apply H|]. split; [now apply crossing_facts|now left].
  - destruct I as [<-|I]; [destruct H as [H _]; split; [apply H|]; split; [now apply crossing_facts|now left]|].
    destruct H as (C & N & H). destruct (IH _ H g I) as (G1 & G2 & G3). split; auto. split; auto. right. clear IH.
    destruct (crossing_facts _ _ C) as (P & _). apply path_crossing in H. destruct (crossing_facts _ _ H) as (P' & _).
    destruct (across' n s S0 (fst x) (snd x) (proj1 C) N) as [Ew Aw]. destruct x as [p h]. unfold child in *. cbn [fst snd] in *.
    assert (U : forall u v w, 0 < pdet d u -> 0 < pdet d v -> 0 < pdet d w -> 0 < pdet u v -> 0 < pdet v w -> 0 < pdet u w).
    { intros u v w Hu Hv Hw X Y. assert (I0 : pdet u v * pdet d w + pdet v w * pdet d u = pdet u w * pdet d v) by (unfold pdet; ring). 
      assert (0 < pdet u v * pdet d w) by now apply Rmult_lt_0_compat. assert (0 < pdet v w * pdet d u) by now apply Rmult_lt_0_compat. nra. }
    destruct b; cbn [fst snd] in *.
    + assert (T : 0 < pdet (vv s h) (vv s (fF s (fF s (neg h))))).
      { set (e := vv s h) in *. set (a := vv s (fF s (neg h))) in *. set (c := vv s (fF s (fF s (neg h)))) in *.
        assert (Ec : c = padd e (pneg a)). { destruct e, a, c, p. unfold padd, pneg in *; cbn [fst snd] in *. injection Ew as E1 E2. apply pt_eq; cbn [fst snd]; lra. }
        rewrite Ec. replace (pdet e (padd e (pneg a))) with (pdet a e) by (unfold pdet, padd, pneg; cbn; ring). auto. }
      destruct G3 as [->|G3]; auto. apply (U _ (vv s (fF s (fF s (neg h)))) _); auto.
    + destruct G3 as [->|G3]; auto. apply (U _ (vv s (fF s (neg h))) _); auto.
Qed.
Lemma fan_NoDup b k : forall x, path_ok d x (repeat b k) -> NoDup (edges x b k).
Proof.
  induction k as [|k IH]; intros x H; cbn [edges]; [constructor; auto; constructor|].
  constructor; [|apply IH; apply H]. intros I. destruct H as (C & N & H). destruct (fan_turns b k _ H _ I) as (_ & _ & G).
  destruct (crossing_facts _ _ C) as (P & _). assert (C' := path_crossing _ _ _ H). destruct (crossing_facts _ _ C') as (P' & _). 
  destruct (across' n s S0 (fst x) (snd x) (proj1 C) N) as [Ew Aw]. destruct x as [p h]. unfold child in *. cbn [fst snd] in *. clear I IH.
  set (e := vv s h) in *. set (a := vv s (fF s (neg h))) in *.
  assert (Ec : vv s (fF s (fF s (neg h))) = padd e (pneg a)).
  { set (c := vv s (fF s (fF s (neg h)))) in *. destruct e, a, c, p. unfold padd, pneg in *; cbn [fst snd] in *. injection Ew as E1 E2. apply pt_eq; cbn [fst snd]; lra. }
  destruct b; cbn [fst snd] in *.
  - destruct G as [G|G].
    + assert (E : e = padd e (pneg a)) by (rewrite <- Ec; unfold e; now f_equal). assert (Q : pdet a e = - pdet e (padd e (pneg a)) + 2 * pdet a e) by (unfold pdet, padd, pneg; cbn; ring).
      rewrite <- E in Q. assert (Z : pdet e e = 0) by (unfold pdet; ring). rewrite Z in Q. lra.
    + rewrite Ec in G. replace (pdet (padd e (pneg a)) e) with (- pdet a e) in G by (unfold pdet, padd, pneg; cbn; ring). lra.
  - destruct G as [G|G]; [|fold e in G; fold a in G; rewrite pdet_swap in G; lra]. assert (E : e = a) by (unfold e, a; now f_equal). rewrite E in Aw. unfold pdet in Aw. lra.
Qed.
Lemma edges_length b k : forall x, length (edges x b k) = Datatypes.S k.
Proof. induction k as [|k IH]; intros x; cbn [edges length]; auto. Qed.
Lemma fan_bound b k x : path_ok d x (repeat b k) -> (k < n)%nat.
Proof.
  intros H. assert (L : (length (edges x b k) <= length (seq 0 n))%nat).
  { apply NoDup_incl_length; [now apply fan_NoDup|]. intros g I. apply in_seq. destruct (fan_turns b k x H g I). lia. }
  rewrite edges_length, seq_length in L. lia.
Qed.
Lemma runs (l : list bool) : (exists b, l = repeat b (length l)) \/ exists l1 b l2, l = l1 ++ [b; negb b] ++ l2.
Proof.
  induction l as [|a [|b l] IH]; [left; now exists true|left; now exists a|]. destruct (bool_dec a b) as [->|N].
  - destruct IH as [[c E]|(l1 & c & l2 & E)]; [left; exists b|right; exists (b :: l1), c, l2; rewrite E; auto].
    assert (c = b) by (cbn in E; congruence). subst c. cbn [length repeat] in *. congruence.
  - right. exists [], a, l. cbn. destruct a, b; cbn; congruence.
Qed.
Lemma window l x : path_ok d x l -> length l = n -> when d x + A / M <= when d (walk x l).
Proof.
  intros H L. destruct (runs l) as [[b E]|(l1 & b & l2 & ->)].
  - rewrite E in H. apply fan_bound in H. lia.
  - apply path_app in H. destruct H as [H1 H]. apply path_app in H. destruct H as [H2 H3].
    pose proof (path_later _ _ H1). pose proof (turn_later _ _ H2). pose proof (path_later _ _ H3).
    unfold walk in *. rewrite !fold_left_app. lra.
Qed.
Lemma windows k : forall x l, path_ok d x l -> (k * n <= length l)%nat -> when d x + INR k * (A / M) <= when d (walk x l).
Proof.
  induction k as [|k IH]; intros x l H L; [rewrite Rmult_0_l, Rplus_0_r; now apply path_later|].
  rewrite <- (firstn_skipn n l) in H |- *. apply path_app in H. destruct H as [H1 H2]. apply window in H1; [|rewrite firstn_length; lia].
  apply IH in H2; [|rewrite skipn_length; lia]. unfold walk in *. rewrite fold_left_app. rewrite S_INR. lra.
Qed.
End bounds.

(** An edge that is crossed late is far away. *)
Lemma edge_far d x M k y : norm1 d = 1 -> crossing d x -> norm1 (vv s (snd x)) <= M -> k + M <= when d x -> 0 <= y <= 1 -> k <= norm1 (padd (fst x) (pscale y (vv s (snd x)))).
Proof.
  intros U C B L Y. destruct (crossing_facts _ _ C) as (P & _ & T & F). set (e := vv s (snd x)) in *. 
  assert (E : pscale (when d x) d = padd (fst x) (pscale (part d x) e)).
  { unfold when, part. fold e. destruct x as [[p1 p2] h], d as [d1 d2]. clearbody e. destruct e as [e1 e2]. unfold pscale, padd, pdet in *; cbn [fst snd] in *. apply pt_eq; cbn [fst snd]; field; lra. }
  assert (N : norm1 (pscale (when d x) d) = when d x) by (rewrite norm1_scale, U, Rabs_pos_eq by lra; ring).
  assert (Eq : pscale (when d x) d = padd (padd (fst x) (pscale y e)) (pscale (part d x - y) e)) by (rewrite E; unfold padd, pscale; cbn; apply pt_eq; cbn [fst snd]; ring).
  rewrite Eq in N. pose proof (norm1_add (padd (fst x) (pscale y e)) (pscale (part d x - y) e)) as T2. rewrite N in T2. rewrite norm1_scale in T2.
  assert (Ab : Rabs (part d x - y) <= 1) by (apply Rabs_le; lra). pose proof (norm1_nonneg e). assert (Rabs (part d x - y) * norm1 e <= 1 * norm1 e) by (apply Rmult_le_compat_r; auto). lra.
Qed.

Lemma crossing_scale k d x : 0 < k -> crossing d x -> crossing (pscale k d) x.
Proof.
  intros Hk (H & D & A & B & N). split; auto. split; auto. repeat split.
  - replace (pdet (fst x) (pscale k d)) with (k * pdet (fst x) d) by (unfold pdet, pscale; cbn; ring). apply Rmult_le_pos; lra.
  - set (q := padd (fst x) (vv s (snd x))) in *. replace (pdet (pscale k d) q) with (k * pdet d q) by (unfold pdet, pscale; cbn; ring). apply Rmult_le_pos; lra.
  - intros E. apply N. destruct d as [a b]. unfold pscale in E; cbn in E. injection E as E1 E2. destruct (Rmult_integral _ _ E1), (Rmult_integral _ _ E2); try lra. now subst.
Qed.
Lemma path_scale k d l : 0 < k -> forall x, path_ok d x l -> path_ok (pscale k d) x l.
Proof. intros Hk. induction l as [|b l IH]; intros x H; (split; [apply crossing_scale; auto; apply H|auto]). destruct H as (_ & N & H). split; auto. Qed.

(** All paths leave the circle in a bounded number of steps. *)
Theorem depth_bounded (R2 : R) : exists N, forall d x l, path_ok d x l -> (N <= length l)%nat ->
  let y := walk x l in forall t, 0 <= t <= 1 -> R2 < pdot (padd (fst y) (pscale t (vv s (snd y)))) (padd (fst y) (pscale t (vv s (snd y)))).
Proof.
  destruct (maximum (fun h => norm1 (vv s h)) (seq 0 n)) as (M & HM & Edges).
  assert (Edges' : forall h, (h < n)%nat -> norm1 (vv s h) <= M) by (intros h Hh; apply Edges, in_seq; lia).
  destruct (positive_minimum (fun h => fF s (neg h) <> neg h) (fun h => pdet (vv s (fF s (neg h))) (vv s h))) with (l := seq 0 n) as (A & HA & Areas).
  { intros h. destruct (Nat.eq_dec (fF s (neg h)) (neg h)); tauto. }
  { intros h I Nb. apply in_seq in I. apply (across' n s S0 (0, 0) h); auto. lia. }
  assert (Areas' : forall h, (h < n)%nat -> fF s (neg h) <> neg h -> A <= pdet (vv s (fF s (neg h))) (vv s h)) by (intros h Hh Nb; apply Areas; auto; apply in_seq; lia).
  set (k := 2 + 2 * Rabs R2). assert (Hk : 2 * R2 < k * k /\ 0 < k). { unfold k. pose proof (Rabs_pos R2). pose proof (Rle_abs R2). split; nra. }
  assert (Hd : 0 < A / M) by now apply Rdiv_lt_0_compat.
  assert (Hj : exists j, (k + M) / (A / M) < INR j).
  { set (x := (k + M) / (A / M)). exists (Z.to_nat (up x)). destruct (archimed x) as [B _]. apply Rlt_le_trans with (IZR (up x)); [lra|].
    rewrite INR_IZR_INZ. apply IZR_le. lia. }
  destruct Hj as [j Hj]. exists (j * n)%nat. intros d x l H L y t Ht.
  assert (Nd : d <> (0, 0)) by (apply path_crossing in H; apply H). pose proof (norm1_pos d Nd) as P. set (d' := pscale (/ norm1 d) d).
  assert (U : norm1 d' = 1). { unfold d'. rewrite norm1_scale, Rabs_pos_eq by (apply Rlt_le, Rinv_0_lt_compat; auto). apply Rinv_l. lra. }
  assert (H' : path_ok d' x l) by (apply path_scale; auto; now apply Rinv_0_lt_compat).
  pose proof (windows M A HM HA Edges' Areas' d' U j x l H' L) as Wd. fold y in Wd. pose proof (path_end _ _ _ H') as C. fold y in C.
  destruct (crossing_facts _ _ (path_crossing _ _ _ H')) as (_ & _ & T & _).
  assert (Big : k + M <= when d' y). { assert (Q : k + M = (k + M) / (A / M) * (A / M)) by (field; lra). rewrite Q. apply Rle_trans with (INR j * (A / M)); [apply Rmult_le_compat_r; lra|lra]. }
  pose proof (edge_far d' y M k t U C (Edges' _ (proj1 C)) Big Ht) as F. set (u := padd (fst y) (pscale t (vv s (snd y)))) in *. pose proof (norm1_dot u). pose proof (norm1_nonneg u). nra.
Qed.
End depth.
