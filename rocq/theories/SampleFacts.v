(** * Sampling saddle connections: the search reaches the next vertex *)
From Coq Require Import ZArith Reals List Arith Bool Lia Lra Psatz.
From Verif Require Import Base HalfEdge HalfEdgeFacts Perm PermSpec PermFacts IndexedSet Combinatorial CombinatorialSpec
  CombinatorialFacts CombinatorialHistory CombinatorialOps ExactReal Vector PlaneSpec Plane VectorFacts
  FlatTri FlatSpec FlatFacts FlatSum Chain ChainSpec ChainFacts Saddle SaddleSpec SaddleFacts
  Search SearchSpec SearchMoves SearchPlane SearchDepth SearchRun SearchAll PointFacts Translate TranslateRun.
Import ListNotations.
Local Open Scope R_scope.

Section run.
Context {K : ExactReal} (n : nat) (cs : conns K).
Local Notation s := (cn_surface cs).
Hypothesis S0 : flat_surface n s.
Hypothesis Cl : closed_surface n s.
Hypothesis Rad : cn_radius cs = None.
Hypothesis Low : cn_lower cs = 0%Z.
Variable x0 : ssector K.
Variable rest : list (ssector K).
Let W := fs_wf n s S0.
Local Notation conf := (conf n cs x0 rest).
Local Notation cv := (cvector n s).

(** The search is at a vertex. *)
Definition vertex_iter (c0 c1 : zchain) (y : pt * nat) (c : zchain) (f e : option bool) (st : list sstate) (tmp : list (sboundary K)) : iter K :=
  mkIter (x0 :: rest) (BChain c0) (BChain c) (snd (child s false y)) c
    (FOUND :: START f (Some false) :: SEARCHING_FIRST :: START (Some false) e :: SEARCHING_SECOND :: st) [] (BChain c1 :: tmp).

(** A step, with whether it stops there. *)
Lemma cross_to x c0 c1 m f e st tmp : (snd x < n)%nat -> length c0 = (n / 2)%nat -> length c1 = (n / 2)%nat -> apex cs x <> (0, 0) ->
  conf m (BChain c0) (BChain c1) x (START f e :: st) tmp -> calm f -> calm e ->
  exists m', let w := apex cs x in
    (pdet (cv c0) w <= 0 /\ step cs m = Ok (false, m') /\ conf m' (BChain c0) (BChain c1) (child s true x) (START (Some false) e :: OUTSIDE_CW :: st) tmp) \/
    (0 < pdet (cv c0) w /\ 0 <= pdet (cv c1) w /\ step cs m = Ok (false, m') /\ conf m' (BChain c0) (BChain c1) (child s false x) (START f None :: OUTSIDE_CCW :: st) tmp) \/
    (0 < pdet (cv c0) w /\ pdet (cv c1) w < 0 /\ step cs m = Ok (true, m') /\ exists c, length c = (n / 2)%nat /\ cv c = w /\ m' = vertex_iter c0 c1 x c f e st tmp).
Proof.
  intros Hx G0 G1 Nw C Cf Ce. assert (Hn : (neg (snd x) < n)%nat) by now apply (neg_ltn n (fT s) W). assert (Nb := Cl _ Hn).
  destruct (conf_pop' n cs Rad x0 rest _ _ _ _ _ _ _ C) as [Ep C']. unfold step. rewrite Ep. cbn [bind increment_at].
  assert (Go : match f, e with Some true, Some false | Some false, Some true => false | Some true, _ | _, Some true => true | _, _ => false end = false).
  { unfold calm in *. destruct f as [[|]|], e as [[|]|]; auto; congruence. }
  rewrite Go. clear Go Ep C.
  unfold cross. destruct (conf_settle n cs S0 x0 rest _ _ _ _ _ _ (move_other n cs x0 rest x _ _ _ _ _ C')) as (m1 & E1' & S1). rewrite E1'. cbn [bind].
  assert (C1 := settled_conf n cs x0 rest _ _ _ _ _ _ S1). destruct S1 as (c1' & -> & Lc1 & _ & Ec1). cbn [it_next back snd].
  rewrite (bdry_Ok n) by auto. cbn [bind]. fold (fF s (neg (snd x))). destruct (Nat.eqb_spec (fF s (neg (snd x))) (neg (snd x))) as [B|_]; [contradiction|].
  destruct (conf_settle n cs S0 x0 rest _ _ _ _ _ _ (move_right n cs S0 x0 rest x Hx Nb _ _ _ _ _ C1)) as (m2 & E2 & S2). change (snd (back cs x)) with (neg (snd x)) in E2. rewrite E2. cbn [bind]. clear E1' E2 C1.
  assert (C2 := settled_conf n cs x0 rest _ _ _ _ _ _ S2).
  destruct (classify_Ok n cs S0 x0 rest x m2 (BChain c0) (BChain c1) st tmp S2 G0 G1) as [[Ec D]|[[Ec D]|[Ec D]]]; rewrite Ec; cbn [bind].
  - assert (S2' := S2). destruct S2 as (c & -> & Lc & _ & Dc). cbn [push_state push_move set_position set_state it_end]. destruct (zc_vector_Ok n s S0 c Lc) as (u & Eu & Du). rewrite Eu, Rad. cbn [bind].
    eexists. left. split; [destruct D as [D|[D _]]; cbn [bdir] in D; lra|]. split; [reflexivity|].
    apply conf_state. apply (conf_state n cs x0 rest _ _ _ _ _ _ OUTSIDE_CW). apply (move_left n cs S0 x0 rest x Hx Nb). exact C2.
  - destruct D as [D D']. eexists. right. left. split; auto. split; auto. split; [reflexivity|]. apply conf_state. now apply conf_state.
  - destruct D as [[D D']|[_ D]]; [|discriminate].
    destruct S2 as (c & -> & Lc & _ & Dc). cbn [it_end]. destruct (zc_vector_Ok n s S0 c Lc) as (u & Eu & Du). rewrite Eu, Rad. cbn [bind].
    assert (V : vgtb u (cn_lower cs) = true). { rewrite Low. apply vgtb_spec; [lia|]. rewrite Du. apply pdot_pos. intros Z. apply Nw. rewrite <- Z. symmetry. exact Dc. }
    rewrite V. eexists. right. right. split; auto. split; auto. split; [reflexivity|]. exists c. auto.
Qed.

(** A beam that does not meet a vertex cannot be long. *)
Lemma beam_short d0 d1 : 0 < pdet d0 d1 -> exists R2, forall x, (snd x < n)%nat -> node_ok s false (fst x) (snd x) d0 d1 ->
  (forall t, 0 <= t <= 1 -> R2 < pdot (padd (fst x) (pscale t (vv s (snd x)))) (padd (fst x) (pscale t (vv s (snd x))))) -> False.
Proof.
  intros D01. destruct (maximum (fun h => pdet d0 (vv s h)) (seq 0 n)) as (M & HM & Edges).
  set (B := M / pdet d0 d1). exists (B * B * pdot d1 d1). intros x Hx (D & C0 & C1 & _) Out.
  assert (X0 : crossing n s d0 x) by (split; auto). assert (X1 : crossing n s d1 x) by (split; auto).
  destruct (crossing_facts n s d0 x X0) as (P0 & D' & T0 & A0). destruct (crossing_facts n s d1 x X1) as (P1 & _ & T1 & A1).
  assert (E0 : padd (fst x) (pscale (part s d0 x) (vv s (snd x))) = pscale (when s d0 x) d0).
  { unfold part, when, padd, pscale. unfold pdet in *. apply pt_eq; cbn [fst snd]; field; lra. }
  assert (E1 : padd (fst x) (pscale (part s d1 x) (vv s (snd x))) = pscale (when s d1 x) d1).
  { unfold part, when, padd, pscale. unfold pdet in *. apply pt_eq; cbn [fst snd]; field; lra. }
  specialize (Out (part s d1 x) A1). rewrite E1 in Out.
  assert (Le : pdet d0 (vv s (snd x)) <= M) by (apply (Edges (snd x)), in_seq; lia).
  set (t0 := part s d0 x) in *. set (t1 := part s d1 x) in *. set (w0 := when s d0 x) in *. set (w1 := when s d1 x) in *. set (v := vv s (snd x)) in *.
  assert (Q : w1 * pdet d0 d1 = (t1 - t0) * pdet d0 v).
  { assert (F0 : pdet d0 (padd (fst x) (pscale t0 v)) = 0) by (rewrite E0; unfold pdet, pscale; cbn [fst snd]; ring).
    assert (F1 : pdet d0 (padd (fst x) (pscale t1 v)) = w1 * pdet d0 d1) by (rewrite E1; unfold pdet, pscale; cbn [fst snd]; ring).
    rewrite <- F1. transitivity (pdet d0 (padd (fst x) (pscale t1 v)) - pdet d0 (padd (fst x) (pscale t0 v))); [rewrite F0; ring|]. unfold pdet, padd, pscale; cbn [fst snd]; ring. }
  assert (Bw : w1 <= B).
  { unfold B. apply (Rmult_le_reg_r (pdet d0 d1)); auto. unfold Rdiv. rewrite Rmult_assoc, Rinv_l by lra. rewrite Q. nra. }
  assert (E : pdot (pscale w1 d1) (pscale w1 d1) = w1 * w1 * pdot d1 d1) by (unfold pdot, pscale; cbn [fst snd]; ring). rewrite E in Out.
  assert (0 <= pdot d1 d1) by (unfold pdot; nra). assert (w1 * w1 <= B * B) by nra. nra.
Qed.

(** What there is at a vertex that was found. *)
Definition found_at (m : iter K) (c0 c1 : zchain) (y : pt * nat) : Prop :=
  exists c f e st tmp, m = vertex_iter c0 c1 y c f e st tmp /\ length c = (n / 2)%nat /\ cv c = apex cs y /\ calm f /\ calm e /\
    (snd y < n)%nat /\ node_ok s false (fst y) (snd y) (cv c0) (cv c1) /\ 0 < pdet (cv c0) (apex cs y) /\ pdet (cv c1) (apex cs y) < 0.
Definition arrives (m m' : iter K) : Prop := exists N, forall k, (N <= k)%nat -> advance cs k m = Ok m'.
(** The vertices that are seen between [d0] and [d1] behind [x] are the ones behind [y]. *)
Definition leads (d0 d1 : pt) (x y : pt * nat) : Prop :=
  (forall v t, inside false d0 d1 v -> (hits s (fst x) (snd x) v t <-> hits s (fst y) (snd y) v t)) /\
  forall v, inside false d0 d1 v -> exists l, path_ok n s v x l /\ y = walk s x l.

Lemma arrives_step m m' m'' : step cs m = Ok (false, m') -> arrives m' m'' -> arrives m m''.
Proof.
  intros E [N H]. exists (S (S N)). intros [|k] Lk; [lia|]. rewrite advance_S. destruct k as [|k]; [lia|]. rewrite (step_increment cs k m false m' E). cbn [bind]. apply H. lia.
Qed.
Lemma arrives_found m m' : step cs m = Ok (true, m') -> arrives m m'.
Proof.
  intros E. exists 2%nat. intros [|k] Lk; [lia|]. rewrite advance_S. destruct k as [|k]; [lia|]. rewrite (step_increment cs k m true m' E). reflexivity.
Qed.


(** The search goes on until it finds a vertex. *)
Lemma finds_vertex d0 d1 (D01 : 0 < pdet d0 d1) : forall k R2, (forall x, (snd x < n)%nat -> node_ok s false (fst x) (snd x) d0 d1 ->
    (forall t, 0 <= t <= 1 -> R2 < pdot (padd (fst x) (pscale t (vv s (snd x)))) (padd (fst x) (pscale t (vv s (snd x))))) -> False) ->
  forall x c0 c1 m f e st tmp, cv c0 = d0 -> cv c1 = d1 -> (snd x < n)%nat -> length c0 = (n / 2)%nat -> length c1 = (n / 2)%nat -> node_ok s false (fst x) (snd x) d0 d1 ->
  (forall l, path_ok n s d1 x l -> length l = k -> let y := walk s x l in forall t, 0 <= t <= 1 -> R2 < pdot (padd (fst y) (pscale t (vv s (snd y)))) (padd (fst y) (pscale t (vv s (snd y))))) ->
  conf m (BChain c0) (BChain c1) x (START f e :: st) tmp -> calm f -> calm e ->
  exists m' y, arrives m m' /\ found_at m' c0 c1 y /\ leads d0 d1 x y.
Proof.
  intros k R2 Short. induction k as [|k IH]; intros x c0 c1 m f e st tmp E0 E1 Hx G0 G1 N Deep C Cf Ce.
  { exfalso. apply (Short x Hx N). apply (Deep []); auto. pose proof N as (D & _ & C1 & _). split; auto. split; auto. }
  assert (Hn : (neg (snd x) < n)%nat) by now apply (neg_ltn n (fT s) W). assert (Nb := Cl _ Hn).
  pose proof N as (D & C0 & C1 & O & _ & _).
  assert (Nw : apex cs x <> (0, 0)) by (apply (w_nonzero n s S0 false (fst x) (snd x) d0 d1); auto).
  assert (Deep' : forall b l, path_ok n s d1 (child s b x) l -> length l = k -> let y := walk s (child s b x) l in forall t, 0 <= t <= 1 -> R2 < pdot (padd (fst y) (pscale t (vv s (snd y)))) (padd (fst y) (pscale t (vv s (snd y))))).
  { intros b l P L. apply (Deep (b :: l)); [|cbn; lia]. split; [split; auto|]. split; auto. }
  assert (Step : forall b, node_ok s false (fst (child s b x)) (snd (child s b x)) d0 d1 ->
     (forall v t, inside false d0 d1 v -> (hits s (fst x) (snd x) v t <-> hits s (fst (child s b x)) (snd (child s b x)) v t)) -> forall y, leads d0 d1 (child s b x) y -> leads d0 d1 x y).
  { intros b Nc Eq y [L1 L2]. split; [intros v t I; rewrite (Eq v t I); auto|]. intros v I. destruct (L2 v I) as (l & P & ->). exists (b :: l). split; auto. split; [|split; auto].
    pose proof (inside_cone s false (fst x) (snd x) d0 d1 v N I) as [X1 X2]. split; auto. split; auto. split; [lra|]. split; [lra|]. intros ->. unfold pdet in X1; cbn in X1; lra. }
  destruct (cross_to x c0 c1 m f e st tmp Hx G0 G1 Nw C Cf Ce) as (m1 & H). cbv zeta in H. rewrite E0, E1 in H.
  destruct H as [(Dw & Es & C')|[(Dw & Dw' & Es & C')|(Dw & Dw' & Es & c & Lc & Dc & ->)]].
  - destruct (step_clockwise n s S0 false (fst x) (snd x) d0 d1 Hx Nb N) as (N' & _ & Eq).
    { change (pdet d0 (apex cs x) < 0 \/ (pdet d0 (apex cs x) = 0 /\ false = false)). destruct Dw; auto. }
    destruct (IH (child s true x) c0 c1 m1 (Some false) e (OUTSIDE_CW :: st) tmp E0 E1 (lt_b n cs S0 x Hx) G0 G1 N' (Deep' true) C' ltac:(discriminate) Ce) as (m' & y & A & F & L).
    exists m', y. split; [now apply (arrives_step m m1)|]. split; auto. apply (Step true); auto.
  - destruct (step_counterclockwise n s S0 false (fst x) (snd x) d0 d1 Hx Nb N Dw Dw') as (N' & _ & Eq).
    destruct (IH (child s false x) c0 c1 m1 f None (OUTSIDE_CCW :: st) tmp E0 E1 (lt_a n cs S0 x Hx) G0 G1 N' (Deep' false) C' Cf ltac:(discriminate)) as (m' & y & A & F & L).
    exists m', y. split; [now apply (arrives_step m m1)|]. split; auto. apply (Step false); auto.
  - exists (vertex_iter c0 c1 x c f e st tmp), x. split; [now apply arrives_found|]. split.
    + exists c, f, e, st, tmp. rewrite E0, E1. auto 12.
    + split; [tauto|]. intros v I. exists []. split; auto. split; auto.
      pose proof (inside_cone s false (fst x) (snd x) d0 d1 v N I) as [X1 X2]. split; auto. split; auto. split; [lra|]. split; [lra|]. intros ->. unfold pdet in X1; cbn in X1; lra.
Qed.
Lemma finds c0 c1 x m f e st tmp : 0 < pdet (cv c0) (cv c1) -> (snd x < n)%nat -> length c0 = (n / 2)%nat -> length c1 = (n / 2)%nat -> node_ok s false (fst x) (snd x) (cv c0) (cv c1) ->
  conf m (BChain c0) (BChain c1) x (START f e :: st) tmp -> calm f -> calm e -> exists m' y, arrives m m' /\ found_at m' c0 c1 y /\ leads (cv c0) (cv c1) x y.
Proof.
  intros D Hx G0 G1 N C Cf Ce. destruct (beam_short _ _ D) as (R2 & Short). destruct (depth_bounded n s S0 R2) as (k & Bound).
  apply (finds_vertex (cv c0) (cv c1) D k R2 Short x c0 c1 m f e st tmp); auto. intros l P L. apply (Bound (cv c1)); auto. lia.
Qed.

(** From a vertex, the search continues on one of its sides. *)
Section vertex.
Variables (m : iter K) (c0 c1 : zchain) (y : pt * nat).
Hypothesis G0 : length c0 = (n / 2)%nat.
Hypothesis G1 : length c1 = (n / 2)%nat.
Hypothesis F : found_at m c0 c1 y.
Let w := apex cs y.

Lemma at_right : exists m1 m' c y', skip_sector COUNTERCLOCKWISE m = Ok m1 /\ arrives m1 m' /\ length c = (n / 2)%nat /\ cv c = w /\
  found_at m' c0 c y' /\ leads (cv c0) w (child s false y) y'.
Proof.
  destruct F as (c & f & e & st & tmp & -> & Lc & Dc & Cf & Ce & Hy & N & D0 & D1). assert (Hn : (neg (snd y) < n)%nat) by now apply (neg_ltn n (fT s) W). assert (Nb := Cl _ Hn).
  destruct (skip_left n cs S0 x0 rest y (BChain c0) (BChain c1) Hy c f e st tmp Lc Dc) as (m1 & Es & C).
  destruct (step_found n s S0 false (fst y) (snd y) (cv c0) (cv c1) Hy Nb N D0 D1) as (N1 & _). change (padd (fst y) (vv s (fF s (neg (snd y))))) with (apex cs y) in N1. rewrite <- Dc in N1.
  destruct (finds c0 c (child s false y) m1 f (Some false) (SEARCHING_FIRST :: SEARCHING_SECOND :: st) (BChain c1 :: tmp)) as (m' & y' & A & F' & L); auto.
  - now rewrite Dc.
  - apply (lt_a n cs S0 y Hy).
  - discriminate.
  - exists m1, m', c, y'. rewrite Dc in L. auto 8.
Qed.
Lemma at_left : exists m1 m' c y', skip_sector CLOCKWISE m = Ok m1 /\ arrives m1 m' /\ length c = (n / 2)%nat /\ cv c = w /\
  found_at m' c c1 y' /\ leads w (cv c1) (child s true y) y'.
Proof.
  destruct F as (c & f & e & st & tmp & -> & Lc & Dc & Cf & Ce & Hy & N & D0 & D1). assert (Hn : (neg (snd y) < n)%nat) by now apply (neg_ltn n (fT s) W). assert (Nb := Cl _ Hn).
  set (m0 := vertex_iter c0 c1 y c f e st tmp). set (m1 := set_state m0 (SEARCHING_FIRST :: START (Some false) e :: SEARCHING_SECOND :: st)).
  assert (C : conf m1 (BChain c0) (BChain c) (child s false y) (SEARCHING_FIRST :: START (Some false) e :: SEARCHING_SECOND :: st) (BChain c1 :: tmp)).
  { apply settled_conf. exists c. split; [reflexivity|]. split; auto. split; [apply (lt_a n cs S0 y Hy)|exact Dc]. }
  destruct (conf_pop' n cs Rad x0 rest _ _ _ _ _ _ _ C) as [Ep Cp]. destruct (conf_settle n cs S0 x0 rest _ _ _ _ _ _ Cp) as (m5 & E5 & S5). assert (C5 := settled_conf n cs x0 rest _ _ _ _ _ _ S5).
  destruct S5 as (c5 & -> & Lc5 & _ & Dc5). destruct (zc_vector_Ok n s S0 c5 Lc5) as (u5 & Eu5 & Du5). change (cv c5 = w) in Dc5.
  set (m2 := push_move (set_bounds (mkIter (x0 :: rest) (BChain c0) (BChain c) (snd (child s false y)) c5 (START (Some false) e :: SEARCHING_SECOND :: st) [] (BChain c1 :: tmp)) (BChain c5) (BChain c1) (BChain c0 :: tmp)) GOTO_NEXT_EDGE).
  assert (St : step cs m1 = Ok (false, m2)).
  { unfold step. rewrite Ep. cbn [bind increment_at]. change (it_tmp (set_state m1 (START (Some false) e :: SEARCHING_SECOND :: st))) with (BChain c1 :: tmp). cbv iota beta. rewrite E5. cbn [bind it_end it_b0]. rewrite Eu5. reflexivity. }
  assert (C2 : conf m2 (BChain c5) (BChain c1) (child s true y) (START (Some false) e :: SEARCHING_SECOND :: st) (BChain c0 :: tmp)).
  { apply (move_left n cs S0 x0 rest y Hy Nb). apply (conf_bounds n cs x0 rest _ (BChain c0) (BChain c) _ _ (BChain c1 :: tmp)). exact C5. }
  destruct (step_found n s S0 false (fst y) (snd y) (cv c0) (cv c1) Hy Nb N D0 D1) as (_ & N2 & _). change (padd (fst y) (vv s (fF s (neg (snd y))))) with w in N2.
  destruct (finds c5 c1 (child s true y) m2 (Some false) e (SEARCHING_SECOND :: st) (BChain c0 :: tmp)) as (m' & y' & A & F' & L); auto.
  - rewrite Dc5. rewrite pdet_swap. fold w in D1. lra.
  - apply (lt_b n cs S0 y Hy).
  - rewrite Dc5. exact N2.
  - discriminate.
  - exists m1, m', c5, y'. rewrite Dc5 in L. split; [reflexivity|]. split; [now apply (arrives_step m1 m2)|]. auto.
Qed.
End vertex.
End run.
