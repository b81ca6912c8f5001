(** * The search without a radius, step by step *)
From Coq Require Import ZArith Reals List Arith Bool Lia Lra Psatz.
From Verif Require Import Base HalfEdge HalfEdgeFacts Perm PermSpec PermFacts IndexedSet Combinatorial CombinatorialSpec
  CombinatorialFacts CombinatorialHistory CombinatorialOps ExactReal Vector PlaneSpec Plane VectorFacts
  FlatTri FlatSpec FlatFacts FlatSum Chain ChainSpec ChainFacts Saddle SaddleSpec SaddleFacts
  Search SearchSpec SearchMoves SearchPlane SearchDepth SearchRun SearchAll PointFacts Translate.
Import ListNotations.
Local Open Scope R_scope.

Section run.
Context {K : ExactReal} (n : nat) (cs : conns K).
Local Notation s := (cn_surface cs).
Hypothesis S0 : flat_surface n s.
Hypothesis Rad : cn_radius cs = None.
Variable x0 : ssector K.
Variable rest : list (ssector K).
Let W := fs_wf n s S0.
Local Notation conf := (conf n cs x0 rest).
Local Notation settled := (settled n cs x0 rest).
Local Notation bdir := (bdir n cs).

(** Nothing is known to be outside of the radius. *)
Definition calm (o : option bool) : Prop := o <> Some true.

Lemma conf_pop' m b0 b1 x y st tmp : conf m b0 b1 x (y :: st) tmp -> pop cs m = Ok (y, set_state m st) /\ conf (set_state m st) b0 b1 x st tmp.
Proof.
  intros (E1 & E2 & E3 & P & Q & E4 & E5). split.
  - unfold pop. rewrite E4, Rad. now destruct y as [[|] [|]| | | | | |].
  - unfold SearchRun.conf, placed, place, set_state in *; cbn [it_sectors it_b0 it_b1 it_state it_tmp it_next it_end it_moves]; tauto.
Qed.
Lemma conf_end m b0 b1 x st tmp : conf m b0 b1 x st tmp -> at_end m = false.
Proof. intros (E & _). unfold at_end. now rewrite E. Qed.

Section crossing.
Variables (x : pt * nat) (b0 b1 : sboundary K) (c0' c1' : zchain).
Hypothesis Hx : (snd x < n)%nat.
Hypothesis Nb : fF s (neg (snd x)) <> neg (snd x).
Hypothesis E0 : b0 = BChain c0'.
Hypothesis E1 : b1 = BChain c1'.
Hypothesis G0 : bgood n b0.
Hypothesis G1 : bgood n b1.
Let w := apex cs x.

(** The state after the edge was crossed. *)
Inductive crossed_to (m : iter K) (f e : option bool) (st : list sstate) (tmp : list (sboundary K)) : Prop :=
| crossed_left : pdet (bdir b0) w <= 0 -> conf m b0 b1 (child s true x) (START (Some false) e :: OUTSIDE_CW :: st) tmp -> crossed_to m f e st tmp
| crossed_right : 0 < pdet (bdir b0) w -> 0 <= pdet (bdir b1) w -> conf m b0 b1 (child s false x) (START f None :: OUTSIDE_CCW :: st) tmp -> crossed_to m f e st tmp
| crossed_vertex c : 0 < pdet (bdir b0) w -> pdet (bdir b1) w < 0 -> length c = (n / 2)%nat -> cvector n s c = w ->
    m = mkIter (x0 :: rest) b0 (BChain c) (snd (child s false x)) c
      (FOUND :: START f (Some false) :: SEARCHING_FIRST :: START (Some false) e :: SEARCHING_SECOND :: st) [] (b1 :: tmp) -> crossed_to m f e st tmp.

Lemma cross_step m f e st tmp : conf m b0 b1 x (START f e :: st) tmp -> calm f -> calm e ->
  exists b m', step cs m = Ok (b, m') /\ crossed_to m' f e st tmp.
Proof.
  intros C Cf Ce. destruct (conf_pop' _ _ _ _ _ _ _ C) as [Ep C']. unfold step. rewrite Ep. cbn [bind increment_at].
  assert (Go : match f, e with Some true, Some false | Some false, Some true => false | Some true, _ | _, Some true => true | _, _ => false end = false).
  { unfold calm in *. destruct f as [[|]|], e as [[|]|]; auto; congruence. }
  rewrite Go. clear Go Ep C. assert (Hn : (neg (snd x) < n)%nat) by now apply (neg_ltn n (fT s) W).
  unfold cross. destruct (conf_settle n cs S0 x0 rest _ _ _ _ _ _ (move_other n cs x0 rest x _ _ _ _ _ C')) as (m1 & E1' & S1). rewrite E1'. cbn [bind].
  assert (C1 := settled_conf n cs x0 rest _ _ _ _ _ _ S1). destruct S1 as (c1 & -> & Lc1 & _ & Ec1). cbn [it_next back snd].
  rewrite (bdry_Ok n) by auto. cbn [bind]. fold (fF s (neg (snd x))). destruct (Nat.eqb_spec (fF s (neg (snd x))) (neg (snd x))) as [B|_]; [contradiction|].
  destruct (conf_settle n cs S0 x0 rest _ _ _ _ _ _ (move_right n cs S0 x0 rest x Hx Nb _ _ _ _ _ C1)) as (m2 & E2 & S2). change (snd (back cs x)) with (neg (snd x)) in E2. rewrite E2. cbn [bind]. clear E1' E2 C1.
  assert (C2 := settled_conf n cs x0 rest _ _ _ _ _ _ S2).
  destruct (classify_Ok n cs S0 x0 rest x m2 b0 b1 st tmp S2 G0 G1) as [[Ec D]|[[Ec D]|[Ec D]]]; rewrite Ec; cbn [bind]; fold w in D.
  - assert (S2' := S2). destruct S2 as (c & -> & Lc & _ & Dc). cbn [push_state push_move set_position set_state it_end]. destruct (zc_vector_Ok n s S0 c Lc) as (u & Eu & Du). rewrite Eu, Rad. cbn [bind].
    eexists _, _. split; [reflexivity|]. apply crossed_left; [destruct D as [D|[D _]]; lra|].
    apply conf_state. apply (conf_state n cs x0 rest _ _ _ _ _ _ OUTSIDE_CW). apply (move_left n cs S0 x0 rest x Hx Nb). exact C2.
  - destruct D as [D D']. eexists _, _. split; [reflexivity|]. apply crossed_right; auto. apply conf_state. now apply conf_state.
  - destruct D as [[D D']|[_ D]]; [|rewrite E0 in D; discriminate].
    destruct S2 as (c & -> & Lc & _ & Dc). cbn [it_end]. destruct (zc_vector_Ok n s S0 c Lc) as (u & Eu & Du). rewrite Eu, Rad. cbn [bind].
    eexists _, _. split; [reflexivity|]. apply (crossed_vertex _ _ _ _ _ c); auto. rewrite E0, E1. reflexivity.
Qed.

(** The edge is reported, as well as where it starts. *)
Lemma intersection m f e st tmp : conf m b0 b1 x (START f e :: st) tmp -> calm f -> calm e ->
  exists c m', (forall k, with_intersections cs (S (S k)) m = Ok (Some (c, snd x), m')) /\ length c = (n / 2)%nat /\ cvector n s c = fst x /\ crossed_to m' f e st tmp.
Proof.
  intros C Cf Ce. destruct (conf_settle n cs S0 x0 rest _ _ _ _ _ _ C) as (m1 & Em & Sm). assert (C1 := settled_conf n cs x0 rest _ _ _ _ _ _ Sm).
  destruct (cross_step m1 f e st tmp C1 Cf Ce) as (b & m' & Es & Cr). destruct Sm as (c & -> & Lc & _ & Dc).
  destruct (zc_sub_he_Ok n s S0 c (snd x) Lc Hx) as (c' & Ec & Lc' & Dc' & _). exists c', m'. split; [|split; auto; split; auto].
  - intros k. remember (S k) as k1. cbn [with_intersections]. rewrite (conf_end _ _ _ _ _ _ C). assert (Es' : it_state m = START f e :: st) by apply C. rewrite Es', Em. cbn [bind it_next it_end]. rewrite Ec. cbn [bind].
    subst k1. rewrite (step_increment cs k _ b m' Es). reflexivity.
  - rewrite Dc', Dc. destruct (fst x), (vv s (snd x)). unfold padd, pneg; apply pt_eq; cbn [fst snd]; ring.
Qed.

(** At a vertex that was found, ... *)
Section vertex.
Variables (c : zchain) (f e : option bool) (st : list sstate) (tmp : list (sboundary K)).
Hypothesis Lc : length c = (n / 2)%nat.
Hypothesis Dc : cvector n s c = w.
Let m := mkIter (x0 :: rest) b0 (BChain c) (snd (child s false x)) c (FOUND :: START f (Some false) :: SEARCHING_FIRST :: START (Some false) e :: SEARCHING_SECOND :: st) [] (b1 :: tmp).

Lemma no_intersection k : with_intersections cs (S k) m = Ok (None, m).
Proof. reflexivity. Qed.
(** ... the connection is reported, ... *)
Lemma vertex_found : sdereference cs m = Ok (mkSconn s (sec_source x0) (fF s (fF s (neg (snd x)))) c).
Proof.
  unfold sdereference, m. cbn [it_sectors it_state it_next it_end]. assert (Hn : (neg (snd x) < n)%nat) by now apply (neg_ltn n (fT s) W).
  assert (Ha : (neg (fF s (neg (snd x))) < n)%nat) by (apply (neg_ltn n (fT s) W); apply (lt_a n cs S0 x Hx)).
  change (snd (child s false x)) with (fF s (neg (snd x))). rewrite (prevV_Ok n) by auto. cbn [bind].
  assert (Lk : nV (fT s) (fF s (fF s (neg (snd x)))) = neg (fF s (neg (snd x)))).
  { rewrite (nV_link' n _ W) by (first [apply (lt_b n cs S0 x Hx)|apply (nb_b n cs S0 x Hx Nb)]). f_equal. fold (fF s (fF s (fF s (neg (snd x))))). rewrite (fF3 n) by auto. reflexivity. }
  rewrite <- Lk, (pV_nV n _ W) by apply (lt_b n cs S0 x Hx). reflexivity.
Qed.
(** ... and one of the two parts can be skipped. *)
Lemma skip_left : exists m', skip_sector COUNTERCLOCKWISE m = Ok m' /\
  conf m' b0 (BChain c) (child s false x) (START f (Some false) :: SEARCHING_FIRST :: SEARCHING_SECOND :: st) (b1 :: tmp).
Proof.
  eexists. split; [reflexivity|]. apply settled_conf. exists c. split; [reflexivity|]. split; auto. split; [apply (lt_a n cs S0 x Hx)|exact Dc].
Qed.
Lemma skip_right : exists m', skip_sector CLOCKWISE m = Ok m' /\ exists c' m'', length c' = (n / 2)%nat /\ cvector n s c' = w /\
  conf m'' (BChain c') b1 (child s true x) (START (Some false) e :: SEARCHING_SECOND :: st) (b0 :: tmp) /\
  forall k, with_intersections cs (S (S k)) m' = with_intersections cs (S k) m''.
Proof.
  eexists. split; [reflexivity|]. set (m' := set_state m _). 
  assert (C : conf m' b0 (BChain c) (child s false x) (SEARCHING_FIRST :: START (Some false) e :: SEARCHING_SECOND :: st) (b1 :: tmp)).
  { apply settled_conf. exists c. split; [reflexivity|]. split; auto. split; [apply (lt_a n cs S0 x Hx)|exact Dc]. }
  destruct (conf_pop' _ _ _ _ _ _ _ C) as [Ep Cp]. destruct (conf_settle n cs S0 x0 rest _ _ _ _ _ _ Cp) as (m5 & E5 & S5). assert (C5 := settled_conf n cs x0 rest _ _ _ _ _ _ S5).
  destruct S5 as (c5 & -> & Lc5 & _ & Dc5). destruct (zc_vector_Ok n s S0 c5 Lc5) as (u5 & Eu5 & Du5).
  exists c5. eexists. split; auto. split; [exact Dc5|]. split.
  2:{ intros k. remember (S k) as k1. cbn [with_intersections]. rewrite (conf_end _ _ _ _ _ _ C). assert (Es : it_state m' = SEARCHING_FIRST :: START (Some false) e :: SEARCHING_SECOND :: st) by reflexivity. rewrite Es. subst k1.
      rewrite (step_increment cs k m' false (push_move (set_bounds (mkIter (x0 :: rest) b0 (BChain c) (snd (child s false x)) c5 (START (Some false) e :: SEARCHING_SECOND :: st) [] (b1 :: tmp)) (BChain c5) b1 (b0 :: tmp)) GOTO_NEXT_EDGE)).
      - reflexivity.
      - unfold step. rewrite Ep. cbn [bind increment_at]. change (it_tmp (set_state m' (START (Some false) e :: SEARCHING_SECOND :: st))) with (b1 :: tmp). cbv iota beta. rewrite E5. cbn [bind it_end it_b0]. rewrite Eu5. cbn [bind]. rewrite E0. reflexivity. }
  apply (move_left n cs S0 x0 rest x Hx Nb). apply (conf_bounds n cs x0 rest _ b0 (BChain c) _ _ (b1 :: tmp)). exact C5.
Qed.
End vertex.
End crossing.
End run.
