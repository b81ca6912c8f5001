(** * What the search does from when it is about to cross an edge until it is back *)
From Coq Require Import ZArith Reals List Arith Bool Lia Lra Psatz.
From Verif Require Import Base HalfEdge HalfEdgeFacts Perm PermSpec PermFacts IndexedSet Combinatorial CombinatorialSpec
  CombinatorialFacts CombinatorialHistory CombinatorialOps ExactReal Vector PlaneSpec Plane VectorFacts
  FlatTri FlatSpec FlatFacts FlatSum Chain ChainSpec ChainFacts Saddle SaddleSpec SaddleFacts Quadratic QuadraticSpec QuadraticFacts
  Search SearchSpec SearchMoves SearchPlane SearchDepth PointFacts.
Import ListNotations.
Local Open Scope R_scope.

Section run.
Context {K : ExactReal} (n : nat) (cs : conns K) (r : Z).
Local Notation s := (cn_surface cs).
Hypothesis S0 : flat_surface n s.
Hypothesis Rad : cn_radius cs = Some r.
Hypothesis R0 : (0 <= r)%Z.
Hypothesis L0 : (0 <= cn_lower cs)%Z.
Variable x0 : ssector K.
Variable rest : list (ssector K).
Let W := fs_wf n s S0.

(** A step of the search, and what is reported by many steps. *)
Definition step (m : iter K) : outcome (bool * iter K) :=
  do (x, m) <- pop cs m; match x with END => UB | _ => increment_at cs x m end.
Inductive steps : iter K -> list (sconn K) -> iter K -> Prop :=
| steps_nil m : steps m [] m
| steps_skip m m1 l m2 : step m = Ok (false, m1) -> steps m1 l m2 -> steps m l m2
| steps_emit m m1 x l m2 : step m = Ok (true, m1) -> sdereference cs m1 = Ok x -> steps m1 l m2 -> steps m (x :: l) m2.
Lemma steps_app m l m1 l' m2 : steps m l m1 -> steps m1 l' m2 -> steps m (l ++ l') m2.
Proof. induction 1; intros H2; cbn [app]; auto; [eapply steps_skip; eauto|eapply steps_emit; eauto]. Qed.

(** The directions of the boundaries. *)
Definition bdir (b : sboundary K) : pt := match b with BChain c => cvector n s c | BVector v => vden v end.
Definition bgood (b : sboundary K) : Prop := match b with BChain c => length c = (n / 2)%nat | BVector _ => True end.
Lemma bvector_Ok b : bgood b -> exists v, bvector cs b = Ok v /\ vden v = bdir b.
Proof. destruct b as [c|v]; cbn [bgood bvector bdir]; intros H; [now apply zc_vector_Ok|now exists v]. Qed.
Lemma bccw_Ok b c : bgood b -> length c = (n / 2)%nat -> exists o, bccw cs b c = Ok o /\
  match o with COUNTERCLOCKWISE => 0 < pdet (bdir b) (cvector n s c) | COLLINEAR => pdet (bdir b) (cvector n s c) = 0 | CLOCKWISE => pdet (bdir b) (cvector n s c) < 0 end.
Proof.
  intros Hb Hc. destruct (bvector_Ok b Hb) as (v & E & D). destruct (zc_vector_Ok n s S0 c Hc) as (w & E' & D'). unfold bccw. rewrite E. cbn [bind]. rewrite E'. cbn [bind].
  eexists. split; [reflexivity|]. pose proof (ccw_cases v w) as C. rewrite D, D' in C. exact C.
Qed.

(** The search is at the edge [x], with the boundaries [b0] and [b1], and has [st] to do. *)
Definition conf (m : iter K) (b0 b1 : sboundary K) (x : pt * nat) (st : list sstate) (tmp : list (sboundary K)) : Prop :=
  it_sectors m = x0 :: rest /\ it_b0 m = b0 /\ it_b1 m = b1 /\ placed n cs m /\ place n cs m = (snd x, padd (fst x) (vv s (snd x))) /\ it_state m = st /\ it_tmp m = tmp.
(** ... and has no moves to do. *)
Definition settled (m : iter K) (b0 b1 : sboundary K) (x : pt * nat) (st : list sstate) (tmp : list (sboundary K)) : Prop :=
  exists c, m = mkIter (x0 :: rest) b0 b1 (snd x) c st [] tmp /\ length c = (n / 2)%nat /\ (snd x < n)%nat /\ cvector n s c = padd (fst x) (vv s (snd x)).

Lemma settled_conf m b0 b1 x st tmp : settled m b0 b1 x st tmp -> conf m b0 b1 x st tmp.
Proof. intros (c & -> & Lc & H & E). unfold conf, placed, place. cbn [it_sectors it_b0 it_b1 it_state it_tmp it_next it_end it_moves moved_all fold_left possible]. rewrite E. repeat split; auto. Qed.
Lemma conf_settle m b0 b1 x st tmp : conf m b0 b1 x st tmp -> exists m', apply_moves cs m = Ok m' /\ settled m' b0 b1 x st tmp.
Proof.
  intros (E1 & E2 & E3 & P & Q & E4 & E5). destruct (apply_moves_Ok n cs S0 m P) as (e & c & E & He & Lc & D). exists (set_position m e c []). split; auto.
  exists c. rewrite Q in D. injection D as D1 D2. subst e. unfold set_position. rewrite E1, E2, E3, E4, E5. auto.
Qed.
Lemma possible_app l : forall l' z, possible s (l ++ l') z <-> possible s l z /\ possible s l' (moved_all s l z).
Proof. induction l as [|a l IH]; intros l' z; cbn [app possible]; [tauto|]. rewrite IH. tauto. Qed.
Lemma conf_move m b0 b1 x st tmp mv y : conf m b0 b1 x st tmp -> possible s [mv] (snd x, padd (fst x) (vv s (snd x))) ->
  moved s mv (snd x, padd (fst x) (vv s (snd x))) = (snd y, padd (fst y) (vv s (snd y))) -> conf (push_move m mv) b0 b1 y st tmp.
Proof.
  intros (E1 & E2 & E3 & (P1 & P2 & P3) & Q & E4 & E5) Pm E. unfold conf, placed, place, push_move, set_position in *.
  cbn [it_sectors it_b0 it_b1 it_state it_tmp it_next it_end it_moves]. unfold moved_all in *. rewrite fold_left_app, Q. cbn [fold_left]. rewrite E.
  split; auto. split; auto. split; auto. split; [|auto]. split; auto. split; auto. rewrite possible_app. split; auto. unfold moved_all. rewrite Q. exact Pm.
Qed.

Definition outside (x : pt * nat) : Prop :=
  forall t, 0 <= t <= 1 -> IZR r < pdot (padd (fst x) (pscale t (vv s (snd x)))) (padd (fst x) (pscale t (vv s (snd x)))).
Definition inner (p : pt) : Prop := pdot p p <= IZR r.
Definition labels_ok (x : pt * nat) (f e : option bool) : Prop := (f = Some false -> inner (fst x)) /\ (e = Some false -> inner (padd (fst x) (vv s (snd x)))).
Definition within (v : pt) : Prop := IZR (cn_lower cs) < pdot v v /\ pdot v v <= IZR r.

Lemma outside_ends x : outside x -> ~ inner (fst x) /\ ~ inner (padd (fst x) (vv s (snd x))).
Proof.
  intros H. unfold inner. split; intros I.
  - specialize (H 0). replace (padd (fst x) (pscale 0 (vv s (snd x)))) with (fst x) in H by (unfold padd, pscale; apply pt_eq; cbn [fst snd]; ring). lra.
  - specialize (H 1). replace (padd (fst x) (pscale 1 (vv s (snd x)))) with (padd (fst x) (vv s (snd x))) in H by (unfold padd, pscale; apply pt_eq; cbn [fst snd]; ring). lra.
Qed.
Lemma edge_outside_Ok m b0 b1 x st tmp : settled m b0 b1 x st tmp -> exists o, edge_outside cs r m = Ok o /\ (o = true <-> outside x).
Proof.
  intros (c & -> & Lc & H & E). unfold edge_outside. cbn [it_next it_end].
  assert (Hn : (neg (snd x) < n)%nat) by now apply (neg_ltn n (fT s) W).
  rewrite from_he_Ok by (rewrite (fs_length n s S0); auto). cbn [bind]. destruct (zc_vector_Ok n s S0 c Lc) as (w & Ew & Dw). rewrite Ew. cbn [bind].
  eexists. split; [reflexivity|]. rewrite qpositive_spec.
  assert (Vn : vden (vat' s (neg (snd x))) = pneg (vv s (snd x))) by (rewrite <- (fs_odd n s S0 (snd x) H); reflexivity).
  assert (Q : forall t, at_ (mkQuad (vx (vat' s (neg (snd x))) * vx (vat' s (neg (snd x))) + vy (vat' s (neg (snd x))) * vy (vat' s (neg (snd x))))%X
    (rofZ 2 * vx w * vx (vat' s (neg (snd x))) + rofZ 2 * vy w * vy (vat' s (neg (snd x))))%X (vx w * vx w + vy w * vy w - rofZ (bsquared r))%X) t =
    pdot (padd (fst x) (pscale (1 - t) (vv s (snd x)))) (padd (fst x) (pscale (1 - t) (vv s (snd x)))) - IZR r).
  { intros t. unfold at_, bsquared; cbn [qa qb qc]. rewrite !den_sub, !den_add, !den_mul, !den_ofZ. unfold vden in Vn, Dw. rewrite E in Dw.
    set (e := vv s (snd x)) in *. set (u := vat' s (neg (snd x))) in *. clearbody e u. destruct e as [e1 e2]. injection Dw as D1 D2. injection Vn as V1 V2. rewrite D1, D2, V1, V2. destruct (fst x) as [p1 p2]. unfold pdot, padd, pscale; cbn [fst snd]. ring. }
  unfold outside. split.
  - intros Hp t Ht. specialize (Hp (1 - t)). rewrite Q in Hp. replace (1 - (1 - t)) with t in Hp by ring. lra.
  - intros Hp t Ht. rewrite Q. specialize (Hp (1 - t)). lra.
Qed.

(** Popping a state, and the test whether the edge is outside. *)
Lemma step_start m b0 b1 x st tmp f e : conf m b0 b1 x (START f e :: st) tmp -> labels_ok x f e ->
  exists f' e' m', labels_ok x f' e' /\ conf m' b0 b1 x st tmp /\
  ((outside x /\ step m = Ok (false, m')) \/ (~ outside x /\ step m = cross cs (START f' e') m')).
Proof.
  intros C Lb.
  assert (P : exists f' e' m', pop cs m = Ok (START f' e', m') /\ labels_ok x f' e' /\ conf m' b0 b1 x st tmp /\ (f' <> None \/ e' <> None)).
  { destruct C as (E1 & E2 & E3 & P & Q & E4 & E5). unfold pop. rewrite E4, Rad.
    assert (C' : conf (set_state m st) b0 b1 x st tmp) by (unfold conf, placed, place, set_state in *; cbn [it_sectors it_b0 it_b1 it_state it_tmp it_next it_end it_moves]; tauto).
    destruct f as [f|]; [exists (Some f), e, (set_state m st); split; auto; split; auto; split; auto; left; discriminate|].
    destruct e as [e|]; [exists None, (Some e), (set_state m st); split; auto; split; auto; split; auto; right; discriminate|].
    destruct (conf_settle _ _ _ _ _ _ C') as (m' & Em & Sm). rewrite Em. cbn [bind]. assert (Sm' := Sm). destruct Sm as (c & -> & Lc & Hx & Ec). cbn [it_end].
    destruct (zc_vector_Ok n s S0 c Lc) as (w & Ew & Dw). rewrite Ew. cbn [bind]. exists None, (Some (negb (vltb w r))). eexists. split; [destruct (vltb w r); reflexivity|].
    split; [|split; [apply settled_conf; exact Sm'|right; discriminate]]. split; [discriminate|]. intros Hv. destruct (vltb w r) eqn:V; [|discriminate]. apply vltb_spec in V; auto. rewrite Dw, Ec in V. unfold inner. lra. }
  destruct P as (f' & e' & m' & Pop & Lb' & C' & N). exists f', e'. unfold step. rewrite Pop. cbn [bind]. unfold increment_at. rewrite Rad.
  set (goes := match f', e' with Some true, Some false | Some false, Some true => false | Some true, _ | _, Some true => true | _, _ => false end). destruct goes eqn:G.
  - destruct (conf_settle _ _ _ _ _ _ C') as (m2 & Em & Sm). rewrite Em. cbn [bind]. destruct (edge_outside_Ok _ _ _ _ _ _ Sm) as (o & Eo & Ho). rewrite Eo. cbn [bind]. exists m2.
    split; auto. split; [now apply settled_conf|]. destruct o; [left; split; auto; now apply Ho|right; split; auto]. intros O. apply Ho in O. discriminate.
  - exists m'. split; auto. split; auto. right. split; auto. intros O. apply outside_ends in O. destruct O as [O1 O2]. destruct Lb' as [B1 B2].
    destruct f' as [[|]|], e' as [[|]|]; try discriminate; auto; destruct N; auto.
Qed.

(** Where the moves lead. *)
Section moving.
Variables (x : pt * nat).
Let p := fst x.
Let h := snd x.
Hypothesis Hx : (snd x < n)%nat.
Hypothesis Nb : fF s (neg (snd x)) <> neg (snd x).
Definition apex := padd (fst x) (vv s (fF s (neg (snd x)))).

Lemma lt_neg : (neg h < n)%nat.
Proof. now apply (neg_ltn n (fT s) W). Qed.
Lemma lt_a : (fF s (neg h) < n)%nat.
Proof. apply (fF_lt n); auto. apply lt_neg. Qed.
Lemma lt_b : (fF s (fF s (neg h)) < n)%nat.
Proof. apply (fF_lt n); auto. apply lt_a. Qed.
Lemma nb_a : fF s (fF s (neg h)) <> fF s (neg h).
Proof. apply (fF_nb n); auto. apply lt_neg. Qed.
Lemma nb_b : fF s (fF s (fF s (neg h))) <> fF s (fF s (neg h)).
Proof. apply (fF_nb n); auto; [apply lt_a|apply nb_a]. Qed.
Lemma end_b : padd apex (vv s (fF s (fF s (neg h)))) = padd p (vv s h).
Proof. apply (across' n s S0 (fst x) (snd x)); auto. Qed.

Definition back : pt * nat := (padd p (vv s h), neg h).
Lemma move_other b0 b1 st tmp m : conf m b0 b1 x st tmp -> conf (push_move m GOTO_OTHER_FACE) b0 b1 back st tmp.
Proof. intros C. apply (conf_move _ _ _ _ _ _ _ _ C); [cbn; auto|]. reflexivity. Qed.
Lemma move_back b0 b1 st tmp m : conf m b0 b1 back st tmp -> conf (push_move m GOTO_OTHER_FACE) b0 b1 x st tmp.
Proof.
  intros C. apply (conf_move _ _ _ _ _ _ _ _ C); [cbn; auto|]. unfold back, moved; cbn [fst snd]. rewrite neg_neg. fold h. f_equal. fold p. rewrite (fs_odd n s S0 h Hx).
  unfold padd, pneg; cbn. apply pt_eq; cbn [fst snd]; ring.
Qed.
Lemma move_right b0 b1 st tmp m : conf m b0 b1 back st tmp -> conf (push_move m GOTO_NEXT_EDGE) b0 b1 (child s false x) st tmp.
Proof.
  intros C. apply (conf_move _ _ _ _ _ _ _ _ C); [cbn; auto|]. unfold back, moved, child; cbn [fst snd]. f_equal. fold p. fold h. rewrite (fs_odd n s S0 h Hx).
  unfold padd, pneg; cbn. apply pt_eq; cbn [fst snd]; ring.
Qed.
Lemma move_left b0 b1 st tmp m : conf m b0 b1 (child s false x) st tmp -> conf (push_move m GOTO_NEXT_EDGE) b0 b1 (child s true x) st tmp.
Proof. intros C. apply (conf_move _ _ _ _ _ _ _ _ C); [split; [apply nb_a|exact I]|]. unfold moved, child; cbn [fst snd]. fold p h. f_equal. Qed.
Lemma move_last b0 b1 st tmp m : conf m b0 b1 (child s true x) st tmp -> conf (push_move m GOTO_NEXT_EDGE) b0 b1 back st tmp.
Proof.
  intros C. apply (conf_move _ _ _ _ _ _ _ _ C); [split; [apply nb_b|exact I]|]. unfold moved, child, back; cbn [fst snd]. fold p h. rewrite (fF3 n) by (auto; apply lt_neg). f_equal. f_equal. apply end_b.
Qed.

(** The classification of the vertex on the other side. *)
Lemma classify_Ok m b0 b1 st tmp : settled m b0 b1 (child s false x) st tmp -> bgood b0 -> bgood b1 ->
  (classify cs m = Ok OUTSIDE_CLOCKWISE /\ (pdet (bdir b0) apex < 0 \/ (pdet (bdir b0) apex = 0 /\ is_chain b0 = true))) \/
  (classify cs m = Ok OUTSIDE_COUNTERCLOCKWISE /\ 0 < pdet (bdir b0) apex /\ 0 <= pdet (bdir b1) apex) \/
  (classify cs m = Ok IS_CONNECTION /\ ((0 < pdet (bdir b0) apex /\ pdet (bdir b1) apex < 0) \/ (pdet (bdir b0) apex = 0 /\ is_chain b0 = false))).
Proof.
  intros (c & -> & Lc & H & E) G0 G1. change (padd (fst (child s false x)) (vv s (snd (child s false x)))) with apex in E. unfold classify; cbn [it_b0 it_b1 it_end]. destruct (bccw_Ok b0 c G0 Lc) as (o & Eo & Do). rewrite Eo. cbn [bind]. rewrite E in Do. destruct o.
  - destruct (bccw_Ok b1 c G1 Lc) as (o' & Eo' & Do'). rewrite Eo'. cbn [bind]. rewrite E in Do'. 
    destruct o'; [right; left; split; auto; split; auto; lra|right; left; split; auto; split; auto; lra|right; right; split; auto].
  - destruct (is_chain b0) eqn:Ic; [left; auto|right; right; auto].
  - left. auto.
Qed.
End moving.

(** ** Lists of connections *)
Definition tells (y : sconn K) (v : pt) (g : nat) : Prop := sv n y = v /\ sc_target y = g.
(** The list consists of the connections that satisfy [P], each of them once. *)
Definition lists (l : list (sconn K)) (P : pt -> nat -> Prop) : Prop :=
  NoDup (map (sv n) l) /\ (forall y, In y l -> sc_surface y = s /\ sc_source y = sec_source x0 /\ length (sc_chain y) = (n / 2)%nat) /\
  forall v g, P v g <-> exists y, In y l /\ tells y v g.
Lemma lists_nil (P : pt -> nat -> Prop) : (forall v g, ~ P v g) -> lists [] P.
Proof. intros H. split; [constructor|]. split; [intros y []|]. intros v g. split; [intros A; now apply H in A|intros (y & [] & _)]. Qed.
Lemma lists_ext l (P Q : pt -> nat -> Prop) : lists l P -> (forall v g, P v g <-> Q v g) -> lists l Q.
Proof. intros (A & B & C) E. split; auto. split; auto. intros v g. rewrite <- E. apply C. Qed.
Lemma lists_app l1 l2 (P Q : pt -> nat -> Prop) : lists l1 P -> lists l2 Q -> (forall v g g', P v g -> ~ Q v g') -> lists (l1 ++ l2) (fun v g => P v g \/ Q v g).
Proof.
  intros (A1 & B1 & C1) (A2 & B2 & C2) D. split; [|split].
  - rewrite map_app. assert (X : forall v, In v (map (sv n) l1) -> ~ In v (map (sv n) l2)).
    { intros v I1 I2. apply in_map_iff in I1, I2. destruct I1 as (y & E & I1), I2 as (z & E' & I2). apply (D v (sc_target y) (sc_target z)); [apply C1; exists y; split; auto; split; auto|apply C2; exists z; split; auto; split; auto]. }
    clear - A1 A2 X. induction (map (sv n) l1) as [|a l IH]; cbn [app]; auto. inversion A1; subst. constructor.
    + rewrite in_app_iff. intros [I|I]; auto. apply (X a); auto. now left.
    + apply IH; auto. intros v I. apply X. now right.
  - intros y I. apply in_app_iff in I. destruct I; auto.
  - intros v g. rewrite C1, C2. split.
    + intros [(y & I & T)|(y & I & T)]; exists y; split; auto; apply in_app_iff; auto.
    + intros (y & I & T). apply in_app_iff in I. destruct I; [left|right]; exists y; auto.
Qed.
Lemma lists_one y : sc_surface y = s -> sc_source y = sec_source x0 -> length (sc_chain y) = (n / 2)%nat -> lists [y] (fun v g => v = sv n y /\ g = sc_target y).
Proof.
  intros A B C. split; [cbn; constructor; auto; constructor|]. split; [intros z [<-|[]]; auto|]. intros v g. split.
  - intros [-> ->]. exists y. split; [now left|]. split; auto.
  - intros (z & [<-|[]] & E1 & E2). auto.
Qed.

(** From the edge [x] with these boundaries, the search reports what satisfies [P] and comes back. *)
Definition block (x : pt * nat) (b0 b1 : sboundary K) (P : pt -> nat -> Prop) : Prop :=
  forall m st tmp f e, conf m b0 b1 x (START f e :: st) tmp -> labels_ok x f e ->
  exists m' l b0', steps m l m' /\ conf m' b0' b1 x st tmp /\ (b0' = b0 \/ (is_chain b0' = true /\ bgood b0')) /\ lists l P.
Lemma block_ext x b0 b1 (P Q : pt -> nat -> Prop) : block x b0 b1 P -> (forall v g, P v g <-> Q v g) -> block x b0 b1 Q.
Proof. intros B E m st tmp f e C Lb. destruct (B m st tmp f e C Lb) as (m' & l & b0' & A1 & A2 & A3 & A4). exists m', l, b0'. split; auto. split; auto. split; auto. now apply (lists_ext l P). Qed.

Lemma conf_pop m b0 b1 x y st tmp : conf m b0 b1 x (y :: st) tmp -> y <> START None None -> pop cs m = Ok (y, set_state m st) /\ conf (set_state m st) b0 b1 x st tmp.
Proof.
  intros (E1 & E2 & E3 & P & Q & E4 & E5) N. split.
  - unfold pop. rewrite E4, Rad. destruct y as [[|] [|]| | | | | |]; auto. now destruct N.
  - unfold conf, placed, place, set_state in *; cbn [it_sectors it_b0 it_b1 it_state it_tmp it_next it_end it_moves]; tauto.
Qed.
Lemma conf_state m b0 b1 x st tmp y : conf m b0 b1 x st tmp -> conf (push_state m y) b0 b1 x (y :: st) tmp.
Proof. intros (E1 & E2 & E3 & P & Q & E4 & E5). unfold conf, placed, place, push_state, set_state in *; cbn [it_sectors it_b0 it_b1 it_state it_tmp it_next it_end it_moves]. rewrite E4. tauto. Qed.
Lemma conf_bounds m b0 b1 x st tmp a0 a1 a : conf m b0 b1 x st tmp -> conf (set_bounds m a0 a1 a) a0 a1 x st a.
Proof. intros (E1 & E2 & E3 & P & Q & E4 & E5). unfold conf, placed, place, set_bounds in *; cbn [it_sectors it_b0 it_b1 it_state it_tmp it_next it_end it_moves]. tauto. Qed.

Section blocks.
Variables (x : pt * nat) (b0 b1 : sboundary K) (P : pt -> nat -> Prop).
Hypothesis Hx : (snd x < n)%nat.
Hypothesis G0 : bgood b0.
Hypothesis G1 : bgood b1.
Let w := apex x.

(** The chains that reach the vertex. *)
Definition reaches (c : zchain) : Prop := length c = (n / 2)%nat /\ cvector n s c = w.

Lemma block_step :
  (outside x -> forall v g, ~ P v g) ->
  (fF s (neg (snd x)) = neg (snd x) -> forall v g, ~ P v g) ->
  (~ outside x -> fF s (neg (snd x)) <> neg (snd x) ->
    (pdet (bdir b0) w < 0 \/ (pdet (bdir b0) w = 0 /\ is_chain b0 = true) -> block (child s true x) b0 b1 P) /\
    (0 < pdet (bdir b0) w -> 0 <= pdet (bdir b1) w -> block (child s false x) b0 b1 P) /\
    ((0 < pdet (bdir b0) w /\ pdet (bdir b1) w < 0) \/ (pdet (bdir b0) w = 0 /\ is_chain b0 = false) ->
      pdet (bdir b1) w <= 0 /\ exists P1 P2,
      (forall c, reaches c -> block (child s false x) (if is_chain b0 then b0 else if Req_EM_T (pdet (bdir b0) w) 0 then BChain c else b0) (BChain c) P1 /\ block (child s true x) (BChain c) b1 P2) /\
      (forall v g, P v g <-> ((v = w /\ g = fF s (fF s (neg (snd x)))) /\ within w) \/ P1 v g \/ P2 v g) /\
      (forall g, ~ P1 w g /\ ~ P2 w g) /\ forall v g g', P1 v g -> ~ P2 v g')) ->
  block x b0 b1 P.
Proof.
  intros Out Bd Inner m st tmp f e C Lb.
  destruct (step_start m b0 b1 x st tmp f e C Lb) as (f' & e' & m' & Lb' & C' & [[O E]|[O E]]).
  { exists m', [], b0. split; [apply (steps_skip _ m'); auto; constructor|]. split; auto. split; auto. apply lists_nil. auto. }
  assert (Hn : (neg (snd x) < n)%nat) by now apply (neg_ltn n (fT s) W).
  unfold cross in E. destruct (conf_settle _ _ _ _ _ _ (move_other x _ _ _ _ _ C')) as (m1 & E1 & S1). rewrite E1 in E. cbn [bind] in E.
  assert (C1 := settled_conf _ _ _ _ _ _ S1). destruct S1 as (c1 & -> & Lc1 & _ & Ec1). cbn [it_next back snd] in E.
  rewrite (bdry_Ok n) in E by auto. cbn [bind] in E. fold (fF s (neg (snd x))) in E. destruct (Nat.eqb_spec (fF s (neg (snd x))) (neg (snd x))) as [B|Nb].
  { eexists _, [], b0. split; [apply (steps_skip _ _ _ _ E); constructor|]. split; [apply (move_back x Hx); exact C1|]. split; auto. apply lists_nil. auto. }
  destruct (Inner O Nb) as (Icw & Iccw & Ico). clear Inner Out Bd.
  destruct (conf_settle _ _ _ _ _ _ (move_right x Hx Nb _ _ _ _ _ C1)) as (m2 & E2 & S2). change (snd (back x)) with (neg (snd x)) in E2. rewrite E2 in E. cbn [bind] in E. clear E1 E2 C1.
  assert (C2 := settled_conf _ _ _ _ _ _ S2).
  assert (Ew : padd (fst (child s false x)) (vv s (snd (child s false x))) = w) by reflexivity.
  assert (Eq : padd (fst (child s true x)) (vv s (snd (child s true x))) = padd (fst x) (vv s (snd x))) by (apply (end_b x Hx Nb)).
  destruct (classify_Ok x m2 b0 b1 st tmp S2 G0 G1) as [[Ec D]|[[Ec D]|[Ec D]]]; rewrite Ec in E; cbn [bind] in E; fold w in D.
  - (* clockwise *)
    destruct S2 as (c & -> & Lc & _ & Dc). cbn [push_state push_move set_position set_state it_end] in E. destruct (zc_vector_Ok n s S0 c Lc) as (u & Eu & Du). rewrite Eu, Rad in E. cbn [bind] in E.
    match type of E with _ = Ok (false, push_start ?a ?b ?d) => set (m3 := a) in E; set (o := b) in E end.
    assert (C3 : conf (push_start m3 o (ends_of (START f' e'))) b0 b1 (child s true x) (START o e' :: OUTSIDE_CW :: st) tmp).
    { apply conf_state. apply (conf_state _ _ _ _ _ _ OUTSIDE_CW). apply (move_left x Hx Nb). exact C2. }
    destruct (Icw D _ _ _ _ _ C3) as (m4 & l & b0' & A1 & A2 & A3 & A4).
    { destruct Lb' as [B1 B2]. split; [|intros Q; rewrite Eq; auto]. intros Q. unfold o in Q. destruct (vltb u r) eqn:V; [|discriminate]. apply vltb_spec in V; auto. rewrite Du, Dc, Ew in V.
      unfold inner. cbn [child fst]. fold (apex x). fold w. lra. }
    destruct (conf_pop _ _ _ _ _ _ _ A2) as [Ep Cp]; [discriminate|].
    exists (push_move (push_move (set_state m4 st) GOTO_NEXT_EDGE) GOTO_OTHER_FACE), l, b0'. split; [|split; [|split; auto]].
    + apply (steps_skip _ _ _ _ E). rewrite <- (app_nil_r l). apply (steps_app _ _ _ _ _ A1). eapply steps_skip; [unfold step; rewrite Ep; reflexivity|]. constructor.
    + apply (move_back x Hx). now apply (move_last x Hx Nb).
  - (* counterclockwise *)
    destruct D as [D D']. assert (C3 := conf_state _ _ _ _ _ _ (START (starts_of (START f' e')) None) (conf_state _ _ _ _ _ _ OUTSIDE_CCW C2)).
    destruct (Iccw D D' _ _ _ _ _ C3) as (m4 & l & b0' & A1 & A2 & A3 & A4).
    { destruct Lb' as [B1 B2]. split; [exact B1|discriminate]. }
    destruct (conf_pop _ _ _ _ _ _ _ A2) as [Ep Cp]; [discriminate|].
    exists (push_move (push_move (push_move (set_state m4 st) GOTO_NEXT_EDGE) GOTO_NEXT_EDGE) GOTO_OTHER_FACE), l, b0'. split; [|split; [|split; auto]].
    + apply (steps_skip _ _ _ _ E). rewrite <- (app_nil_r l). apply (steps_app _ _ _ _ _ A1). eapply steps_skip; [unfold step; rewrite Ep; reflexivity|]. constructor.
    + apply (move_back x Hx). apply (move_last x Hx Nb). now apply (move_left x Hx Nb).
  - (* found *)
    destruct (Ico D) as (D1 & P1 & P2 & Bl & EP & Dw & Dj). clear Ico Icw Iccw.
    destruct S2 as (c & -> & Lc & _ & Dc). cbn [it_end] in E. destruct (zc_vector_Ok n s S0 c Lc) as (u & Eu & Du). rewrite Eu, Rad in E. cbn [bind] in E. rewrite Dc, Ew in Du.
    assert (Rc : reaches c) by (split; auto; rewrite Dc; exact Ew). destruct (Bl c Rc) as [B1 B2].
    set (beyond := vgtb u r) in E. set (b0n := if is_chain b0 then b0 else if Req_EM_T (pdet (bdir b0) w) 0 then BChain c else b0) in *.
    cbn [push_state push_start set_state it_b0 it_b1 it_end it_tmp it_state it_sectors it_next it_moves set_bounds starts_of ends_of] in E.
    assert (Q1 : match b1 with BChain _ => BChain c | BVector v => if negb (ccw_eqb (ccw v u) COUNTERCLOCKWISE) then BChain c else BVector v end = BChain c).
    { destruct b1 as [c'|v]; auto. pose proof (ccw_cases v u) as Cv. rewrite Du in Cv. cbn [bdir] in D1. destruct (ccw v u); cbn; auto. lra. }
    assert (Q0 : match b0 with BVector v => if ccw_eqb (ccw v u) COLLINEAR then BChain c else BVector v | BChain c => BChain c end = b0n).
    { unfold b0n. destruct b0 as [c'|v]; auto. cbn [is_chain bdir]. pose proof (ccw_cases v u) as Cv. rewrite Du in Cv. destruct (Req_EM_T (pdet (vden v) w) 0), (ccw v u); cbn; auto; lra. }
    assert (E' : step m = Ok (if beyond then (false, mkIter (x0 :: rest) b0n (BChain c) (snd (child s false x)) c (START f' (Some beyond) :: SEARCHING_FIRST :: START (Some beyond) e' :: SEARCHING_SECOND :: st) [] (b1 :: tmp))
      else (vgtb u (cn_lower cs), mkIter (x0 :: rest) b0n (BChain c) (snd (child s false x)) c (FOUND :: START f' (Some beyond) :: SEARCHING_FIRST :: START (Some beyond) e' :: SEARCHING_SECOND :: st) [] (b1 :: tmp)))).
    { rewrite E. unfold push_start, push_state, set_state, set_bounds. cbn [it_b0 it_b1 it_end it_tmp it_state it_sectors it_next it_moves]. rewrite Q1, Q0. destruct beyond; reflexivity. }
    clear E Q1 Q0. set (st3 := START f' (Some beyond) :: SEARCHING_FIRST :: START (Some beyond) e' :: SEARCHING_SECOND :: st) in *.
    assert (C3 : forall st, conf (mkIter (x0 :: rest) b0n (BChain c) (snd (child s false x)) c st [] (b1 :: tmp)) b0n (BChain c) (child s false x) st (b1 :: tmp)).
    { intros st'. apply settled_conf. exists c. repeat split; auto. apply (lt_a x Hx). }
    assert (Gn : b0n = b0 \/ (is_chain b0n = true /\ bgood b0n)).
    { unfold b0n. destruct (is_chain b0); auto. destruct (Req_EM_T (pdet (bdir b0) w) 0); auto. }
    assert (Lw : beyond = false -> inner w). { intros Q. unfold beyond in Q. unfold inner. destruct (Rle_lt_dec (pdot w w) (IZR r)); auto. exfalso. assert (vgtb u r = true); [|congruence]. apply vgtb_spec; auto. now rewrite Du. }
    assert (Wi : within w <-> beyond = false /\ vgtb u (cn_lower cs) = true).
    { unfold within. rewrite vgtb_spec, Du by auto. split; [|intros [Q1 Q2]; split; auto; now apply Lw]. intros [Q1 Q2]. split; auto. destruct beyond eqn:Qb; auto. unfold beyond in Qb. apply vgtb_spec in Qb; auto. rewrite Du in Qb. lra. }
    (* the connection itself *)
    assert (H1 : exists l1, steps m l1 (mkIter (x0 :: rest) b0n (BChain c) (snd (child s false x)) c st3 [] (b1 :: tmp)) /\ lists l1 (fun v g => (v = w /\ g = fF s (fF s (neg (snd x)))) /\ within w)).
    { destruct beyond eqn:Qb.
      - exists []. split; [apply (steps_skip _ _ _ _ E'); constructor|]. apply lists_nil. intros v g [_ Q]. apply Wi in Q. destruct Q; discriminate.
      - pose proof (C3 (FOUND :: st3)) as C4. destruct (conf_pop _ _ _ _ _ _ _ C4) as [Ep Cp]; [discriminate|].
        assert (Es : step (mkIter (x0 :: rest) b0n (BChain c) (snd (child s false x)) c (FOUND :: st3) [] (b1 :: tmp)) = Ok (false, mkIter (x0 :: rest) b0n (BChain c) (snd (child s false x)) c st3 [] (b1 :: tmp))) by (unfold step; rewrite Ep; reflexivity).
        destruct (vgtb u (cn_lower cs)) eqn:Ql.
        + set (y := mkSconn s (sec_source x0) (fF s (fF s (neg (snd x)))) c). exists [y]. split.
          * apply (steps_emit _ _ y _ _ E'); [|apply (steps_skip _ _ _ _ Es); constructor]. unfold sdereference. cbn [it_sectors it_state it_next it_end].
            assert (Ha : (neg (fF s (neg (snd x))) < n)%nat) by (apply (neg_ltn n (fT s) W); apply (lt_a x Hx)).
            change (snd (child s false x)) with (fF s (neg (snd x))). rewrite (prevV_Ok n) by auto. cbn [bind].
            assert (Lk : nV (fT s) (fF s (fF s (neg (snd x)))) = neg (fF s (neg (snd x)))).
            { rewrite (nV_link' n _ W) by (first [apply (lt_b x Hx)|apply (nb_b x Hx Nb)]). f_equal. fold (fF s (fF s (fF s (neg (snd x))))). rewrite (fF3 n) by auto. reflexivity. }
            rewrite <- Lk, (pV_nV n _ W) by apply (lt_b x Hx). reflexivity.
          * apply (lists_ext _ (fun v g => v = sv n y /\ g = sc_target y)); [apply lists_one; auto|]. intros v g. assert (Sy : sv n y = w) by (apply Rc). rewrite Sy. cbn [sc_target y]. split; [|tauto]. intros Q. split; auto. now apply Wi.
        + exists []. split; [apply (steps_skip _ _ _ _ E'); apply (steps_skip _ _ _ _ Es); constructor|]. apply lists_nil. intros v g [_ Q]. apply Wi in Q. destruct Q; discriminate. }
    destruct H1 as (l1 & R1 & T1). clear E'.
    (* the clockwise part *)
    destruct (B1 _ _ _ _ _ (C3 st3)) as (m4 & l2 & b0' & R2 & C4 & Gb & T2).
    { destruct Lb' as [La Le]. split; [exact La|]. intros Q. rewrite Ew. apply Lw. congruence. }
    destruct (conf_pop _ _ _ _ _ _ _ C4) as [Ep Cp]; [discriminate|].
    destruct (conf_settle _ _ _ _ _ _ Cp) as (m5 & E5 & S5). assert (C5 := settled_conf _ _ _ _ _ _ S5). destruct S5 as (c5 & -> & Lc5 & _ & Dc5).
    destruct (zc_vector_Ok n s S0 c5 Lc5) as (u5 & Eu5 & Du5). rewrite Dc5, Ew in Du5.
    assert (E6 : step m4 = Ok (false, push_move (set_bounds (mkIter (x0 :: rest) b0' (BChain c) (snd (child s false x)) c5 (START (Some beyond) e' :: SEARCHING_SECOND :: st) [] (b1 :: tmp)) (BChain c5) b1 (b0' :: tmp)) GOTO_NEXT_EDGE)).
    { unfold step. rewrite Ep. cbn [bind increment_at]. assert (Et : it_tmp (set_state m4 (START (Some beyond) e' :: SEARCHING_SECOND :: st)) = b1 :: tmp) by apply Cp. rewrite Et, E5. cbn [bind it_end it_b0]. rewrite Eu5. cbn [bind].
      assert (Q : match b0' with BChain _ => BChain c5 | BVector v => if negb (ccw_eqb (ccw v u5) CLOCKWISE) then BChain c5 else BVector v end = BChain c5).
      { destruct b0' as [|v]; auto. pose proof (ccw_cases v u5) as Cv. rewrite Du5 in Cv. destruct (ccw v u5); cbn; auto. exfalso.
        assert (Eb : BVector v = b0). { destruct Gb as [Gb|[Gb _]]; [|discriminate]. destruct Gn as [Gn|[Gn _]]; [congruence|]. rewrite <- Gb in Gn. discriminate. }
        rewrite <- Eb in D. cbn [bdir] in D. destruct D as [[D _]|[D _]]; lra. }
      rewrite Q. reflexivity. }
    assert (C6 : conf (push_move (set_bounds (mkIter (x0 :: rest) b0' (BChain c) (snd (child s false x)) c5 (START (Some beyond) e' :: SEARCHING_SECOND :: st) [] (b1 :: tmp)) (BChain c5) b1 (b0' :: tmp)) GOTO_NEXT_EDGE)
      (BChain c5) b1 (child s true x) (START (Some beyond) e' :: SEARCHING_SECOND :: st) (b0' :: tmp)).
    { apply (move_left x Hx Nb). apply (conf_bounds _ b0' (BChain c) _ _ (b1 :: tmp)). exact C5. }
    (* the counterclockwise part *)
    destruct (proj2 (Bl c5 (conj Lc5 (eq_trans Dc5 Ew))) _ _ _ _ _ C6) as (m7 & l3 & b0'' & R3 & C7 & _ & T3).
    { destruct Lb' as [La Le]. split; [intros Q; apply Lw; congruence|]. intros Q. rewrite Eq. apply Le. exact Q. }
    destruct (conf_pop _ _ _ _ _ _ _ C7) as [Ep7 Cp7]; [discriminate|].
    assert (E8 : step m7 = Ok (false, push_move (push_move (set_bounds (set_state m7 st) b0' b1 tmp) GOTO_NEXT_EDGE) GOTO_OTHER_FACE)).
    { unfold step. rewrite Ep7. cbn [bind increment_at]. assert (Et : it_tmp (set_state m7 st) = b0' :: tmp) by apply Cp7. assert (Eb : it_b1 (set_state m7 st) = b1) by apply Cp7. rewrite Et, Eb. reflexivity. }
    exists (push_move (push_move (set_bounds (set_state m7 st) b0' b1 tmp) GOTO_NEXT_EDGE) GOTO_OTHER_FACE), (l1 ++ (l2 ++ l3)), b0'. split; [|split; [|split]].
    + apply (steps_app _ _ _ _ _ R1). apply (steps_app _ _ _ _ _ R2). apply (steps_skip _ _ _ _ E6). rewrite <- (app_nil_r l3). apply (steps_app _ _ _ _ _ R3). apply (steps_skip _ _ _ _ E8). constructor.
    + apply (move_back x Hx). apply (move_last x Hx Nb). apply (conf_bounds _ _ _ _ _ _ _ _ _ Cp7).
    + destruct Gb as [->|Gb]; auto.
    + apply (lists_ext _ (fun v g => ((v = w /\ g = fF s (fF s (neg (snd x)))) /\ within w) \/ (P1 v g \/ P2 v g))); [|intros v g; now rewrite EP].
      apply lists_app; auto; [apply lists_app; auto|]. intros v g g' [[-> _] _] [Q|Q]; now apply Dw in Q.
Qed.
End blocks.
End run.
