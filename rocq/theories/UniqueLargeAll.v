(** * Unique large edges in all components *)
From Coq Require Import ZArith Reals List Arith Bool Lia Lra Psatz.
From Verif Require Import Base HalfEdge HalfEdgeFacts Perm PermSpec PermFacts Combinatorial CombinatorialSpec CombinatorialFacts CombinatorialHistory ExactReal Vector PlaneSpec Plane VectorFacts
  CombinatorialOps FlatTri FlatSpec ChainSpec FlatFacts FlatSum FlatOps FlatAngle DeformSpec Tracked Vertical VerticalSpec VerticalFacts VerticalComponents Lengths IntervalExchange IntervalExchangeSpec
  IntervalExchangeFacts IntervalExchangeFlow IntervalExchangeLarge IntervalExchangeMade IntervalExchangeProps UniqueLarge UniqueLargeSpec UniqueLargeFlip UniqueLargeFlow UniqueLargeFacts.
Import ListNotations.
Local Open Scope nat_scope.

(** ** Surfaces that agree on a component *)
Section agree.
Context {K : ExactReal}.
Variables (n : nat) (s s' : flat K) (v : pt) (h : nat).
Hypothesis CS : closed_flat n s.
Hypothesis CS' : closed_flat n s'.
Hypothesis A : forall x, joined n s v h x -> vv s' x = vv s x /\ fF s' x = fF s x.
Notation r := (rightwards s v).
Notation r' := (rightwards s' v).
Notation J := (joined n s v h).
Lemma agree_r x : J x -> r' x = r x. Proof. intros Q. unfold rightwards. now rewrite (proj1 (A x Q)). Qed.
Lemma agree_F x : J x -> fF s' x = fF s x. Proof. intros Q. apply (A x Q). Qed.
Lemma J_lt x : J x -> x < n. Proof. intros Q. apply (joined_lt n s v CS _ _ Q). Qed.
Lemma J_F x : J x -> J (fF s x). Proof. intros Q. apply jo_trans with x; auto. apply jo_face. now apply J_lt. Qed.
Lemma J_neg x : J x -> r x <> 0%R -> J (neg x). Proof. intros Q N. apply jo_trans with x; auto. apply jo_across; auto. now apply J_lt. Qed.
Lemma agree_to x y : joined n s v x y -> J x -> joined n s' v x y.
Proof.
  intros Q. induction Q as [x Hx|x Hx|x Hx N|x y Q IH|x y z Q1 IH1 Q2 IH2]; intros Jx.
  - now apply jo_same. - rewrite <- (agree_F x Jx). now apply jo_face. - apply jo_across; auto. now rewrite agree_r.
  - apply jo_sym, IH. apply jo_trans with y; auto. now apply jo_sym.
  - apply jo_trans with y; auto. apply IH2. now apply jo_trans with x.
Qed.
Lemma agree_from x y : joined n s' v x y -> (J x <-> J y).
Proof.
  intros Q. induction Q as [x Hx|x Hx|x Hx N|x y Q IH|x y z Q1 IH1 Q2 IH2]; try tauto.
  - split; intros Jx; [rewrite (agree_F x Jx); now apply J_F|]. rewrite <- (F3 n s' CS' x Hx). assert (J1 := J_F _ Jx). rewrite (agree_F _ Jx). rewrite (agree_F _ J1). now apply J_F.
  - split; intros Jx; [apply J_neg; auto; now rewrite <- agree_r|]. rewrite <- (neg_neg x). apply J_neg; auto. rewrite <- agree_r, (R_neg n s' v CS') by auto. lra.
Qed.
Lemma agree_joined x : h < n -> joined n s' v h x <-> J x.
Proof. intros Hh. split; intros Q; [apply (agree_from h x Q); now apply jo_same|]. apply agree_to; auto. now apply jo_same. Qed.
Lemma agree_wide x : J x -> r x <> 0%R -> (wide s' v x <-> wide s v x).
Proof.
  intros Jx N. assert (Jn := J_neg x Jx N). assert (J1 := J_F _ Jx). assert (J2 := J_F _ J1). assert (J3 := J_F _ Jn). assert (J4 := J_F _ J3). unfold wide.
  rewrite (agree_F x), (agree_F (neg x)), (agree_F (fF s x)), (agree_F (fF s (neg x))), (agree_r x) by auto.
  split; intros W y Y; specialize (W y Y); cbn [In] in Y; destruct Y as [<-|[<-|[<-|[<-|[]]]]]; rewrite agree_r in * by auto; auto.
Qed.
Lemma agree_unique : h < n -> unique_large n s v h -> unique_large n s' v h.
Proof.
  intros Hh (W & N & U). split; [|split].
  - apply agree_wide; auto; [now apply jo_same|]. apply N. now apply jo_same.
  - intros x Q. apply agree_joined in Q; auto. rewrite agree_r; auto.
  - intros x Q Wx. apply agree_joined in Q; auto. apply U; auto. apply agree_wide; auto.
Qed.
Lemma agree_contour a l : contour s v a l -> (forall x, J x -> r x <> 0%R) -> J a -> contour s' v a l.
Proof.
  intros C N. induction C as [a Q|a l1 l2 B C1 IH1 C2 IH2]; intros Ja.
  - apply contour_leaf. unfold front in *. assert (J1 := J_F a Ja). assert (J2 := J_F _ J1). rewrite (agree_F a), (agree_F (fF s a)), !agree_r by auto. auto.
  - assert (J1 := J_F a Ja). assert (J2 := J_F _ J1). apply contour_node.
    + unfold back in *. rewrite (agree_F a), (agree_F (fF s a)), !agree_r by auto. auto.
    + replace (lchild s' a) with (lchild s a) by (unfold lchild; now rewrite (agree_F a), (agree_F (fF s a))). apply IH1. apply J_neg; auto.
    + replace (rchild s' a) with (rchild s a) by (unfold rchild; now rewrite (agree_F a)). apply IH2. apply J_neg; auto.
Qed.
End agree.

Section loops.
Context {K : ExactReal}.
Variables (n : nat) (v : vec K) (visits : nat).
Hypothesis Nv : vden v <> (0, 0)%R.
Hypothesis Hk : n < visits.
Implicit Types s : flat K.
Notation w := (vden v).

Definition labels (l : list nat) : list nat := map (fun e => edge_index (edge_of e)) l.
(** The half edge has been dealt with. *)
Definition done s x := x < n /\ (0 < rightwards s w x)%R /\ unique_large n s w x /\
  exists top L, contour s w x top /\ contour s (pneg w) (neg x) L /\ ends_differ (labels top) (labels (map neg (rev L))).

Lemma made_labels s top bottom t : make_iet s v top bottom = Ok t -> ie_top t = labels top /\ ie_bottom t = labels bottom.
Proof.
  unfold make_iet. intros E. destruct (contour_lengths _ _ _); try discriminate. cbn [bind] in E. destruct (make_vertical s v); try discriminate. cbn [bind] in E. destruct (make_lengths _ _); try discriminate. cbn [bind] in E.
  destruct (negb _); try discriminate. destruct (connected_contour _ top); try discriminate. cbn [bind] in E. destruct (negb _); try discriminate. destruct (connected_contour _ bottom); try discriminate. cbn [bind] in E. destruct (negb _); try discriminate.
  injection E as <-. auto.
Qed.
Lemma done_iet s x fuel : closed_flat n s -> n < fuel -> done s x -> exists t, iet_from_large fuel s v x = Ok t /\ ends_differ (ie_top t) (ie_bottom t).
Proof.
  intros CS Lf (Hx & P & U & top & L & C & D & E). destruct (C67_constructor K n s v x fuel CS Hx Lf) as [Y _]. destruct Y as (t & Et); [auto|]. exists t. split; auto.
  destruct (iet_parts n s v x fuel t CS Hx Lf Et) as (_ & _ & _ & top' & L' & _ & C' & D' & M). apply made_labels in M as [-> ->].
  rewrite (contour_fun s w x top C top' C'), (contour_fun s (pneg w) (neg x) L D L' D'). exact E.
Qed.
Lemma iet_done s x fuel t : closed_flat n s -> x < n -> n < fuel -> iet_from_large fuel s v x = Ok t -> ends_differ (ie_top t) (ie_bottom t) -> done s x.
Proof.
  intros CS Hx Lf Et E. destruct (iet_parts n s v x fuel t CS Hx Lf Et) as (_ & U & P & top & L & _ & C & D & M). apply made_labels in M as [E1 E2]. rewrite E1, E2 in E. split; auto. split; auto. split; auto. exists top, L. auto.
Qed.
Lemma done_agree s s' x : closed_flat n s -> closed_flat n s' -> (forall y, joined n s w x y -> vv s' y = vv s y /\ fF s' y = fF s y) -> done s x -> done s' x.
Proof.
  intros CS CS' A (Hx & P & U & top & L & C & D & E). assert (Jx : joined n s w x x) by now apply jo_same. assert (N := proj1 (proj2 U)). split; auto. split; [now rewrite (agree_r n s s' w x A)|]. split; [now apply (agree_unique n s s' w x CS CS')|].
  exists top, L. split; [apply (agree_contour n s s' w x CS A x top C N Jx)|]. split; auto.
  assert (DJ : forall y, joined n s (pneg w) x y <-> joined n s w x y) by (intros y; symmetry; apply down_joined).
  apply (agree_contour n s s' (pneg w) x CS).
  - intros y Jy. apply A. now apply DJ.
  - auto.
  - intros y Jy. rewrite down_r. assert (Q := N y (proj1 (DJ y) Jy)). lra.
  - apply jo_trans with x; [now apply jo_same|]. apply jo_across; auto. rewrite down_r. assert (Q := N x Jx). lra.
Qed.

(** Another component is not affected. *)
Lemma done_outside s s' u x : closed_flat n s -> closed_flat n s' -> outside n v u s s' -> u < n -> wide s w u -> u <> x -> u <> neg x -> done s x -> done s' x.
Proof.
  intros CS CS' O Hu Wu N1 N2 D. apply (done_agree s s' x); auto. destruct D as (Hx & P & (Wx & N & U) & _).
  assert (NJ : forall y, joined n s w x y -> ~ joined n s w u y).
  { intros y Jy J. assert (Ju : joined n s w x u) by (apply jo_trans with y; auto; now apply jo_sym). destruct (U u Ju Wu) as [Q|Q]; auto. }
  intros y Jy. destruct (O y (proj2 (joined_lt n s w CS _ _ Jy)) (NJ y Jy)) as (Q1 & Q2 & _). auto.
Qed.
Lemma flip_outside s s' u e : closed_flat n s -> joined n s w u e -> wide s w e -> fflip s e = (s', Ok tt) -> closed_flat n s' /\ outside n v u s s'.
Proof.
  intros CS J We E. assert (He := proj2 (joined_lt n s _ CS _ _ J)). destruct (flip_quad n s s' w CS e He E) as (a & b & c & d & Q). assert (R0 := wide_nonzero n s v CS e Nv He We). split.
  - apply (flip_closed n s s' w CS e a b c d Q). now destruct (fflip_spec n s e s' (proj1 CS) He E) as (_ & S' & _).
  - intros x Hx NJ. assert (I : ~ In x [e; a; b; neg e; c; d]).
    { intros I. apply NJ. apply jo_trans with e; auto. apply (joined_six n s s' w e a b c d Q); auto. now left. }
    split; [apply (qr _ _ _ _ _ _ _ _ _ Q); auto; intros ->; apply I; cbn; tauto|]. split; [now apply (qo _ _ _ _ _ _ _ _ _ Q)|]. intros J'. apply NJ. now apply (joined_before n s s' w e a b c d Q).
Qed.

(** ** The candidates *)
Lemma larges_ok s sources : closed_flat n s -> forall l m, valid n s v m -> (forall h, In h l -> h < n) -> exists c m', larges m sources l = Ok (c, m') /\ valid n s v m' /\
  forall h, In h c <-> In h l /\ ~ In (edge_of h) sources /\ wide s w h /\ (0 < rightwards s w h)%R.
Proof.
  intros CS. induction l as [|h l IH]; intros m I Hl; cbn [larges]; [exists [], m; split; auto; split; auto; cbn; tauto|]. assert (Hh := Hl h (or_introl eq_refl)). assert (Hl' : forall x, In x l -> x < n) by (intros; apply Hl; now right).
  destruct (mem_list (edge_of h) sources) eqn:M.
  { apply mem_list_In in M. destruct (IH m I Hl') as (c & m' & -> & I' & B). exists c, m'. split; auto. split; auto. intros x. rewrite B. split; [intuition auto with datatypes|]. intros ([<-|X] & Q); tauto. }
  apply mem_list_out in M. destruct (large_ok n s v m h I Hh) as (b & m1 & -> & B1 & I1). cbn [bind]. destruct b; cbn [negb].
  2: { destruct (IH m1 I1 Hl') as (c & m' & -> & I' & B). exists c, m'. split; auto. split; auto. intros x. rewrite B. split; [intuition auto with datatypes|]. intros ([<-|X] & Q0 & Q & Q1); [apply B1 in Q; discriminate|]. tauto. }
  assert (Wh := proj1 B1 eq_refl). assert (R0 := wide_nonzero n s v CS h Nv Hh Wh). destruct (ccw_ok n s v m1 I1 h Hh) as (c & m2 & -> & Cc & I2). cbn [bind].
  assert (Cr : ccw_eqb c COUNTERCLOCKWISE = true <-> (rightwards s w h < 0)%R).
  { rewrite ccw_eqb_spec. unfold ccw_at in Cc. unfold rightwards. assert (E : pdet (vv s h) w = (- pdet w (vv s h))%R) by (unfold pdet; ring). rewrite E. destruct c; split; intros Q; try discriminate; auto; try lra. }
  destruct (ccw_eqb c COUNTERCLOCKWISE) eqn:Ec.
  { assert (Z := proj1 Cr eq_refl). destruct (IH m2 I2 Hl') as (c' & m' & -> & I' & B). exists c', m'. split; auto. split; auto. intros x. rewrite B. split; [intuition auto with datatypes|]. intros ([<-|X] & Q0 & Q1 & Q); [lra|]. tauto. }
  assert (P : (0 < rightwards s w h)%R). { destruct (Rlt_dec (rightwards s w h) 0) as [Q|Q]; [apply Cr in Q; discriminate|lra]. }
  destruct (IH m2 I2 Hl') as (c' & m' & -> & I' & B). cbn [bind]. exists (h :: c'), m'. split; auto. split; auto. intros x. cbn [In]. rewrite B. intuition (subst; auto).
Qed.
Lemma absolutes_ok s : forall l m, valid n s v m -> (forall h, In h l -> h < n) -> exists a m', absolutes m l = Ok (a, m') /\ valid n s v m' /\ map fst a = l /\
  forall h x, In (h, x) a -> den x = Rabs (rightwards s w h).
Proof.
  induction l as [|h l IH]; intros m I Hl; cbn [absolutes]; [exists [], m; split; auto; split; auto; split; auto; intros ? ? []|].
  destruct (perpendicular_ok n s v m I h (Hl h (or_introl eq_refl))) as (x & m1 & -> & Ex & I1). cbn [bind]. destruct (IH m1 I1) as (a & m' & -> & I' & M & B); [intros; apply Hl; now right|]. cbn [bind].
  eexists _, m'. split; [reflexivity|]. split; auto. cbn [map fst]. split; [congruence|]. intros y z [E|Q]; [|now apply B]. injection E as <- <-. destruct (rltb x (rofZ 0)) eqn:L.
  - apply rltb_spec in L. rewrite den_ofZ in L. rewrite den_opp, <- Ex, Rabs_left; auto.
  - rewrite <- Ex, Rabs_pos_eq; auto. destruct (Rlt_dec (den x) 0) as [Q|Q]; [|lra]. assert (rltb x (rofZ 0) = true) by (apply rltb_spec; rewrite den_ofZ; auto). congruence.
Qed.
Lemma longest_in (a : list (nat * K)) h : In h (longest_of a) -> In h (map fst a).
Proof. unfold longest_of. intros Q. apply in_map_iff in Q as (p & <- & Q). apply filter_In in Q as [Q _]. now apply in_map. Qed.
Lemma longest_max (a : list (nat * K)) h : In h (longest_of a) -> exists x, In (h, x) a /\ forall g y, In (g, y) a -> (den y <= den x)%R.
Proof.
  unfold longest_of. intros Q. apply in_map_iff in Q as ((g & x) & <- & Q). apply filter_In in Q as [Q1 Q2]. exists x. split; auto. intros g' y Y. rewrite forallb_forall in Q2. specialize (Q2 _ Y). cbn [snd] in Q2.
  destruct (rltb x y) eqn:L; [discriminate|]. destruct (Rle_dec (den y) (den x)) as [|N]; auto. assert (rltb x y = true) by (apply rltb_spec; lra). congruence.
Qed.
Lemma max_exists (a : list (nat * K)) : a <> [] -> exists p, In p a /\ forall q, In q a -> (den (snd q) <= den (snd p))%R.
Proof.
  induction a as [|p a IH]; intros N; [congruence|]. destruct a as [|q a]; [exists p; split; [now left|]; intros q [<-|[]]; lra|].
  destruct IH as (z & Z1 & Z2); [discriminate|]. destruct (Rle_dec (den (snd p)) (den (snd z))) as [L|L].
  - exists z. split; [now right|]. intros y [<-|Y]; auto.
  - exists p. split; [now left|]. intros y [<-|Y]; [lra|]. specialize (Z2 y Y). lra.
Qed.
Lemma longest_nonempty (a : list (nat * K)) : a <> [] -> longest_of a <> [].
Proof.
  intros N E. destruct (max_exists a N) as (p & P1 & P2). assert (Q : In (fst p) (longest_of a)).
  { apply in_map, filter_In. split; auto. apply forallb_forall. intros q Iq. destruct (rltb (snd p) (snd q)) eqn:L; auto. apply rltb_spec in L. specialize (P2 q Iq). lra. }
  rewrite E in Q. destruct Q.
Qed.
Lemma vertical_flips_ok : forall l s s' m, flat_surface n s -> valid n s v m -> (forall e, In e l -> e < n) -> fflips s l = (s', Ok tt) -> exists m', vertical_flips m l = Ok m' /\ valid n s' v m'.
Proof.
  induction l as [|e l IH]; intros s s' m S0 I Hl E; cbn [fflips vertical_flips] in *; [injection E as <-; eauto|]. assert (He := Hl e (or_introl eq_refl)).
  destruct (fflip s e) as [s1 o] eqn:Ef. destruct o as [[]| | |]; try discriminate. destruct (fflip_spec n s e s1 S0 He Ef) as (CF & S1 & _). destruct (flip_ok n s v m e I He) as [Y _].
  destruct (Y CF) as (s2 & m1 & E2 & -> & I1). assert (s2 = s1) by congruence. subst s2. cbn [bind]. apply (IH s1); auto. intros; apply Hl; now right.
Qed.
Lemma fflips_app : forall l l' s s', fflips s l = (s', Ok tt) -> fflips s (l ++ l') = fflips s' l'.
Proof. induction l as [|e l IH]; intros l' s s' E; cbn [fflips app] in *; [now injection E as <-|]. destruct (fflip s e) as [s1 o]. destruct o as [[]| | |]; try discriminate. now apply IH. Qed.
Lemma edge_same x y : edge_of x = edge_of y -> y = x \/ y = neg x.
Proof. intros E. assert (Q : y / 2 = x / 2) by (rewrite <- !index_of; now rewrite E). now apply index_eq in Q. Qed.
Lemma edge_of_neg x : edge_of (neg x) = edge_of x.
Proof. unfold edge_of. rewrite neg_neg. unfold he_index. destruct (x <? neg x) eqn:A, (neg x <? x) eqn:B; auto; [apply Nat.ltb_lt in A, B; lia|]. apply Nat.ltb_ge in A, B. lia. Qed.

(** ** One edge *)
Lemma unique_result s u fuel t : closed_flat n s -> u < n -> wide s w u -> make_unique_large_edge fuel visits s v u = Ok t ->
  to_the_right s w u (un_edge t) /\ fflips s (un_flips t) = (un_surface t, Ok tt) /\ (forall e, In e (un_flips t) -> e < n) /\ closed_flat n (un_surface t) /\
  vv (un_surface t) (un_edge t) = vv s (un_edge t) /\ outside n v u s (un_surface t) /\ only_wide n (un_surface t) w (un_edge t) /\ NoDup (un_component t) /\
  (forall x, In x (un_component t) <-> joined n (un_surface t) w (un_edge t) x).
Proof.
  intros CS Hu Wu E. unfold make_unique_large_edge in E. assert (R0 := wide_nonzero n s v CS u Nv Hu Wu). assert (Hn := N_lt n s CS u Hu).
  destruct (make_valid n s v (proj1 CS) Nv) as (m & Em & I). rewrite Em in E. cbn [bind] in E. destruct (ccw_ok n s v m I u Hu) as (c & m1 & Ec & Cc & I1). rewrite Ec in E. cbn [bind] in E.
  set (u' := if ccw_eqb c COUNTERCLOCKWISE then neg u else u) in *.
  assert (T : to_the_right s w u u').
  { unfold ccw_at in Cc. assert (Q : pdet (vv s u) w = (- pdet w (vv s u))%R) by (unfold pdet; ring). unfold u', to_the_right. unfold rightwards in R0. destruct c; cbn [ccw_eqb] in *; try (exfalso; lra); (split; [auto|]); rewrite ?(R_neg n s w CS) by auto; unfold rightwards; lra. }
  assert (Hu' : u' < n) by (destruct T as [[->| ->] _]; auto). assert (Wu' : wide s w u') by (destruct T as [[->| ->] _]; auto; now apply (wide_neg n s w u (proj1 CS) Hu)).
  destruct (make_unique_loop fuel visits m1 u') as [[[fl C] m2]| | |] eqn:EL; try discriminate. cbn [bind] in E. injection E as <-. cbn [un_surface un_edge un_component un_flips].
  destruct (loop_result n v u' visits Nv Hu' Hk fuel s m1 fl C m2 CS I1 Wu' EL) as (s' & A1 & A0 & A2 & A3 & A4 & A5 & A6 & A7 & A8). rewrite (vd_surface _ _ _ _ A3).
  split; auto. split; auto. split; auto. split; auto. split; auto. split; auto.
  assert (JU : forall x, joined n s w u x <-> joined n s w u' x).
  { destruct T as [[->| ->] _]; [tauto|]. assert (Q : joined n s w u (neg u)) by now apply jo_across. intros x. split; intros Jx; eapply jo_trans; eauto. now apply jo_sym. }
  assert (R1 : rightwards s' w u' <> 0%R) by (unfold rightwards; rewrite A4; apply (wide_nonzero n s v CS u' Nv Hu' Wu')).
  assert (JU' : forall x, joined n s' w u x <-> joined n s' w u' x).
  { destruct T as [[->| ->] _]; [tauto|]. assert (Q : joined n s' w (neg u) u) by (rewrite <- (neg_neg u) at 2; apply jo_across; auto). intros x. split; intros Jx; eapply jo_trans; eauto. now apply jo_sym. }
  intros x Hx NJ. rewrite JU in NJ. rewrite JU'. now apply A5.
Qed.

(** ** All edges *)
Variable tie : list nat -> nat.
Hypothesis Tie : forall l, l <> [] -> In (tie l) l.
Definition sources_done s (sources : list nat) := forall e, In e sources -> exists x, edge_of x = e /\ done s x.
Lemma loops_result flips : forall fuel s m sources m' sources', closed_flat n s -> valid n s v m -> sources_done s sources -> make_unique_loops fuel flips visits tie m sources = Ok (m', sources') ->
  exists s' l, fflips s l = (s', Ok tt) /\ (forall e, In e l -> e < n) /\ closed_flat n s' /\ valid n s' v m' /\ sources_done s' sources' /\ (forall x, x < n -> wide s' w x -> In (edge_of x) sources').
Proof.
  induction fuel as [|fuel IH]; intros s m sources m' sources' CS I SD E; [discriminate|]. cbn [make_unique_loops] in E. rewrite (vd_surface _ _ _ _ I) in E.
  assert (Hs : forall h, In h (half_edges (fT s)) -> h < n) by (intros h Q; unfold half_edges in Q; apply in_seq in Q; rewrite (wf_size _ _ (fs_wf n s (proj1 CS))) in Q; lia).
  destruct (larges_ok s sources CS _ m I Hs) as (c & m1 & E1 & I1 & B). rewrite E1 in E. cbn [bind] in E.
  destruct (absolutes_ok s c m1 I1) as (a & m2 & E2 & I2 & Ma & _); [intros h Q; apply Hs; now apply B in Q|]. rewrite E2 in E. cbn [bind] in E. destruct c as [|c0 c].
  - injection E as <- <-. exists s, []. split; auto. split; [intros e []|]. split; auto. split; auto. split; auto. intros x Hx Wx. assert (R0 := wide_nonzero n s v CS x Nv Hx Wx).
    destruct (in_dec Nat.eq_dec (edge_of x) sources) as [|N]; auto. exfalso. assert (Hh : forall y, y < n -> In y (half_edges (fT s))) by (intros y Hy; unfold half_edges; apply in_seq; rewrite (wf_size _ _ (fs_wf n s (proj1 CS))); lia).
    destruct (Rlt_dec 0 (rightwards s w x)) as [P|P].
    + apply (proj2 (B x)). auto.
    + apply (proj2 (B (neg x))). assert (Hn := N_lt n s CS x Hx). split; auto. split; [now rewrite edge_of_neg|]. split; [now apply (wide_neg n s w x (proj1 CS) Hx)|]. rewrite (R_neg n s w CS) by auto. lra.
  - assert (Na : a <> []) by (intros ->; discriminate). set (u := tie (longest_of a)) in *. assert (Iu : In u (c0 :: c)) by (rewrite <- Ma; apply longest_in, Tie; now apply longest_nonempty).
    apply B in Iu as (Hu & Nu & Wu & Pu). apply Hs in Hu. rewrite (vd_surface _ _ _ _ I2), (vd_vertical _ _ _ _ I2) in E.
    destruct (make_unique_large_edge flips visits s v u) as [t| | |] eqn:Et; try discriminate. cbn [bind] in E.
    destruct (unique_result s u flips t CS Hu Wu Et) as (T & F1 & F2 & CS1 & V1 & O1 & [Wo Uo] & _). set (s1 := un_surface t) in *.
    assert (Tu : un_edge t = u). { destruct T as [[->| ->] T2]; auto. exfalso. rewrite (R_neg n s w CS) in T2 by auto. lra. } rewrite Tu in *.
    destruct (vertical_flips_ok (un_flips t) s s1 m2 (proj1 CS) I2 F2 F1) as (m3 & E3 & I3). rewrite E3 in E. cbn [bind] in E. rewrite (vd_surface _ _ _ _ I3), (vd_vertical _ _ _ _ I3) in E.
    destruct (iet_from_large visits s1 v u) as [ie| | |] eqn:Ei; try discriminate. cbn [bind] in E.
    assert (SD1 : sources_done s1 sources).
    { intros e Q. destruct (SD e Q) as (x & Ex & Dx). exists x. split; auto. apply (done_outside s s1 u x); auto; intros ->; apply Nu; rewrite ?edge_of_neg; now rewrite Ex. }
    destruct (front_of (ie_top ie)) as [x| | |] eqn:F3'; try discriminate. cbn [bind] in E. destruct (front_of (ie_bottom ie)) as [y| | |] eqn:F4; try discriminate. cbn [bind] in E.
    destruct (front_of (rev (ie_top ie))) as [x'| | |] eqn:F5; try discriminate. cbn [bind] in E. destruct (front_of (rev (ie_bottom ie))) as [y'| | |] eqn:F6; try discriminate. cbn [bind] in E.
    assert (FH : forall l z, front_of l = Ok z -> hd_error l = Some z) by (intros [|q l] z Q; [discriminate|injection Q as <-; reflexivity]). apply FH in F3', F4, F5, F6.
    destruct (negb (length (ie_top ie) =? 1) && ((x =? y) || (x' =? y'))) eqn:EB.
    + destruct (vertical_flip m3 u) as [m4| | |] eqn:E4; try discriminate. cbn [bind] in E. destruct (flip_ok n s1 v m3 u I3 Hu) as [Y N]. destruct (can_flip_dec n s1 u (proj1 CS1) Hu) as [CF|CF]; [|rewrite (N CF) in E4; discriminate].
      destruct (Y CF) as (s2 & m4' & Ef & Em & I4). rewrite Em in E4. injection E4 as ->. destruct (flip_outside s1 s2 u u CS1 (jo_same n s1 w u Hu) Wo Ef) as [CS2 O2].
      assert (SD2 : sources_done s2 sources).
      { intros e Q. destruct (SD1 e Q) as (z & Ez & Dz). exists z. split; auto. apply (done_outside s1 s2 u z); auto; intros ->; apply Nu; rewrite ?edge_of_neg; now rewrite Ez. }
      destruct (IH s2 m4 sources m' sources' CS2 I4 SD2 E) as (s' & l & L1 & L2 & L3). exists s', (un_flips t ++ u :: l). split; [rewrite (fflips_app _ _ _ _ F1); cbn [fflips]; now rewrite Ef|].
      split; auto. intros e Q. apply in_app_or in Q as [Q|[<-|Q]]; auto.
    + assert (D : done s1 u).
      { apply (iet_done s1 u visits ie); auto. unfold ends_differ. rewrite F3', F4, F5, F6. destruct (Nat.eqb_spec (length (ie_top ie)) 1) as [|L]; auto. right. cbn [negb andb] in EB. apply orb_false_iff in EB as [B1 B2]. apply Nat.eqb_neq in B1, B2. split; congruence. }
      assert (SD2 : sources_done s1 (edge_of u :: sources)) by (intros e [<-|Q]; [exists u; auto|now apply SD1]).
      destruct (IH s1 m3 _ m' sources' CS1 I3 SD2 E) as (s' & l & L1 & L2 & L3). exists s', (un_flips t ++ l). split; [now rewrite (fflips_app _ _ _ _ F1)|].
      split; auto. intros e Q. apply in_app_or in Q as [Q|Q]; auto.
Qed.

(** Each component contains a wide edge. *)
Lemma wide_exists s x : closed_flat n s -> x < n -> exists h, joined n s w x h /\ wide s w h.
Proof.
  intros CS Hx. assert (Y : exists y, joined n s w x y /\ rightwards s w y <> 0%R).
  { destruct (Req_dec (rightwards s w x) 0) as [Z|N]; [|exists x; split; auto; now apply jo_same]. exists (fF s x). split; [now apply jo_face|]. intros Z'. exact (two_vertical n s w CS Nv x Hx Z Z'). }
  destruct Y as (y & Jy & Ny). assert (Hy := proj2 (joined_lt n s w CS _ _ Jy)).
  assert (M : forall l, exists h, joined n s w y h /\ (Rabs (rightwards s w y) <= Rabs (rightwards s w h))%R /\ forall z, In z l -> joined n s w y z -> (Rabs (rightwards s w z) <= Rabs (rightwards s w h))%R).
  { induction l as [|z l (h & J1 & J2 & J3)]; [exists y; split; [now apply jo_same|]; split; [lra|intros ? []]|].
    destruct (component_dec n w Nv s y v z CS eq_refl Hy Ny) as [Jz|Jz].
    - destruct (Rle_dec (Rabs (rightwards s w z)) (Rabs (rightwards s w h))) as [L|L].
      + exists h. split; auto. split; auto. intros z' [<-|Z] J; auto.
      + exists z. split; auto. split; [lra|]. intros z' [<-|Z] J; [lra|]. specialize (J3 z' Z J). lra.
    - exists h. split; auto. split; auto. intros z' [<-|Z] J; [contradiction|]. auto. }
  destruct (M (seq 0 n)) as (h & J1 & J2 & J3). exists h. split; [now apply jo_trans with y|]. assert (Hh := proj2 (joined_lt n s w CS _ _ J1)).
  assert (Nh : rightwards s w h <> 0%R). { intros Z. rewrite Z, Rabs_R0 in J2. apply (Rabs_no_R0 _ Ny). assert (Q := Rabs_pos (rightwards s w y)). lra. }
  assert (JF : forall z, joined n s w y z -> joined n s w y (fF s z)) by (intros z Jz; apply jo_trans with z; auto; apply jo_face, (joined_lt n s w CS _ _ Jz)).
  assert (Jn : joined n s w y (neg h)) by (apply jo_trans with h; auto; now apply jo_across).
  intros z Z. apply J3; cbn [In] in Z.
  - apply in_seq. assert (Hn := N_lt n s CS h Hh). destruct Z as [<-|[<-|[<-|[<-|[]]]]]; (split; [lia|]); repeat apply (F_lt n s CS); auto.
  - destruct Z as [<-|[<-|[<-|[<-|[]]]]]; auto.
Qed.
End loops.
