(** * The constructors of interval exchange transformations *)
From Coq Require Import ZArith Reals List Arith Bool Lia Lra Psatz.
From Coq Require Import Permutation.
From Verif Require Import Base HalfEdge HalfEdgeFacts Perm PermSpec PermFacts Combinatorial CombinatorialSpec CombinatorialFacts CombinatorialHistory ExactReal Vector PlaneSpec Plane VectorFacts
  CombinatorialOps FlatTri FlatSpec ChainSpec FlatFacts FlatSum FlatOps FlatAngle SectorFacts Saddle SaddleSpec SaddleFacts DeformSpec Tracked Vertical VerticalSpec VerticalFacts VerticalComponents
  Lengths IntervalExchange IntervalExchangeSpec IntervalExchangeFacts IntervalExchangeFlow IntervalExchangeLarge.
Import ListNotations.
Local Open Scope nat_scope.

(** ** If the two contours match then the half edge is the only wide one *)
Section half.
Context {K : ExactReal}.
Variables (n : nat) (s : flat K).
Hypothesis CS : closed_flat n s.
Notation F := (fF s).
Definition covered (v : pt) (h x : nat) : Prop := exists b, in_face s b x /\ (node s v h b /\ back s v b \/ node s (pneg v) (neg h) b /\ back s (pneg v) b).

Lemma contour_root v h l : h < n -> contour s v h l -> wide s v h -> back s v h.
Proof. intros Hh C W. destruct (contour_nodes n s v CS h l Hh C h (node_root _ _ _)) as [|Q]; auto. exfalso. exact (wide_above n s v CS h Hh W Q). Qed.
Lemma covered_half v h top L : h < n -> wide s v h -> contour s v h top -> contour s (pneg v) (neg h) L -> (forall e, In e top -> In (neg e) L) ->
  forall b x, node s v h b -> back s v b -> in_face s b x -> covered v h (neg x).
Proof.
  intros Hh W C D T. assert (Hn := N_lt n s CS h Hh). assert (Bh := contour_root v h top Hh C W).
  assert (W' : wide s (pneg v) (neg h)) by (apply down_wide, (wide_neg n s v h (proj1 CS) Hh); auto). assert (Bn := contour_root _ _ L Hn D W').
  assert (Ch : forall b y, node s v h b -> back s v b -> y = lchild s b \/ y = rchild s b -> covered v h y).
  { intros b y N B E. assert (Hb := node_lt n s v CS h b Hh N). assert (Ny : node s v h y) by (destruct E as [->| ->]; now constructor). assert (Hy := node_lt n s v CS h y Hh Ny).
    destruct (contour_nodes n s v CS h top Hh C y Ny) as [By|Fy]; [exists y; split; auto; unfold in_face; auto|].
    assert (I : In (neg y) L) by (apply T, (contour_In n s v CS h top Hh C); auto). apply (contour_In n s _ CS _ _ Hn D) in I as [Nn Fn].
    assert (Q : neg y <> neg h). { intros Q. apply neg_inj in Q. subst. exact (wide_above n s v CS h Hh W Fy). }
    destruct (node_child n s _ CS _ Hn _ Nn) as [|Cn]; [contradiction|]. exists (parent s (pneg v) (neg y)). assert (Q2 := child_face n s (pneg v) _ (N_lt n s CS _ Hy) Cn). rewrite neg_neg in Q2. split; auto.
    right. split; [|apply Cn]. destruct (node_parent n s _ CS _ _ Hn Nn) as [|[]]; auto. contradiction. }
  intros b x N B I. assert (Hb := node_lt n s v CS h b Hh N). destruct I as [->|[->| ->]].
  - destruct (node_child n s v CS h Hh b N) as [->|Cb]; [exists (neg h); split; [now left|right; split; auto; constructor]|].
    exists (parent s v b). split; [now apply (child_face n s v)|]. left. split; [|apply Cb]. destruct (node_parent n s v CS h b Hh N) as [->|[]]; auto. exfalso. exact (wide_below n s v CS h Hh W Cb).
  - apply (Ch b); auto.
  - apply (Ch b); auto.
Qed.
Lemma covered_flip v h x : covered v h x <-> covered (pneg v) (neg h) x.
Proof. unfold covered. rewrite pneg_pneg, neg_neg. split; intros (b & I & Q); exists b; tauto. Qed.
Lemma covered_face v h x : h < n -> covered v h x -> covered v h (F x).
Proof.
  intros Hh (b & I & Q). exists b. split; auto. assert (Hb : b < n) by (destruct Q as [[N _]|[N _]]; apply (node_lt n s _ CS _ _) in N; auto; now apply (N_lt n s CS)).
  unfold in_face in *. destruct I as [->|[->| ->]]; auto. rewrite (F3 n s CS b Hb). auto.
Qed.
Lemma covered_neg v h top L : h < n -> wide s v h -> contour s v h top -> contour s (pneg v) (neg h) L -> (forall e, In e top -> In (neg e) L) -> (forall e, In e L -> In (neg e) top) ->
  forall x, covered v h x -> covered v h (neg x).
Proof.
  intros Hh W C D T1 T2 x (b & I & [[N B]|[N B]]); [eapply covered_half; eauto|]. apply covered_flip.
  apply (covered_half (pneg v) (neg h) L top) with b; auto; [now apply (N_lt n s CS)|apply down_wide, (wide_neg n s v h (proj1 CS) Hh); auto|now rewrite pneg_pneg, neg_neg].
Qed.
Lemma covered_wide v h x : h < n -> covered v h x -> wide s v x -> x = h \/ x = neg h.
Proof.
  assert (G : forall v h b x, h < n -> node s v h b -> back s v b -> in_face s b x -> wide s v x -> x = h).
  { clear v h x. intros v h b x Hh N B I W. assert (Hb := node_lt n s v CS h b Hh N). assert (F3b := F3 n s CS b Hb). destruct I as [->|[->| ->]].
    - destruct (node_child n s v CS h Hh b N) as [|Cb]; auto. exfalso. exact (wide_below n s v CS b Hb W Cb).
    - exfalso. specialize (W b). rewrite F3b in W. specialize (W ltac:(right; now left)). assert (Z := R_sum n s v CS b Hb). destruct B as (B1 & B2 & B3). rewrite Rabs_pos_eq, Rabs_left in W; lra.
    - exfalso. specialize (W b). rewrite F3b in W. specialize (W ltac:(now left)). assert (Z := R_sum n s v CS b Hb). destruct B as (B1 & B2 & B3). rewrite Rabs_pos_eq, Rabs_left in W; lra. }
  intros Hh (b & I & [[N B]|[N B]]) W; [left; eapply G; eauto|right]. apply (G (pneg v) (neg h) b); auto; [now apply (N_lt n s CS)|now apply down_wide].
Qed.
Lemma covered_nonzero v h x : h < n -> covered v h x -> rightwards s v x <> 0%R.
Proof.
  assert (G : forall v b x, back s v b -> in_face s b x -> rightwards s v x <> 0%R) by (intros ? ? ? (B1 & B2 & B3) [->|[->| ->]]; lra).
  intros Hh (b & I & [[N B]|[N B]]); [eapply G; eauto|]. intros E. apply (G (pneg v) b x B I). rewrite down_r, E. ring.
Qed.
Lemma contours_unique v h top L : h < n -> wide s v h -> contour s v h top -> contour s (pneg v) (neg h) L -> (forall e, In e top -> In (neg e) L) -> (forall e, In e L -> In (neg e) top) ->
  unique_large n s v h.
Proof.
  intros Hh W C D T1 T2. assert (Bh := contour_root v h top Hh C W). assert (NG := covered_neg v h top L Hh W C D T1 T2).
  assert (G : forall x y, joined n s v x y -> (covered v h x <-> covered v h y)).
  { intros x y J. induction J as [x Hx|x Hx|x Hx N|x y J IH|x y z J1 IH1 J2 IH2]; [tauto| | |tauto|tauto].
    - split; intros Q; [now apply covered_face|]. rewrite <- (F3 n s CS x Hx). now do 2 (apply covered_face; auto).
    - split; intros Q; [now apply NG|]. rewrite <- (neg_neg x). now apply NG. }
  assert (G' : forall x, joined n s v h x -> covered v h x). { intros x J. apply (G h x J). exists h. split; [now left|]. left. split; auto. constructor. }
  split; auto. split; intros x J; [now apply covered_nonzero with h; auto|intros Wx; apply (covered_wide v h x); auto].
Qed.
End half.

(** ** Half edges that point to the left *)
Section left.
Context {K : ExactReal}.
Variables (n : nat) (s : flat K) (V : vec K).
Hypothesis CS : closed_flat n s.
Notation v := (vden V).
Notation r := (rightwards s v).
Lemma make_contour_left k m a : valid n s V m -> a < n -> (r a < 0)%R -> wide s v a ->
  (exists m', make_contour (Datatypes.S k) m a = Ok ([a], m') /\ valid n s V m') \/ make_contour (Datatypes.S k) m a = Throw.
Proof.
  intros I Ha P W. assert (S0 := proj1 CS). assert (Nb := proj2 CS a Ha). cbn [make_contour]. destruct (classify_ok n s V 0 m a I Ha Nb) as (c & m1 & E & I1 & Q). change (3 + 0) with 3 in E. rewrite E. cbn [bind].
  destruct c; [exfalso|left; eauto|destruct Q|now right|now right].
  destruct Q as (x & Fx & Q1 & Q2 & Q3). assert (Z := R_sum n s v CS a Ha). assert (F3a := F3 n s CS a Ha). destruct Fx as [->|[->| ->]].
  - lra.
  - rewrite F3a in Q3. specialize (W (fF s a) ltac:(now left)). rewrite (Rabs_pos_eq (r (fF s a))), Rabs_left in W; lra.
  - rewrite F3a in Q2, Q3. specialize (W (fF s (fF s a)) ltac:(right; now left)). rewrite (Rabs_pos_eq (r (fF s (fF s a)))), Rabs_left in W; lra.
Qed.
Lemma wide_nonzero a : v <> (0, 0)%R -> a < n -> wide s v a -> r a <> 0%R.
Proof.
  intros Nv Ha W E. assert (A := W (fF s a) ltac:(now left)). rewrite E, Rabs_R0 in A. assert (B := Rabs_pos (r (fF s a))). assert (Q : Rabs (r (fF s a)) = 0%R) by lra. apply (two_vertical n s v CS Nv a Ha E).
  destruct (Req_dec (r (fF s a)) 0); auto. exfalso. now apply (Rabs_no_R0 (r (fF s a))).
Qed.
End left.

(** ** Lengths *)
Section lengths.
Context {K : ExactReal}.
Variables (n : nat) (s : flat K) (V : vec K).
Hypothesis CS : closed_flat n s.
Notation v := (vden V).
Notation r := (rightwards s v).
Let S0 : flat_surface n s := proj1 CS.
Definition edge_connection (e : nat) (c : @sconn K) : Prop := sc_half_edge s e = Ok c /\ exists w, sc_vector c = Ok w /\ vden w = vv s e.
Lemma connection_ok e : e < n -> exists c, edge_connection e c.
Proof.
  intros H. destruct (zc_half_edge_Ok n s S0 e H) as (d & E & L & D). exists (mkSconn s e (neg e) d). unfold edge_connection, sc_half_edge, sc_vector. rewrite E. cbn [bind sc_surface sc_chain]. split; auto.
  destruct (zc_vector_Ok n s S0 d L) as (w & Ew & Dw). exists w. split; auto. now rewrite Dw, D.
Qed.
Lemma contour_lengths_ok : forall top l0, (forall e, In e top -> e < n) -> length l0 = n / 2 ->
  exists l, contour_lengths s top l0 = Ok l /\ length l = n / 2 /\
    (forall i c, nth_error l i = Some (Some c) -> (exists e, In e top /\ e / 2 = i /\ edge_connection e c) \/ nth_error l0 i = Some (Some c)) /\
    (forall e, In e top -> exists e' c, In e' top /\ e' / 2 = e / 2 /\ edge_connection e' c /\ nth_error l (e / 2) = Some (Some c)) /\
    (forall i, (forall e, In e top -> e / 2 <> i) -> nth_error l i = nth_error l0 i).
Proof.
  induction top as [|e top IH]; intros l0 H L; cbn [contour_lengths].
  - exists l0. split; auto. split; auto. split; [auto|]. split; [intros ? []|auto].
  - assert (He := H e (or_introl eq_refl)). assert (Hi : e / 2 < length l0) by (rewrite L; apply (index_lt n _ e (fs_wf n s S0) He)).
    destruct (connection_ok e He) as (c & C). rewrite (proj1 C). cbn [bind]. rewrite index_of, vset_Ok by auto. cbn [bind].
    destruct (IH (upd l0 (e / 2) (Some c))) as (l & E & L' & A1 & A2 & A3); [intros; apply H; now right|now rewrite upd_length|]. exists l. split; auto. split; auto. split; [|split].
    + intros i c' Q. destruct (A1 i c' Q) as [(e' & I' & Q')|Q']; [left; exists e'; split; [now right|auto]|]. destruct (Nat.eq_dec i (e / 2)) as [->|N].
      * rewrite nth_error_upd_eq in Q' by auto. injection Q' as <-. left. exists e. split; [now left|auto].
      * rewrite nth_error_upd_ne in Q' by auto. auto.
    + intros e0 I0. destruct (in_dec Nat.eq_dec (e0 / 2) (map (fun x => x / 2) top)) as [Q|Q].
      * apply in_map_iff in Q as (e1 & Q1 & Q2). destruct (A2 e1 Q2) as (e' & c' & J & J' & J2 & J3). exists e', c'. split; [now right|]. rewrite <- Q1. auto.
      * assert (E0 : e0 = e). { destruct I0 as [|I0]; auto. exfalso. apply Q. apply in_map_iff. eauto. } subst e0. exists e, c. split; [now left|]. split; auto. split; auto. rewrite A3, nth_error_upd_eq; auto.
        intros e1 I1 Q1. apply Q. rewrite <- Q1. apply in_map_iff. eauto.
    + intros i Q. rewrite A3, nth_error_upd_ne; auto; [intros E'; apply (Q e); auto; now left|intros; apply Q; now right].
Qed.
Lemma vertical_vector m : valid n s V m -> vt_vertical m = V. Proof. apply vd_vertical. Qed.
Lemma clockwise_ok m e c : valid n s V m -> edge_connection e c -> exists w, sc_vector c = Ok w /\ den (project_perpendicular_vector m w) = r e /\ (ccw_eqb (vertical_ccw_vector m w) CLOCKWISE = true <-> (0 < r e)%R).
Proof.
  intros I (_ & w & E & D). exists w. split; auto. split.
  - unfold project_perpendicular_vector. rewrite (vd_horizontal _ _ _ _ I), den_dot, vden_neg, D. unfold rightwards. destruct (vv s e) as [x y]. unfold vden, vperp, pdot, pdet, pneg. cbn [fst snd vx vy]. rewrite den_opp. ring.
  - unfold vertical_ccw_vector. rewrite (vd_vertical _ _ _ _ I), ccw_CW, D. unfold rightwards, pdet. lra.
Qed.
Lemma check_ok m : valid n s V m -> forall l, (forall c, In (Some c) l -> exists e, edge_connection e c) ->
  (check_lengths m l = Ok tt /\ forall c e, In (Some c) l -> edge_connection e c -> (0 < r e)%R) \/ (check_lengths m l = Throw /\ exists c, In (Some c) l /\ forall e, edge_connection e c -> (r e <= 0)%R).
Proof.
  intros I. induction l as [|[c|] l IH]; intros H; cbn [check_lengths].
  - left. split; auto. intros ? ? [].
  - destruct (H c (or_introl eq_refl)) as (e & C). destruct (clockwise_ok m e c I C) as (w & E & _ & D). rewrite E. cbn [bind].
    assert (U : forall e', edge_connection e' c -> r e' = r e). { intros e' (_ & w' & E' & D'). destruct C as (_ & w2 & E2 & D2). unfold rightwards. rewrite <- D', <- D2. congruence. }
    destruct (ccw_eqb (vertical_ccw_vector m w) CLOCKWISE) eqn:Q.
    + destruct IH as [[-> A]|[-> (c' & A1 & A2)]]; [intros; apply H; now right| |].
      * left. split; auto. intros c' e' [J|J] C'; [|eauto]. injection J as <-. rewrite (U e' C'). now apply D.
      * right. split; auto. exists c'. split; auto. now right.
    + right. split; auto. exists c. split; [now left|]. intros e' C'. rewrite (U e' C'). destruct (Rlt_le_dec 0 (r e)) as [P|P]; auto. apply D in P. congruence.
  - destruct IH as [[-> A]|[-> (c' & A1 & A2)]]; [intros c Q; apply H; now right| |].
    + left. split; auto. intros c e [J|J]; [discriminate|eauto].
    + right. split; auto. exists c'. split; auto. now right.
Qed.
End lengths.

(** ** Multisets *)
Lemma occurrences_zero e l : occurrences e l = 0 <-> ~ In e l.
Proof.
  unfold occurrences. induction l as [|x l IH]; cbn [filter In]; [cbn; tauto|]. destruct (Nat.eqb_spec e x) as [->|N]; cbn [length]; [split; [lia|intros Q; exfalso; auto]|]. rewrite IH. intuition congruence.
Qed.
Lemma occurrences_one e l : NoDup l -> In e l -> occurrences e l = 1.
Proof.
  intros ND. induction ND as [|x l N ND IH]; intros I; [destruct I|]. unfold occurrences in *. cbn [filter]. destruct (Nat.eqb_spec e x) as [->|D].
  - cbn [length]. assert (Z := proj2 (occurrences_zero x l) N). unfold occurrences in Z. lia.
  - destruct I as [->|I]; [contradiction|auto].
Qed.
Lemma multiset_incl l r : same_multiset l r = true -> forall e, In e l <-> In e r.
Proof.
  unfold same_multiset. rewrite forallb_forall. intros H e. assert (G : In e l \/ In e r -> occurrences e l = occurrences e r) by (intros Q; apply Nat.eqb_eq, H; now apply in_app_iff).
  assert (Zl := occurrences_zero e l). assert (Zr := occurrences_zero e r). destruct (in_dec Nat.eq_dec e l) as [A|A], (in_dec Nat.eq_dec e r) as [B|B]; try tauto; exfalso.
  - rewrite G in Zl by auto. tauto. - rewrite <- G in Zr by auto. tauto.
Qed.
Lemma multiset_NoDup l r : NoDup l -> NoDup r -> (forall e, In e l <-> In e r) -> same_multiset l r = true.
Proof.
  intros A B H. unfold same_multiset. apply forallb_forall. intros e I. apply Nat.eqb_eq. assert (I1 : In e l) by (apply in_app_iff in I; destruct I; auto; now apply H). rewrite !occurrences_one; auto. now apply H.
Qed.

(** ** Connected contours *)
Lemma connected_ok {K : ExactReal} n (s : flat K) : closed_flat n s -> forall l a b, l <> [] -> (forall x, In x l -> x < n) -> vertex_path s a l b -> connected_contour (fT s) l = Ok true.
Proof.
  intros CS. assert (W := fs_wf n s (proj1 CS)). induction l as [|e l IH]; intros a b N H P; [contradiction|]. destruct l as [|f l]; [reflexivity|].
  destruct P as [P1 P2]. change (connected_contour (fT s) (e :: f :: l)) with (do v <- vertex_target (fT s) e; do w <- vertex_source (fT s) f; if vertex_eqb v w then connected_contour (fT s) (f :: l) else Ok false).
  assert (He := H e (or_introl eq_refl)). assert (Hf := H f (or_intror (or_introl eq_refl))). assert (Hn := N_lt n s CS e He).
  unfold vertex_target. destruct (vertex_source_Ok n _ _ W Hn) as (x & Ex & _). destruct (vertex_source_Ok n _ _ W Hf) as (y & Ey & _). rewrite Ex, Ey. cbn [bind].
  rewrite (proj2 (vertex_eqb_spec n _ _ _ x y W Hn Hf Ex Ey)); [|now destruct P2]. apply (IH (neg e) b); auto; [discriminate|]. intros z Z. apply H. now right.
Qed.

(** ** Two contours *)
Section pair.
Context {K : ExactReal}.
Variables (n : nat) (s : flat K) (V : vec K).
Hypothesis CS : closed_flat n s.
Hypothesis Nv : vden V <> (0, 0)%R.
Notation v := (vden V).
Notation r := (rightwards s v).
Lemma make_iet_throw top bottom : (forall e, In e top -> e < n) -> (exists e, top = [e] /\ (r e < 0)%R) \/ same_multiset top bottom = false -> make_iet s V top bottom = Throw.
Proof.
  intros H Q. assert (S0 := proj1 CS). unfold make_iet. rewrite (wf_size _ _ (fs_wf n s S0)). destruct (contour_lengths_ok n s CS top (repeat None (n / 2)) H (repeat_length _ _)) as (l & -> & L & A1 & A2 & A3). cbn [bind].
  destruct (make_valid n s V S0 Nv) as (m & -> & I). cbn [bind]. unfold make_lengths. destruct (check_ok n s V m I l) as [[-> C]|[-> C]]; auto.
  - intros c J. apply In_nth_error in J as (i & J). destruct (A1 i c J) as [(e & _ & _ & Q')|Q']; eauto. exfalso. apply nth_error_In, repeat_spec in Q'. discriminate.
  - cbn [bind]. destruct Q as [(e & -> & P)| ->]; auto. exfalso. destruct (A2 e (or_introl eq_refl)) as (e' & c & [<-|[]] & _ & Ec & J). specialize (C c e (nth_error_In _ _ J) Ec). lra.
Qed.
Lemma make_iet_ok top bottom : (forall e, In e top -> e < n /\ (0 < r e)%R) -> NoDup top -> Permutation top bottom -> top <> [] -> (exists a b, vertex_path s a top b) -> (exists a b, vertex_path s a bottom b) ->
  exists t, make_iet s V top bottom = Ok t /\ ie_surface t = s /\ ie_top t = map (fun e => e / 2) top /\ ie_bottom t = map (fun e => e / 2) bottom /\
    forall e, In e top -> exists c x, edge_connection s e c /\ iet_connection t (e / 2) = Ok c /\ get_length (ie_lengths t) (e / 2) = Ok x /\ den x = r e.
Proof.
  intros H ND PM NE (a & b & Pt) (a' & b' & Pb). assert (S0 := proj1 CS). unfold make_iet. rewrite (wf_size _ _ (fs_wf n s S0)).
  destruct (contour_lengths_ok n s CS top (repeat None (n / 2)) (fun e I => proj1 (H e I)) (repeat_length _ _)) as (l & -> & L & A1 & A2 & A3). cbn [bind].
  assert (Q1 : forall i c, nth_error l i = Some (Some c) -> exists e, In e top /\ e / 2 = i /\ edge_connection s e c).
  { intros i c J. destruct (A1 i c J) as [Q'|Q']; auto. exfalso. apply nth_error_In, repeat_spec in Q'. discriminate. }
  assert (U : forall e e', In e top -> In e' top -> e' / 2 = e / 2 -> e' = e).
  { intros e e' J J' Q. apply index_eq in Q as [|Q]; auto. exfalso. destruct (H e J) as [He P]. destruct (H e' J') as [_ P']. rewrite Q, (R_neg n s v CS) in P' by auto. lra. }
  destruct (make_valid n s V S0 Nv) as (m & -> & I). cbn [bind]. unfold make_lengths. destruct (check_ok n s V m I l) as [[-> C]|[_ (c & J & C)]].
  - intros c J. apply In_nth_error in J as (i & J). destruct (Q1 i c J) as (e & _ & _ & Q'); eauto.
  - cbn [bind]. assert (HB : forall e, In e bottom -> e < n) by (intros e J; apply (Permutation_in _ (Permutation_sym PM)) in J; now apply H).
    rewrite multiset_NoDup; auto; [|now apply (Permutation_NoDup PM)|intros e; split; apply Permutation_in; auto; now apply Permutation_sym]. cbn [negb].
    rewrite (connected_ok n s CS top a b); auto; [|intros; now apply H]. cbn [bind negb]. rewrite (connected_ok n s CS bottom a' b'); auto; [|intros E; subst; apply NE; now apply Permutation_nil, Permutation_sym]. cbn [bind negb].
    eexists. split; [reflexivity|]. cbn [ie_surface ie_top ie_bottom ie_lengths]. split; auto. split; [apply map_ext; intros; apply index_of|]. split; [apply map_ext; intros; apply index_of|].
    intros e J. destruct (A2 e J) as (e' & c & J' & E' & Ec & N). rewrite (U e e' J J' E') in *. destruct (clockwise_ok n s V m e c I Ec) as (w & Ew & Dw & _). exists c. eexists. split; auto.
    unfold iet_connection, get_length, length_of. cbn [ie_lengths le_lengths le_vertical]. unfold vget. rewrite N. cbn [bind]. rewrite Ew. cbn [bind]. split; auto.
  - exfalso. apply In_nth_error in J as (i & J). destruct (Q1 i c J) as (e & Je & _ & Q'). specialize (C e Q'). destruct (H e Je). lra.
Qed.
End pair.
