(** * Facts about vertical directions *)
From Coq Require Import ZArith Reals List Arith Bool Lia Lra Psatz.
From Verif Require Import Base HalfEdge HalfEdgeFacts Perm PermSpec PermFacts Combinatorial CombinatorialSpec CombinatorialFacts ExactReal Vector PlaneSpec Plane VectorFacts
  FlatTri FlatSpec FlatFacts FlatSum FlatOps FlatAngle Tracked Vertical VerticalSpec.
Import ListNotations.
Local Open Scope nat_scope.

(** ** Caches *)
Section caches.
Context {T : Type}.
Definition good (n : nat) (c : list (option T)) (P : nat -> T -> Prop) : Prop :=
  length c = n /\ forall i x, nth_error c i = Some (Some x) -> P i x.

Lemma good_empty n P : good n (repeat None n) P.
Proof. split; [apply repeat_length|]. intros i x E. apply nth_error_In, repeat_spec in E. discriminate. Qed.
Lemma good_upd n c (P P' : nat -> T -> Prop) i o : good n c P -> (forall x, o = Some x -> P' i x) -> (forall j x, j <> i -> P j x -> P' j x) -> good n (upd c i o) P'.
Proof.
  intros [L G] A B. split; [now rewrite upd_length|]. intros j x E. destruct (Nat.eq_dec i j) as [<-|N].
  - assert (i < length c). { rewrite <- (upd_length c i o). apply nth_error_Some. congruence. }
    rewrite nth_error_upd_eq in E by auto. apply A. congruence.
  - rewrite nth_error_upd_ne in E by auto. apply B; auto.
Qed.
Lemma vget_error (c : list (option T)) i : i < length c -> exists o, vget c i = Ok o /\ nth_error c i = Some o.
Proof. intros H. unfold vget. destruct (nth_error c i) eqn:E; eauto. apply nth_error_None in E. lia. Qed.

Lemma cached_ok n t (opp : T -> T) c h fresh (P : nat -> T -> Prop) x0 : well_formed n t -> good n c P -> h < n ->
  (forall i x, i < n -> P i x -> P (neg i) (opp x)) -> fresh = Ok x0 -> P h x0 ->
  exists x c', cached opp c h fresh = Ok (x, c') /\ P h x /\ good n c' P.
Proof.
  intros W G Hh O -> Px. pose proof G as [L Q]. assert (Hn := neg_ltn n t W h Hh). unfold cached.
  destruct (vget_error c h) as (o & E & E'); [lia|]. rewrite E. cbn [bind]. destruct o as [x|].
  - cbn [bind]. rewrite E. cbn [bind]. exists x, c. auto.
  - cbn [bind]. unfold odd_set. rewrite vset_Ok by lia. cbn [bind]. rewrite vset_Ok by (rewrite upd_length; lia). cbn [bind].
    set (c' := upd _ _ _). assert (X : vget c' h = Ok (Some x0)).
    { unfold vget, c'. rewrite nth_error_upd_ne by apply neg_ne. rewrite nth_error_upd_eq by lia. reflexivity. }
    rewrite X. cbn [bind]. exists x0, c'. split; auto. split; auto. unfold c'. apply (good_upd n _ P); auto.
    + apply (good_upd n _ P); auto. intros x Ex. inv Ex. auto.
    + cbn [option_map]. intros x Ex. inv Ex. auto.
Qed.
Lemma reset_ok n t c e (P P' : nat -> T -> Prop) : well_formed n t -> good n c P -> e < n ->
  (forall i x, i < n -> i <> e -> i <> neg e -> P i x -> P' i x) -> exists c', reset c e = Ok c' /\ good n c' P'.
Proof.
  intros W [L G] He I. assert (Hn := neg_ltn n t W e He). unfold reset. rewrite vset_Ok by lia. cbn [bind]. rewrite vset_Ok by (rewrite upd_length; lia). eexists. split; [reflexivity|].
  split; [now rewrite !upd_length|]. intros i x E.
  assert (Hi : i < n). { rewrite <- L, <- (upd_length c e None), <- (upd_length (upd c e None) (neg e) None). apply nth_error_Some. congruence. }
  destruct (Nat.eq_dec i (neg e)) as [->|N1]; [rewrite nth_error_upd_eq in E by (rewrite upd_length; lia); discriminate|]. rewrite nth_error_upd_ne in E by auto.
  destruct (Nat.eq_dec i e) as [->|N2]; [rewrite nth_error_upd_eq in E by lia; discriminate|]. rewrite nth_error_upd_ne in E by auto. auto.
Qed.
End caches.

Lemma index_of h : edge_index (edge_of h) = h / 2.
Proof. unfold edge_of, edge_index, he_index. destruct (h <? neg h); rewrite ?neg_div2; auto. Qed.
Lemma index_eq g h : g / 2 = h / 2 <-> (g = h \/ g = neg h).
Proof. rewrite <- edge_of_eq, !edge_of_even. split; [intros ->; auto|]. intros E. lia. Qed.
Lemma index_lt n t h : well_formed n t -> h < n -> h / 2 < n / 2.
Proof.
  intros W H. destruct (wf_even _ _ W) as [k ->]. rewrite div2_even.
  apply Nat.div_lt_upper_bound; lia.
Qed.

(** ** The state *)
Section state.
Context {K : ExactReal}.
Implicit Types (s : flat K) (m : vertical K) (v : vec K).

Definition ccw_at (v : pt) s h (c : CCW) : Prop := match c with COUNTERCLOCKWISE => 0 < pdet v (vv s h) | COLLINEAR => pdet v (vv s h) = 0 | CLOCKWISE => pdet v (vv s h) < 0 end%R.
Definition orientation_at (v : pt) s h (c : ORIENTATION) : Prop := match c with SAME => 0 < pdot v (vv s h) | ORTHOGONAL => pdot v (vv s h) = 0 | OPPOSITE => pdot v (vv s h) < 0 end%R.

Record valid (n : nat) (s : flat K) (v : vec K) (m : vertical K) : Prop := {
  vd_surface : vt_surface m = s;
  vd_flat : flat_surface n s;
  vd_vertical : vt_vertical m = v;
  vd_nonzero : vden v <> (0, 0)%R;
  vd_horizontal : vt_horizontal m = vneg (vperp v);
  vd_parallel : good n (vt_parallel m) (fun h x => den x = pdot (vden v) (vv s h));
  vd_perpendicular : good n (vt_perpendicular m) (fun h x => den x = rightwards s (vden v) h);
  vd_ccw : good n (vt_ccw m) (fun h => ccw_at (vden v) s h);
  vd_orientation : good n (vt_orientation m) (fun h => orientation_at (vden v) s h);
  vd_large : good (n / 2) (vt_large m) (fun i b => forall h, h < n -> h / 2 = i -> (b = true <-> wide s (vden v) h))
}.

Lemma make_valid n s v : flat_surface n s -> vden v <> (0, 0)%R -> exists m, make_vertical s v = Ok m /\ valid n s v m.
Proof.
  intros S0 N. unfold make_vertical. rewrite (proj2 (vnonzero_spec v) N). cbn [negb]. eexists. split; [reflexivity|].
  assert (E : tsize (fT s) = n). { unfold tsize, psize. apply (fwd_len _ _ (wfV _ _ (fs_wf n s S0))). }
  split; cbn; auto; rewrite ?E; apply good_empty.
Qed.
Lemma make_throw s v : vden v = (0, 0)%R -> make_vertical s v = Throw.
Proof. intros Z. unfold make_vertical. destruct (vnonzero v) eqn:E; auto. apply vnonzero_spec in E. contradiction. Qed.

Section queries.
Variables (n : nat) (s : flat K) (v : vec K).
Variable m : vertical K.
Hypothesis I : valid n s v m.
Let S0 := vd_flat _ _ _ _ I.
Let W := fs_wf n s S0.

Lemma odd h : h < n -> vv s (neg h) = pneg (vv s h).
Proof. apply (fs_odd n s S0). Qed.
Lemma from_ok h : h < n -> from_he (vt_surface m) h = Ok (vat' s h).
Proof. intros H. rewrite (vd_surface _ _ _ _ I). apply from_he_Ok. now rewrite (fs_length n s S0). Qed.

Lemma project_ok h : h < n -> exists x m', project m h = Ok (x, m') /\ den x = pdot (vden v) (vv s h) /\ valid n s v m'.
Proof.
  intros H. unfold project. rewrite from_ok by auto. cbn [bind]. rewrite (vd_vertical _ _ _ _ I).
  destruct (cached_ok n _ ropp (vt_parallel m) h (Ok (vdot v (vat' s h))) _ (vdot v (vat' s h)) W (vd_parallel _ _ _ _ I) H) as (x & c & E & P & G); auto.
  - intros i x Hi E. cbv beta in *. rewrite den_opp, E, odd by auto. unfold pdot, pneg. cbn [fst snd]. ring.
  - rewrite den_dot. reflexivity.
  - rewrite E. cbn [bind]. exists x, (set_parallel m c). split; auto. split; auto. destruct I. split; auto.
Qed.
Lemma perpendicular_ok h : h < n -> exists x m', project_perpendicular m h = Ok (x, m') /\ den x = rightwards s (vden v) h /\ valid n s v m'.
Proof.
  intros H. unfold project_perpendicular. rewrite from_ok by auto. cbn [bind]. rewrite (vd_horizontal _ _ _ _ I).
  destruct (cached_ok n _ ropp (vt_perpendicular m) h (Ok (vdot (vneg (vperp v)) (vat' s h))) _ (vdot (vneg (vperp v)) (vat' s h)) W (vd_perpendicular _ _ _ _ I) H) as (x & c & E & P & G); auto.
  - intros i x Hi E. cbv beta in *. rewrite den_opp, E. unfold rightwards. rewrite odd by auto. unfold pdet, pneg. cbn [fst snd]. ring.
  - rewrite den_dot, vden_neg. unfold rightwards. change (vv s h) with (vden (vat' s h)). unfold vden, vperp, pdot, pdet, pneg. cbn [fst snd vx vy]. rewrite den_opp. ring.
  - rewrite E. cbn [bind]. exists x, (set_perpendicular m c). split; auto. split; auto. destruct I. split; auto.
Qed.
Lemma ccw_ok h : h < n -> exists x m', vertical_ccw m h = Ok (x, m') /\ ccw_at (vden v) s h x /\ valid n s v m'.
Proof.
  intros H. unfold vertical_ccw. rewrite from_ok by auto. cbn [bind]. rewrite (vd_vertical _ _ _ _ I).
  destruct (cached_ok n _ ccw_opp (vt_ccw m) h (Ok (ccw v (vat' s h))) _ (ccw v (vat' s h)) W (vd_ccw _ _ _ _ I) H) as (x & c & E & P & G); auto.
  - intros i x Hi E. unfold ccw_at in *. rewrite odd by auto. destruct x; cbn [ccw_opp]; unfold pdet, pneg in *; cbn [fst snd] in *; lra.
  - assert (Q := ccw_cases v (vat' s h)). unfold ccw_at. change (vv s h) with (vden (vat' s h)). destruct (ccw v (vat' s h)); auto.
  - rewrite E. cbn [bind]. exists x, (set_ccw m c). split; auto. split; auto. destruct I. split; auto.
Qed.
Lemma orientation_ok h : h < n -> exists x m', vertical_orientation m h = Ok (x, m') /\ orientation_at (vden v) s h x /\ valid n s v m'.
Proof.
  intros H. unfold vertical_orientation. rewrite from_ok by auto. cbn [bind]. rewrite (vd_vertical _ _ _ _ I).
  destruct (cached_ok n _ orientation_opp (vt_orientation m) h (Ok (orientation v (vat' s h))) _ (orientation v (vat' s h)) W (vd_orientation _ _ _ _ I) H) as (x & c & E & P & G); auto.
  - intros i x Hi E. unfold orientation_at in *. rewrite odd by auto. destruct x; cbn [orientation_opp]; unfold pdot, pneg in *; cbn [fst snd] in *; lra.
  - assert (Q := orientation_cases v (vat' s h)). unfold orientation_at. change (vv s h) with (vden (vat' s h)). destruct (orientation v (vat' s h)); auto.
  - rewrite E. cbn [bind]. exists x, (set_orientation m c). split; auto. split; auto. destruct I. split; auto.
Qed.
Lemma length_ok h : h < n -> exists x m', perpendicular_length m h = Ok (x, m') /\ den x = Rabs (rightwards s (vden v) h) /\ valid n s v m'.
Proof.
  intros H. unfold perpendicular_length. destruct (perpendicular_ok h H) as (x & m' & -> & E & V). cbn [bind]. eexists _, m'. split; [reflexivity|]. split; auto.
  destruct (rltb (0)%X x) eqn:L.
  - apply rltb_spec in L. rewrite den_ofZ in L. rewrite E in *. rewrite Rabs_right; lra.
  - assert (N : ~ (0 < den x)%R). { intros Q. assert (rltb (0)%X x = true) by (apply rltb_spec; now rewrite den_ofZ). congruence. }
    rewrite den_opp, E. rewrite E in N. rewrite Rabs_left1; lra.
Qed.
End queries.

Lemma longest_ok n s v len h : forall (l : list (tri -> outcome nat)) hs m, valid n s v m -> (den len = Rabs (rightwards s (vden v) h)) ->
  Forall2 (fun f x => f (fT s) = Ok x /\ x < n) l hs ->
  exists b m', longest m len l = Ok (b, m') /\ (b = true <-> forall x, In x hs -> (Rabs (rightwards s (vden v) x) <= Rabs (rightwards s (vden v) h))%R) /\ valid n s v m'.
Proof.
  induction l as [|f l IH]; intros hs m V El F; inversion F; subst.
  - exists true, m. split; auto. split; auto. split; auto. intros _ x [].
  - match goal with H : _ /\ _ |- _ => destruct H as [Ef Hy] end. cbn [longest]. rewrite (vd_surface _ _ _ _ V), Ef. cbn [bind].
    destruct (length_ok n s v m V _ Hy) as (x & m' & -> & Ex & V'). cbn [bind]. destruct (rltb len x) eqn:L.
    + apply rltb_spec in L. exists false, m'. split; auto. split; auto. split; [discriminate|]. intros A. specialize (A _ (or_introl eq_refl)). lra.
    + assert (N : ~ (den len < den x)%R) by (intros Q; apply rltb_spec in Q; congruence).
      destruct (IH l' m' V' El) as (b & m'' & E & B & V''); auto. rewrite E. exists b, m''. split; auto. split; auto. rewrite B. split.
      * intros A z [<-|Z]; auto. lra.
      * intros A z Z. apply A. now right.
Qed.

Lemma wide_neg n s (v : pt) h : flat_surface n s -> h < n -> (wide s v (neg h) <-> wide s v h).
Proof.
  intros S0 H. unfold wide. rewrite neg_neg. assert (R : Rabs (rightwards s v (neg h)) = Rabs (rightwards s v h)).
  { unfold rightwards. rewrite (fs_odd n s S0) by auto. rewrite <- Rabs_Ropp. f_equal. unfold pdet, pneg. cbn [fst snd]. ring. }
  rewrite R. split; intros A x X; apply A; cbn [In] in *; tauto.
Qed.

Lemma large_ok n s v m h : valid n s v m -> h < n -> exists b m', large m h = Ok (b, m') /\ (b = true <-> wide s (vden v) h) /\ valid n s v m'.
Proof.
  intros V H. pose proof V as [Es S0 _ _ _ _ _ _ _ [L G]]. assert (W := fs_wf n s S0). assert (Hn := neg_ltn n _ W h H). unfold large. rewrite index_of.
  assert (Hi := index_lt n _ h W H). destruct (vget_error (vt_large m) (h / 2)) as (o & E & E'); [lia|]. rewrite E. cbn [bind]. destruct o as [b|].
  - cbn [bind]. rewrite E. cbn [bind]. exists b, m. split; auto. split; auto. apply (G _ _ E'); auto.
  - destruct (length_ok n s v m V h H) as (len & m1 & -> & El & V1). cbn [bind].
    destruct (longest_ok n s v len h [fun t => nextInFace t h; fun t => previousInFace t h; fun t => nextInFace t (neg h); fun t => previousInFace t (neg h)]
      [fF s h; fF s (fF s h); fF s (neg h); fF s (fF s (neg h))] m1 V1 El) as (b & m2 & -> & B & V2).
    { repeat constructor; rewrite ?(next_Ok n), ?(prev_Ok n), ?(pF_tri n) by auto; auto; repeat apply (fF_lt n); auto. }
    cbn [bind]. pose proof V2 as [Es2 _ A1 A2 A3 A4 A5 A6 A7 [L2 G2]]. rewrite vset_Ok by lia. cbn [bind].
    set (c := upd _ _ _). exists b, (set_large m2 c).
    assert (Gc : good (n / 2) c (fun i b => forall h, h < n -> h / 2 = i -> (b = true <-> wide s (vden v) h))).
    { unfold c. apply (good_upd (n / 2) _ (fun i b => forall h, h < n -> h / 2 = i -> (b = true <-> wide s (vden v) h))); auto; [now split|].
      intros x Ex h' Hh' Ei. inv Ex. apply index_eq in Ei as [->| ->]; auto. rewrite (wide_neg n); auto. }
    split; [|split; auto].
    + cbn [vt_large set_large]. unfold vget, c. rewrite nth_error_upd_eq by lia. reflexivity.
    + split; auto.
Qed.

(** ** Flips *)
Lemma fF_orbit n s x y z : flat_surface n s -> x < n -> In x [y; fF s y; fF s (fF s y)] -> y < n -> z = fF s x -> In z [y; fF s y; fF s (fF s y)].
Proof. intros S0 Hx X Hy ->. assert (E := wf_triangle _ _ (fs_wf n s S0) y Hy). change (fF s (fF s (fF s y)) = y) in E. cbn [In] in *. destruct X as [<-|[<-|[<-|[]]]]; rewrite ?E; auto. Qed.

Lemma wide_flip n s e s' (v : pt) h : flat_surface n s -> e < n -> fflip s e = (s', Ok tt) -> h < n ->
  (forall x, In x [e; fF s' e; fF s' (fF s' e); fF s' (neg e); fF s' (fF s' (neg e))] -> h <> x /\ h <> neg x) -> (wide s' v h <-> wide s v h).
Proof.
  intros S0 He E Hh N. assert (W := fs_wf n s S0). assert (Hn := neg_ltn n _ W h Hh).
  destruct (flip_facts n s e s' S0 He E) as (a & b & c & d & F1 & F2 & F3 & F4 & F5 & F6 & G1 & G2 & G3 & G4 & G5 & G6 & _ & Ha & Hb & Hc & Hd & Hne & O & _).
  rewrite G5, G2, G6, G3 in N.
  assert (A : forall x, x < n -> ~ In x [e; a; b; neg e; c; d] -> fF s' x = fF s x /\ vv s' x = vv s x /\ ~ In (fF s x) [e; a; b; neg e; c; d]).
  { intros x Hx X. destruct (O x Hx X) as [O1 O2]. split; auto. split; auto. intros Y. apply X. clear - Y F1 F2 F3 F4 F5 F6 W Hx Ha Hb Hc Hd He Hne S0.
    cbn [In] in Y. assert (J : forall p q, p < n -> fF s p = q -> q = fF s x -> p = x). { intros p q Hp P Q. apply (nF_inj n _ W); auto. unfold fF in *. congruence. }
    cbn [In]. destruct Y as [Y|[Y|[Y|[Y|[Y|[Y|[]]]]]]].
    - assert (b = x) by eauto. auto. - assert (e = x) by eauto. auto. - assert (a = x) by eauto. auto 6.
    - assert (d = x) by eauto. auto 8. - assert (neg e = x) by eauto. auto 8. - assert (c = x) by eauto. auto 8. }
  assert (N1 : forall x, In x [e; a; b; c; d] -> h <> x) by (clear - N; intros x X; apply N; cbn [In] in *; tauto).
  assert (N2 : forall x, In x [e; a; b; c; d] -> h <> neg x) by (clear - N; intros x X; apply N; cbn [In] in *; tauto).
  assert (X1 : ~ In h [e; a; b; neg e; c; d]).
  { clear - N1 N2. intros X. cbn [In] in X. destruct X as [X|[X|[X|[X|[X|[X|[]]]]]]]; symmetry in X; revert X; first [apply N1; cbn [In]; tauto | apply N2; cbn [In]; tauto]. }
  assert (X2 : ~ In (neg h) [e; a; b; neg e; c; d]).
  { clear - N1 N2. assert (Q : forall x, x = neg h -> h = neg x) by (intros x ->; now rewrite neg_neg). intros X. cbn [In] in X.
    destruct X as [X|[X|[X|[X|[X|[X|[]]]]]]]; try (apply Q in X; revert X; apply N2; cbn [In]; tauto). apply neg_inj in X. symmetry in X. revert X. apply N1. cbn [In]. tauto. }
  destruct (A h Hh X1) as (P1 & P2 & P3). destruct (A _ Hn X2) as (Q1 & Q2 & Q3).
  destruct (A _ (fF_lt n s h S0 Hh) P3) as (P4 & P5 & P6). destruct (A _ (fF_lt n s _ S0 Hn) Q3) as (Q4 & Q5 & Q6).
  destruct (A _ (fF_lt n s _ S0 (fF_lt n s h S0 Hh)) P6) as (_ & P7 & _). destruct (A _ (fF_lt n s _ S0 (fF_lt n s _ S0 Hn)) Q6) as (_ & Q7 & _).
  unfold wide. rewrite P1, P4, Q1, Q4. unfold rightwards. rewrite P2.
  split; intros B x X; specialize (B x X); cbn [In] in X; destruct X as [<-|[<-|[<-|[<-|[]]]]]; rewrite ?P5, ?P7, ?Q5, ?Q7 in *; auto.
Qed.

Lemma reset_edges_ok n c (P P' : nat -> bool -> Prop) l : good n c P -> (forall x, In x l -> x / 2 < n) ->
  (forall i b, P i b -> (forall x, In x l -> i <> x / 2) -> P' i b) ->
  exists c', fold_left (fun c x => do c <- c; reset_edge c x) l (Ok c) = Ok c' /\ good n c' P'.
Proof.
  intros G Hl Q. revert c P G Q. induction l as [|x l IH]; intros c P G Q; cbn [fold_left].
  - exists c. split; [reflexivity|]. destruct G as [L G]. split; [assumption|]. intros i b E. apply Q; [now apply G|]. intros y [].
  - cbn [bind]. unfold reset_edge at 2. rewrite index_of. assert (L := proj1 G). rewrite vset_Ok by (rewrite L; apply Hl; now left).
    apply (IH (fun y Y => Hl y (or_intror Y)) _ (fun i b => P i b /\ i <> x / 2)).
    + apply (good_upd n _ P); auto. discriminate.
    + intros i b [B1 B2] Y. apply Q; auto. intros y [<-|Iy]; auto.
Qed.

Lemma flip_ok n s v m e : valid n s v m -> e < n ->
  (can_flip n s e -> exists s' m', fflip s e = (s', Ok tt) /\ vertical_flip m e = Ok m' /\ valid n s' v m') /\ (~ can_flip n s e -> vertical_flip m e = Throw).
Proof.
  intros V He. pose proof V as [Es S0 A1 A2 A3 A4 A5 A6 A7 A8]. assert (W := fs_wf n s S0). unfold vertical_flip. rewrite Es. split.
  - intros C. destruct (fflip_Ok n s e S0 He C) as (s' & E & _). rewrite E.
    destruct (fflip_spec n s e s' S0 He E) as (_ & S' & _). assert (W' := fs_wf n s' S'). assert (Hn := neg_ltn n _ W e He).
    assert (U : forall i, i < n -> i <> e -> i <> neg e -> vv s' i = vv s i).
    { destruct (fflip_spec n s e s' S0 He E) as (_ & _ & _ & U & _). intros i Hi N1 N2. unfold vv. now rewrite U. }
    destruct (reset_ok n (fT s) _ e _ (fun h (x : K) => den x = pdot (vden v) (vv s' h)) W A4 He) as (c1 & -> & G1). { intros i x Hi N1 N2. cbv beta. now rewrite U. } cbn [bind].
    destruct (reset_ok n (fT s) _ e _ (fun h (x : K) => den x = rightwards s' (vden v) h) W A5 He) as (c2 & -> & G2). { intros i x Hi N1 N2. cbv beta. unfold rightwards. now rewrite U. } cbn [bind].
    destruct (reset_ok n (fT s) _ e _ (fun h => ccw_at (vden v) s' h) W A6 He) as (c3 & -> & G3). { intros i x Hi N1 N2. unfold ccw_at. now rewrite U. } cbn [bind].
    destruct (reset_ok n (fT s) _ e _ (fun h => orientation_at (vden v) s' h) W A7 He) as (c4 & -> & G4). { intros i x Hi N1 N2. unfold orientation_at. now rewrite U. } cbn [bind].
    set (l := [e; fF s' e; fF s' (fF s' e); fF s' (neg e); fF s' (fF s' (neg e))]).
    destruct (reset_edges_ok (n / 2) (vt_large m) _ (fun i b => forall h, h < n -> h / 2 = i -> (b = true <-> wide s' (vden v) h)) l A8) as (c5 & E5 & G5).
    { intros x X. apply (index_lt n (fT s) x W). unfold l in X. cbn [In] in X. assert (Q := fun h => fF_lt n s' h S'). destruct X as [<-|[<-|[<-|[<-|[<-|[]]]]]]; auto. }
    { intros i b B N h Hh <-. rewrite (B h Hh eq_refl). symmetry. apply (wide_flip n s e); auto. intros x X. specialize (N x X). split; intros F; apply N; apply index_eq; auto. }
    assert (R : reset_large (fT s') (vt_large m) e = Ok c5).
    { rewrite <- E5. unfold reset_large, l. cbn [fold_left bind]. rewrite (next_Ok n), (prev_Ok n), (next_Ok n), (prev_Ok n), !(pF_tri n) by auto. cbn [bind]. fold (fF s' e). change (nF (fT s')) with (fF s').
      destruct (reset_edge (vt_large m) e) as [c| | |]; cbn [bind]; auto. destruct (reset_edge c (fF s' e)) as [c'| | |]; cbn [bind]; auto.
      destruct (reset_edge c' _) as [c''| | |]; cbn [bind]; auto. }
    rewrite R. cbn [bind]. exists s'. eexists. split; auto. split; [reflexivity|]. split; auto.
  - intros C. destruct (fflip_rejected n s e S0 He C) as (s'' & E' & _). rewrite E'. reflexivity.
Qed.

(** ** Faces *)
Section face.
Variables (n : nat) (s : flat K) (v : pt) (h : nat).
Hypothesis S0 : flat_surface n s.
Hypothesis Nv : v <> (0, 0)%R.
Hypothesis Hh : h < n.
Hypothesis Nb : fF s h <> h.
Notation r := (rightwards s v).

Lemma face_facts : fF s h < n /\ fF s (fF s h) < n /\ fF s (fF s (fF s h)) = h /\ fF s (fF s h) <> fF s h /\ h <> fF s (fF s h) /\
  (r h + r (fF s h) + r (fF s (fF s h)) = 0)%R /\ (0 < pdet (vv s h) (vv s (fF s h)))%R /\ (0 < pdet (vv s (fF s h)) (vv s (fF s (fF s h))))%R /\ (0 < pdet (vv s (fF s (fF s h))) (vv s h))%R.
Proof.
  assert (W := fs_wf n s S0). assert (H1 := fF_lt n s h S0 Hh). assert (H2 := fF_lt n s _ S0 H1). assert (E := wf_triangle _ _ W h Hh). change (fF s (fF s (fF s h)) = h) in E.
  split; auto. split; auto. split; auto. split; [intros X; apply Nb; now apply (nF_inj n _ W)|]. split. { intros X. apply Nb. rewrite <- E at 2. now rewrite <- X. }
  destruct (fs_flat n s S0 h Hh Nb) as [C D]. unfold rightwards. destruct (vv s h) as [x0 y0], (vv s (fF s h)) as [x1 y1], (vv s (fF s (fF s h))) as [x2 y2].
  unfold padd, pdet in *. cbn [fst snd] in *. injection C as C1 C2. assert (x2 = - x0 - x1)%R by lra. assert (y2 = - y0 - y1)%R by lra. subst x2 y2. split; [|split; [|split]]; lra || nra.
Qed.
Lemma parallel x : r x = 0%R -> vv s x = pscale (pdot (vv s x) v / pdot v v) v.
Proof.
  unfold rightwards. intros Z. assert (P := pdot_pos v Nv). destruct (vv s x) as [a b], v as [p q]. unfold pdet, pdot, pscale in *. cbn [fst snd] in *.
  assert (E : (a * q = b * p)%R) by lra. apply pt_eq; cbn [fst snd]; apply (Rmult_eq_reg_r (p * p + q * q)); try lra.
  - replace ((a * p + b * q) / (p * p + q * q) * p * (p * p + q * q))%R with ((a * p + b * q) * p)%R by (field; lra).
    replace (a * (p * p + q * q))%R with (a * p * p + (a * q) * q)%R by ring. rewrite E. ring.
  - replace ((a * p + b * q) / (p * p + q * q) * q * (p * p + q * q))%R with ((a * q) * p + b * q * q)%R by (field; lra). rewrite E. ring.
Qed.

Lemma kind_pos c : (0 < r h)%R ->
  match c with
  | RIGHT_VERTICAL => r (fF s h) = 0
  | LEFT_VERTICAL => r (fF s (fF s h)) = 0
  | FORWARD => 0 < r (fF s h) \/ 0 < r (fF s (fF s h))
  | BACKWARD => r (fF s h) < 0 /\ r (fF s (fF s h)) < 0
  | COLLAPSED_TO_TWO_FACES => False
  end%R -> face_kind s v h c.
Proof.
  destruct face_facts as (H1 & H2 & E & _ & _ & Z & D1 & D2 & D3). intros P C. destruct c; cbn [face_kind].
  - exists h. unfold in_face. tauto.
  - destruct C as [C|C].
    + exists (fF s (fF s h)). unfold in_face. rewrite E. split; auto. lra.
    + exists (fF s h). unfold in_face. rewrite E. split; auto. lra.
  - auto.
  - assert (Q := parallel _ C). set (c := (_ / _)%R) in Q. exists (fF s (fF s h)), c. unfold in_face. split; auto. split; auto. rewrite Q in D3.
    unfold rightwards in P. clear - P D3. unfold pdet, pscale in *. cbn [fst snd] in *. nra.
  - assert (Q := parallel _ C). set (c := (_ / _)%R) in Q. exists (fF s h), c. unfold in_face. split; auto. split; auto. rewrite Q in D1.
    unfold rightwards in P. clear - P D1. unfold pdet, pscale in *. cbn [fst snd] in *. nra.
Qed.
Lemma one_vertical x y : in_face s h x -> in_face s h y -> r x = 0%R -> r y = 0%R -> x = y.
Proof.
  intros X Y RX RY. destruct face_facts as (H1 & H2 & E & _ & _ & Z & D1 & D2 & D3). assert (Q : forall a b, r a = 0%R -> r b = 0%R -> pdet (vv s a) (vv s b) = 0%R).
  { intros a b A B. rewrite (parallel a A), (parallel b B). unfold pdet, pscale. cbn [fst snd]. ring. }
  destruct X as [->|[->| ->]], Y as [->|[->| ->]]; auto; exfalso.
  - rewrite (Q _ _ RX RY) in D1. lra. - rewrite (Q _ _ RY RX) in D3. lra. - rewrite (Q _ _ RY RX) in D1. lra.
  - rewrite (Q _ _ RX RY) in D2. lra. - rewrite (Q _ _ RX RY) in D3. lra. - rewrite (Q _ _ RY RX) in D2. lra.
Qed.
Lemma multiple_right x c : vv s x = pscale c v -> r x = 0%R.
Proof. intros E. unfold rightwards. rewrite E. unfold pdet, pscale. cbn [fst snd]. ring. Qed.
Lemma kind_product c : face_kind s v h c -> let p := (r h * r (fF s h) * r (fF s (fF s h)))%R in
  match c with BACKWARD => 0 < p | FORWARD => p < 0 | COLLAPSED_TO_TWO_FACES => False | _ => p = 0 end%R.
Proof.
  destruct face_facts as (H1 & H2 & E & _). cbv zeta.
  assert (Q : forall x, in_face s h x -> (r h * r (fF s h) * r (fF s (fF s h)) = r x * r (fF s x) * r (fF s (fF s x)))%R).
  { intros x [->|[->| ->]]; rewrite ?E; ring. }
  destruct c; cbn [face_kind]; auto.
  - intros (x & I & A & B & C). rewrite (Q x I). clear - A B C. assert (0 < r (fF s x) * r (fF s (fF s x)))%R by nra. nra.
  - intros (x & I & A & B & C). rewrite (Q x I). clear - A B C. assert (0 < r (fF s x) * r (fF s (fF s x)))%R by nra. nra.
  - intros (x & c & I & _ & C). rewrite (Q x I), (multiple_right x c C). ring.
  - intros (x & c & I & _ & C). rewrite (Q x I), (multiple_right x c C). ring.
Qed.
Lemma kind_unique c c' : face_kind s v h c -> face_kind s v h c' -> c = c'.
Proof.
  intros A B. assert (PA := kind_product c A). assert (PB := kind_product c' B). cbv zeta in PA, PB.
  assert (X : forall x y a b, in_face s h x -> in_face s h y -> vv s x = pscale a v -> vv s y = pscale b v -> (0 < a)%R -> (b < 0)%R -> False).
  { intros x y a b I J Ex Ey P Q. assert (x = y) by (apply one_vertical; auto; eapply multiple_right; eauto). subst y. rewrite Ex in Ey. apply Nv. clear - Ey P Q.
    destruct v as [p q]. unfold pscale in Ey. cbn [fst snd] in Ey. injection Ey as E1 E2. apply pt_eq; cbn [fst snd]; nra. }
  destruct c, c'; auto; try contradiction; try lra; exfalso; cbn [face_kind] in A, B; destruct A as (x & a & I & P & Ex), B as (y & b & J & Q & Ey); eauto.
Qed.
Lemma kind_next c : face_kind s v (fF s h) c <-> face_kind s v h c.
Proof.
  destruct face_facts as (_ & _ & E & _). assert (Q : forall x, in_face s (fF s h) x <-> in_face s h x) by (intros x; unfold in_face; rewrite E; tauto).
  destruct c; cbn [face_kind]; try tauto; split; intros (x & A); exists x; [| | | |destruct A as (c & A); exists c|destruct A as (c & A); exists c|destruct A as (c & A); exists c|destruct A as (c & A); exists c];
    destruct A as (A & B); (split; [now apply Q|auto]).
Qed.
End face.

Section classify.
Variables (n : nat) (s : flat K) (v : vec K).
Notation r := (rightwards s (vden v)).
Lemma classify_step k m h : valid n s v m -> h < n -> fF s h <> h ->
  ((0 < r h)%R -> exists c m', classify_face (S k) m h = Ok (c, m') /\ valid n s v m' /\ face_kind s (vden v) h c) /\
  ((r h <= 0)%R -> exists m', classify_face (S k) m h = classify_face k m' (fF s h) /\ valid n s v m').
Proof.
  intros I Hh Nb. assert (S0 := vd_flat _ _ _ _ I). assert (Nv := vd_nonzero _ _ _ _ I). assert (W := fs_wf n s S0).
  destruct (face_facts n s (vden v) h S0 Hh Nb) as (H1 & H2 & E & N1 & _ & Z & _).
  cbn [classify_face]. rewrite (vd_surface _ _ _ _ I). destruct (perpendicular_ok n s v m I h Hh) as (p & m1 & -> & Ep & I1). cbn [bind].
  rewrite (next_Ok n) by auto. cbn [bind]. fold (fF s h). destruct (perpendicular_ok n s v m1 I1 _ H1) as (a & m2 & -> & Ea & I2). cbn [bind].
  rewrite (prev_Ok n), (pF_tri n) by auto. cbn [bind]. change (nF (fT s)) with (fF s). destruct (perpendicular_ok n s v m2 I2 _ H2) as (b & m3 & -> & Eb & I3). cbn [bind].
  destruct (Nat.eqb_spec (fF s h) (fF s (fF s h))) as [X|_]; [congruence|].
  assert (C : forall x : K, (if reqb x (0)%X then den x = 0%R else den x <> 0%R)).
  { intros x. destruct (reqb x (0)%X) eqn:Q; [apply reqb_spec in Q; now rewrite den_ofZ in Q|]. intros F. assert (reqb x (0)%X = true) by (apply reqb_spec; now rewrite den_ofZ). congruence. }
  assert (D : forall x : K, (if rltb (0)%X x then 0 < den x else den x <= 0)%R).
  { intros x. destruct (rltb (0)%X x) eqn:Q; [apply rltb_spec in Q; now rewrite den_ofZ in Q|]. apply Rnot_lt_le. intros F. assert (rltb (0)%X x = true) by (apply rltb_spec; now rewrite den_ofZ). congruence. }
  assert (D' : forall x : K, (if rltb x (0)%X then den x < 0 else 0 <= den x)%R).
  { intros x. destruct (rltb x (0)%X) eqn:Q; [apply rltb_spec in Q; now rewrite den_ofZ in Q|]. apply Rnot_lt_le. intros F. assert (rltb x (0)%X = true) by (apply rltb_spec; now rewrite den_ofZ). congruence. }
  assert (Cp := C p). assert (Ca := C a). assert (Cb := C b). assert (Da := D a). assert (Db := D b). assert (Dp := D' p). clear C D D'. rewrite Ep, Ea, Eb in *. split; intros P.
  - destruct (reqb p (0)%X); [lra|]. destruct (rltb p (0)%X); [lra|].
    destruct (reqb a (0)%X). { eexists _, m3. split; [reflexivity|]. split; auto. now apply (kind_pos n). }
    destruct (reqb b (0)%X). { eexists _, m3. split; [reflexivity|]. split; auto. now apply (kind_pos n). }
    destruct (rltb (0)%X a). { eexists _, m3. split; [reflexivity|]. split; auto. apply (kind_pos n); auto. }
    destruct (rltb (0)%X b). { eexists _, m3. split; [reflexivity|]. split; auto. apply (kind_pos n); auto. }
    eexists _, m3. split; [reflexivity|]. split; auto. apply (kind_pos n); auto. lra.
  - exists m3. split; auto. destruct (reqb p (0)%X); auto. destruct (rltb p (0)%X); auto. lra.
Qed.
Lemma classify_ok k m h : valid n s v m -> h < n -> fF s h <> h ->
  exists c m', classify_face (3 + k) m h = Ok (c, m') /\ valid n s v m' /\ face_kind s (vden v) h c.
Proof.
  intros I Hh Nb. assert (S0 := vd_flat _ _ _ _ I). assert (Nv := vd_nonzero _ _ _ _ I). destruct (face_facts n s (vden v) h S0 Hh Nb) as (H1 & H2 & E & N1 & N2 & Z & D1 & D2 & D3).
  change (3 + k) with (S (S (S k))). destruct (Rlt_le_dec 0 (r h)) as [P|P]; [now apply (classify_step _ m h)|].
  destruct (proj2 (classify_step (S (S k)) m h I Hh Nb) P) as (m1 & -> & I1). destruct (Rlt_le_dec 0 (r (fF s h))) as [P1|P1].
  { destruct (proj1 (classify_step (S k) m1 _ I1 H1 N1) P1) as (c & m2 & -> & I2 & Q). exists c, m2. split; auto. split; auto. now apply (kind_next n s (vden v) h). }
  destruct (proj2 (classify_step (S k) m1 _ I1 H1 N1) P1) as (m2 & -> & I2).
  assert (N3 : fF s (fF s (fF s h)) <> fF s (fF s h)) by congruence.
  assert (P2 : (0 < r (fF s (fF s h)))%R).
  { destruct (Rlt_le_dec 0 (r (fF s (fF s h)))) as [|Q]; auto. exfalso. apply Nb. apply (one_vertical n s (vden v) h); unfold in_face; auto; lra. }
  destruct (proj1 (classify_step k m2 _ I2 H2 N3) P2) as (c & m3 & -> & I3 & Q). exists c, m3. split; auto. split; auto.
  apply (kind_next n s (vden v) h); auto. now apply (kind_next n s (vden v) (fF s h)).
Qed.
(** Any answer of [classifyFace] leaves the caches valid. *)
Lemma classify_valid k : forall m h c m', valid n s v m -> h < n -> classify_face k m h = Ok (c, m') -> valid n s v m'.
Proof.
  induction k as [|k IH]; intros m h c m' I Hh; [discriminate|]. assert (S0 := vd_flat _ _ _ _ I). assert (W := fs_wf n s S0). assert (H1 := fF_lt n s h S0 Hh). assert (H2 := fF_lt n s _ S0 H1).
  cbn [classify_face]. rewrite (vd_surface _ _ _ _ I). destruct (perpendicular_ok n s v m I h Hh) as (p & m1 & -> & Ep & I1). cbn [bind].
  rewrite (next_Ok n) by auto. cbn [bind]. fold (fF s h). destruct (perpendicular_ok n s v m1 I1 _ H1) as (a & m2 & -> & Ea & I2). cbn [bind].
  rewrite (prev_Ok n), (pF_tri n) by auto. cbn [bind]. change (nF (fT s)) with (fF s). destruct (perpendicular_ok n s v m2 I2 _ H2) as (b & m3 & -> & Eb & I3). cbn [bind].
  repeat match goal with |- (if ?x then _ else _) = _ -> _ => destruct x end; intros E; try (inv E; auto; fail); eauto.
Qed.
(** A boundary is reported as collapsed. *)
Lemma classify_boundary k m h : valid n s v m -> h < n -> fF s h = h -> exists m', classify_face (S k) m h = Ok (COLLAPSED_TO_TWO_FACES, m') /\ valid n s v m'.
Proof.
  intros I Hh B. assert (S0 := vd_flat _ _ _ _ I). assert (W := fs_wf n s S0).
  cbn [classify_face]. rewrite (vd_surface _ _ _ _ I). destruct (perpendicular_ok n s v m I h Hh) as (p & m1 & -> & Ep & I1). cbn [bind].
  rewrite (next_Ok n) by auto. cbn [bind]. fold (fF s h). rewrite B. destruct (perpendicular_ok n s v m1 I1 _ Hh) as (a & m2 & -> & Ea & I2). cbn [bind].
  rewrite (prev_Ok n), (pF_tri n) by auto. cbn [bind]. change (nF (fT s)) with (fF s). rewrite !B. destruct (perpendicular_ok n s v m2 I2 _ Hh) as (b & m3 & -> & Eb & I3). cbn [bind].
  rewrite Nat.eqb_refl. eauto.
Qed.
End classify.
End state.
