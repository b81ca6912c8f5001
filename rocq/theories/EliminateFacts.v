(** * The choice of a marked point, and its removal *)
From Coq Require Import ZArith QArith Qreals Reals List Arith Bool Lia Lra Psatz Permutation.
From Verif Require Import Base HalfEdge HalfEdgeFacts Perm PermSpec PermFacts PermCycles PermLemmas IndexedSet IndexedSetFacts Combinatorial CombinatorialSpec
  CombinatorialFacts CombinatorialFlip CombinatorialHistory CombinatorialOps Tracked ExactReal Vector PlaneSpec Plane VectorFacts Arb ArbFacts Quadratic QuadraticSpec QuadraticFacts
  FlatTri FlatSpec FlatFacts FlatSum FlatLinear FlatOps FlatAngle FlatSector FlatDelaunay Collapse Shift ShiftSpec ShiftFacts ShiftRun ShiftInvariants ShiftAngle
  CollapseSpec CollapseMotionSpec CollapseFacts CollapseRun CollapseVertices CollapseShift CollapseFlips CollapseCount CollapseAngle Eliminate EliminateSpec EliminateMotion.
Import ListNotations.
Local Open Scope R_scope.

Section choice.
Context {K : ExactReal}.
Variables (n : nat) (s : flat K).
Hypothesis S : flat_surface n s.
Hypothesis C : closed_surface n s.
Local Notation t := (fT s).
Let W : well_formed n t := fs_wf n s S.

Lemma source_Ok h : (h < n)%nat -> exists v, vertex_source t h = Ok v /\ In v (tverts t) /\ scontains v h = true.
Proof. intros H. destruct (vertex_source_Ok n t h W H) as (v & E & I & Q). exists v. split; auto. split; auto. apply Q. split; auto. now exists 0%nat. Qed.
Lemma eqb_in v w : In v (tverts t) -> In w (tverts t) -> reflect (v = w) (vertex_eqb v w).
Proof.
  intros I J. unfold vertex_eqb. destruct (Nat.eqb_spec (sbegin v) (sbegin w)) as [E|E]; constructor; [|intros ->; now apply E].
  destruct (first_sbegin n s v S I) as [_ Cv]. destruct (first_sbegin n s w S J) as [_ Cw]. rewrite <- E in Cw. now apply (vertex_unique n s v w (sbegin v)).
Qed.
Lemma removable_at v h : In v (tverts t) -> scontains v h = true -> angle s v = Ok 1%nat -> forall w, In w (tverts t) -> scontains w (neg h) = true -> (removable n s h <-> w <> v).
Proof.
  intros I Q A w J Qw. assert (H := vertex_lt n s v h S I Q). assert (Hn := neg_ltn n t W h H). split.
  - intros (_ & _ & D) ->. apply D. apply (vertex_same n s v h (neg h) S I Q) in Qw. tauto.
  - intros N. split; auto. split; [exists v; auto|]. intros D. apply N. apply (vertex_unique n s w v (neg h) S); auto. apply (vertex_same n s v h (neg h) S I Q). auto.
Qed.
Local Notation size2 := (EliminateSpec.size2 s).
(** [e] is the shortest of the half edges at its source along which it can be moved. *)
Local Notation shortest := (EliminateSpec.shortest n s).
Definition chosen (c : option nat) : Prop := match c with Some e => shortest e | None => True end.

Lemma choose_edge_Ok v hes : In v (tverts t) -> angle s v = Ok 1%nat -> (forall h, In h hes -> scontains v h = true) -> forall c, (forall e, c = Some e -> (e < n)%nat) ->
  exists c', choose_edge s v c hes = Ok c' /\
    (c' = None -> c = None /\ forall h, In h hes -> ~ removable n s h) /\
    (forall e, c' = Some e -> (c = Some e \/ (In e hes /\ removable n s e)) /\ (forall h, In h hes -> removable n s h -> size2 e <= size2 h) /\ forall e', c = Some e' -> size2 e <= size2 e').
Proof.
  intros I A. induction hes as [|h r IH]; intros Hh c Hc; cbn [choose_edge].
  - exists c. split; auto. split; [intros ->; auto|]. intros e ->. split; auto. split; [intros h []|]. intros e' Q. injection Q as ->. lra.
  - assert (Qh : scontains v h = true) by auto with datatypes. assert (H := vertex_lt n s v h S I Qh). assert (Hn := neg_ltn n t W h H).
    destruct (source_Ok (neg h) Hn) as (w & Ew & J & Qw). unfold vertex_target. rewrite Ew. cbn [bind]. assert (Rm := removable_at v h I Qh A w J Qw).
    assert (Hr : forall h, In h r -> scontains v h = true) by auto with datatypes.
    destruct (eqb_in w v J I) as [E|E]; cbn [negb].
    + destruct (IH Hr c Hc) as (c' & -> & Q1 & Q2). exists c'. split; auto. split.
      * intros Z. destruct (Q1 Z) as (Z1 & Z2). split; auto. intros g [<-|G]; auto. rewrite Rm. auto.
      * intros e Z. destruct (Q2 e Z) as (Z1 & Z2 & Z3). split; [destruct Z1 as [Z1|(Z1 & Z1')]; auto; right; split; auto; now right|]. split; auto. intros g [<-|G] Rg; auto. apply Rm in Rg. contradiction.
    + assert (Rh : removable n s h) by now apply Rm.
      destruct c as [c|].
      * assert (Hc' := Hc c eq_refl). rewrite !from_he_Ok by (now rewrite (fs_length n s S)). cbn [bind].
        assert (Er : rltb (vdot (vat' s c) (vat' s c)) (vdot (vat' s h) (vat' s h)) = if Rlt_dec (size2 c) (size2 h) then true else false).
        { destruct (rltb_reflect (vdot (vat' s c) (vat' s c)) (vdot (vat' s h) (vat' s h))) as [Q|Q]; rewrite !den_dot in Q; change (vden (vat' s c)) with (vv s c) in Q; change (vden (vat' s h)) with (vv s h) in Q; unfold size2;
          destruct (Rlt_dec (pdot (vv s c) (vv s c)) (pdot (vv s h) (vv s h))); auto; contradiction. }
        rewrite Er. destruct (Rlt_dec (size2 c) (size2 h)) as [L|L].
        -- destruct (IH Hr (Some c) Hc) as (c' & -> & Q1 & Q2). exists c'. split; auto. split; [intros Z; destruct (Q1 Z); discriminate|].
           intros e Z. destruct (Q2 e Z) as (Z1 & Z2 & Z3). split; [destruct Z1 as [Z1|(Z1 & Z1')]; auto; right; split; auto; now right|]. split; auto. intros g [<-|G] Rg; auto. specialize (Z3 c eq_refl). lra.
        -- destruct (IH Hr (Some h) ltac:(intros e Q; injection Q as <-; auto)) as (c' & -> & Q1 & Q2). exists c'. split; auto. split; [intros Z; destruct (Q1 Z); discriminate|].
           intros e Z. destruct (Q2 e Z) as (Z1 & Z2 & Z3). split; [destruct Z1 as [Z1|(Z1 & Z1')]; [injection Z1 as <-; right; split; auto; now left|right; split; auto; now right]|].
           split; [intros g [<-|G] Rg; auto|]. intros e' Q. injection Q as <-. specialize (Z3 h eq_refl). lra.
      * cbn [bind]. destruct (IH Hr (Some h) ltac:(intros e Q; injection Q as <-; auto)) as (c' & -> & Q1 & Q2). exists c'. split; auto. split; [intros Z; destruct (Q1 Z); discriminate|].
        intros e Z. destruct (Q2 e Z) as (Z1 & Z2 & Z3). split; [destruct Z1 as [Z1|(Z1 & Z1')]; [injection Z1 as <-; right; split; auto; now left|right; split; auto; now right]|].
        split; [intros g [<-|G] Rg; auto|]. intros e' Q. discriminate.
Qed.

Lemma choose_Ok vs : (forall v, In v vs -> In v (tverts t)) -> forall c, chosen c ->
  exists c', choose s vs c = Ok c' /\ chosen c' /\ (c' = None -> c = None /\ forall v h, In v vs -> scontains v h = true -> ~ removable n s h).
Proof.
  induction vs as [|v r IH]; intros Hv c Ch; cbn [choose].
  - exists c. repeat split; auto.
  - assert (I : In v (tverts t)) by auto with datatypes. assert (Hr : forall v, In v r -> In v (tverts t)) by auto with datatypes.
    assert (In1 : inner_vertex s v) by (intros x Q; exact (C x (vertex_lt n s v x S I Q))). destruct (corners_exist n s v S I In1) as (al & Al).
    destruct (angle_total n s v al S I In1 Al) as (k & A & _). rewrite A. cbn [bind]. destruct (Nat.eqb_spec k 1) as [->|Nk].
    + assert (Skip : c <> None -> choose s r c = choose s r c -> exists c', choose s r c = Ok c' /\ chosen c' /\ (c' = None -> c = None /\ forall v0 h, In v0 (v :: r) -> scontains v0 h = true -> ~ removable n s h)).
      { intros Nc _. destruct (IH Hr c Ch) as (c' & E & Q1 & Q2). exists c'. split; auto. split; auto. intros Z. destruct (Q2 Z) as (Z1 & _). contradiction. }
      destruct (vertex_orbit n s S v I) as (l & Ea & _ & Il).
      assert (Go : exists c', (do hes <- at_vertex t v; do collapse <- choose_edge s v c hes; choose s r collapse) = Ok c' /\ chosen c' /\ (c' = None -> c = None /\ forall v0 h, In v0 (v :: r) -> scontains v0 h = true -> ~ removable n s h)).
      { rewrite Ea. cbn [bind]. destruct (choose_edge_Ok v (orbit_list (fV s) (sbegin v) l) I A) with (c := c) as (c1 & E1 & Q1 & Q2); [intros h Q; now apply Il|intros e ->; apply Ch|].
        rewrite E1. cbn [bind].
        assert (Ch1 : chosen c1).
        { destruct c1 as [e|]; cbn; auto. destruct (Q2 e eq_refl) as ([Z1|(Z1 & Z1')] & Z2 & _); [rewrite Z1 in Ch; exact Ch|]. split; auto. intros g G Rg. apply Z2; auto. apply Il. apply Il in Z1 as (He & Ce).
          split; [apply Rg|]. apply (vertex_same n s v e g S I Ce). split; auto. split; auto. apply Rg. }
        destruct (IH Hr c1 Ch1) as (c' & E & Q3 & Q4). exists c'. split; auto. split; auto. intros Z. destruct (Q4 Z) as (Z1 & Z2). destruct (Q1 Z1) as (Z3 & Z4). split; auto.
        intros v0 h [<-|J] Qh; [|now apply (Z2 v0)]. apply Z4. apply Il. split; auto. apply (vertex_lt n s v h S I Qh). }
      destruct c as [e|]; [|exact Go]. destruct (source_Ok e) as (w & Ew & _); [apply Ch|]. rewrite Ew. cbn [bind]. destruct (ssize w <? ssize v)%nat; [|exact Go]. apply Skip; auto. discriminate.
    + destruct (IH Hr c Ch) as (c' & E & Q1 & Q2). exists c'. split; auto. split; auto. intros Z. destruct (Q2 Z) as (Z1 & Z2). split; auto.
      intros v0 h [<-|J] Qh; [|now apply (Z2 v0)]. intros (_ & (w & J & Qw & Aw) & _). assert (w = v) by (now apply (vertex_unique n s w v h)). subst w. congruence.
Qed.

Lemma choice : exists c, choose s (tverts t) None = Ok c /\ match c with Some e => shortest e | None => forall e, ~ removable n s e end.
Proof.
  destruct (choose_Ok (tverts t)) with (c := @None nat) as (c & E & Ch & Q); cbn; auto. exists c. split; auto. destruct c as [e|]; auto.
  intros e Re. destruct (Q eq_refl) as (_ & Z). destruct Re as (He & (v & I & Cv & A) & D). apply (Z v e I Cv). split; auto. split; auto. exists v. auto.
Qed.

(** ** The shift *)
Lemma shift_into e : removable n s e -> exists d, collapse_shift s e = Ok d /\ shift_of n s d /\ moves_into n s d e.
Proof.
  intros Re. pose proof Re as (He & (v & I & Cv & A) & D). assert (Hn := neg_ltn n t W e He). destruct (source_Ok e He) as (v' & Ev & I' & Cv'). assert (v' = v) by (now apply (vertex_unique n s v' v e)). subst v'.
  unfold collapse_shift. rewrite Ev. cbn [bind]. assert (Eseq : half_edges t = seq 0 n) by (unfold half_edges; now rewrite (wf_size n _ W)). rewrite Eseq.
  set (k := fun h => (if scontains v h && scontains v (neg h) then vzero else if scontains v h then vneg (vat' s e) else if scontains v (neg h) then vat' s e else vzero)).
  rewrite (omap_map _ k).
  2: { intros h Q. apply in_seq in Q as (_ & H). cbn in H. assert (Hh := neg_ltn n t W h H). destruct (source_Ok h H) as (a & Ea & Ia & Ca). destruct (source_Ok (neg h) Hh) as (b & Eb & Ib & Cb).
       unfold vertex_target. rewrite Ea, Eb. cbn [bind]. rewrite from_he_Ok by (now rewrite (fs_length n s S)). cbn [bind]. unfold k.
       assert (X : forall w g, In w (tverts t) -> scontains w g = true -> vertex_eqb w v = scontains v g).
       { intros w g Iw Cw. destruct (eqb_in w v Iw I) as [->|N]; auto. destruct (scontains v g) eqn:Q; auto. exfalso. apply N. now apply (vertex_unique n s w v g). }
       rewrite (X a h Ia Ca), (X b (neg h) Ib Cb). reflexivity. }
  eexists. split; [reflexivity|].
  assert (E : forall h, (h < n)%nat -> dd (map k (seq 0 n)) h = pscale (starts v (neg h) - starts v h) (vv s e)).
  { intros h H. rewrite (dd_map n) by auto. unfold k, starts. change (vv s e) with (vden (vat' s e)).
    destruct (scontains v h), (scontains v (neg h)); cbn [andb]; rewrite ?vden_zero, ?vden_neg; destruct (vden (vat' s e)); unfold pscale, pneg; cbn; f_equal; ring. }
  split.
  - split; [now rewrite map_length, seq_length|]. split.
    + intros h H. assert (Hh := neg_ltn n t W h H). rewrite !E, neg_neg by auto. destruct (vv s e); unfold pscale, pneg; cbn; f_equal; ring.
    + intros h H. assert (H1 := fF_lt n s h S H). assert (H2 := fF_lt n s _ S H1). rewrite !E by auto. rewrite !(starts_next n s v) by auto. rewrite (fF3 n s h S H).
      destruct (vv s e); unfold pscale, padd; cbn; f_equal; ring.
  - split; auto. exists v. split; auto. split; auto. split; [|auto]. destruct (scontains v (neg e)) eqn:Q; auto. exfalso. apply D. apply (vertex_same n s v e (neg e) S I Cv) in Q. tauto.
Qed.

Local Notation touching := (EliminateSpec.touching s).
Lemma touches_Ok e v : (e < n)%nat -> vertex_source t e = Ok v -> exists l, omap (touches s v) (half_edges t) = Ok l /\ (forallb (fun b => b) l = true <-> forall h, (h < n)%nat -> touching e h).
Proof.
  intros He Ev. destruct (source_Ok e He) as (v' & Ev' & I & Cv). assert (v' = v) by congruence. subst v'.
  assert (Eseq : half_edges t = seq 0 n) by (unfold half_edges; now rewrite (wf_size n _ W)). rewrite Eseq.
  rewrite (omap_map _ (fun h => scontains v h || scontains v (neg h))).
  2: { intros h Q. apply in_seq in Q as (_ & H). cbn in H. assert (Hh := neg_ltn n t W h H). destruct (source_Ok h H) as (a & Ea & Ia & Ca). destruct (source_Ok (neg h) Hh) as (b & Eb & Ib & Cb).
       unfold touches, vertex_target. rewrite Ea, Eb. cbn [bind].
       assert (X : forall w g, In w (tverts t) -> scontains w g = true -> vertex_eqb w v = scontains v g).
       { intros w g Iw Cw. destruct (eqb_in w v Iw I) as [->|N]; auto. destruct (scontains v g) eqn:Q; auto. exfalso. apply N. now apply (vertex_unique n s w v g). }
       rewrite (X a h Ia Ca), (X b (neg h) Ib Cb). destruct (scontains v h); reflexivity. }
  eexists. split; [reflexivity|]. rewrite forallb_forall. split.
  - intros Q h H. assert (Z := Q _ (in_map _ _ h (proj2 (in_seq n 0 h) ltac:(lia)))). cbn in Z. apply orb_true_iff in Z as [Z|Z]; [left|right]; apply (vertex_same n s v e _ S I Cv) in Z; tauto.
  - intros Q b Z. apply in_map_iff in Z as (h & <- & Z). apply in_seq in Z as (_ & H). cbn in H. assert (Hh := neg_ltn n t W h H). apply orb_true_iff. destruct (Q h H); [left|right]; apply (vertex_same n s v e _ S I Cv); auto.
Qed.
End choice.

Section eliminate.
Context {K : ExactReal}.
Variable o : solver K.
Variable approx : Z -> K -> ball.
Variable ops : Z -> ArbOps.
Variable quot : K -> Z -> K.
Hypothesis So : sound o.
Hypothesis Ap : approximates approx.
Hypothesis Di : divides quot.
Implicit Types s u : flat K.

(** ** One step *)
Lemma removes n s e fuel : flat_surface n s -> closed_surface n s -> removable n s e -> exists d, collapse_shift s e = Ok d /\ safe (removed n s e) (shift_add o approx ops quot fuel s d).
Proof.
  intros S C Re. destruct (shift_into n s S C e Re) as (d & E & Sh & J). exists d. split; auto.
  eapply safe_weaken; [apply (collapse_shift_run o approx ops quot n falling So (falling_reliable o So) Ap Di (edge_at e) fuel s d S C Sh (into_fine n s d e S C Sh J))|].
  intros u (s' & d' & D1 & _ & D2). split; auto. exists d, s', d'. split; auto. split; auto. split; auto. split; auto.
  assert (Em : edge_at e = e \/ edge_at e = neg e) by (unfold edge_at; destruct (Nat.even e); auto). eapply (into_stays n s d e (edge_at e)); eauto.
Qed.
Lemma removed_good n s e u : removed n s e u -> flat_surface (n - 6) u /\ closed_surface (n - 6) u.
Proof. intros (_ & d & s' & d' & _ & _ & _ & _ & _ & A & B & _). auto. Qed.
Lemma angle_unique n s h a b : flat_surface n s -> angle_at s h a -> angle_at s h b -> a = b.
Proof. intros S (v & I & Cv & A) (w & J & Cw & B). assert (v = w) by (now apply (vertex_unique n s v w h)). congruence. Qed.
Lemma removed_angles n s e u : flat_surface n s -> closed_surface n s -> removed n s e u -> Permutation (angle_list s) (Ok 1%nat :: angle_list u).
Proof.
  intros S C (Re & d & s' & d' & Sh & J & D & J' & Ct). destruct (deforms_good n s d S C Sh s' d' (without_deforms _ _ _ _ _ _ D)) as (S' & C' & Sh').
  assert (Pa := deforms_angles n s d S C Sh s' d' (without_deforms _ _ _ _ _ _ D)). change (Permutation (angle_list s') (angle_list s)) in Pa. rewrite <- Pa.
  pose proof J' as (He & v & I & Cv & Cn & A & _). assert (Hn := neg_ltn n _ (fs_wf n s' S') e He).
  assert (Df : ~ same_vertex (fT s') e (neg e)). { intros Q. assert (scontains v (neg e) = true) by (apply (vertex_same n s' v e (neg e) S' I Cv); auto). congruence. }
  assert (Df' : ~ same_vertex (fT s') (neg e) e) by (intros Q; apply Df; apply (same_vertex_sym n _ _ _ (fs_wf n s' S')); auto).
  assert (An : angle_at s' e 1) by (exists v; auto). assert (En := into_ends n s' d' e S' C' Sh' J').
  assert (Em : edge_at e = e \/ edge_at e = neg e) by (unfold edge_at; destruct (Nat.even e); auto).
  assert (Dm : ~ same_vertex (fT s') (edge_at e) (neg (edge_at e))) by (destruct Em as [->| ->]; rewrite ?neg_neg; auto).
  destruct (collapsed_angles n s' d' (edge_at e) u S' C' Sh' En Ct Dm) as (a & b & rest & Aa & Ab & P1 & P2). rewrite P1, P2. destruct Em as [Q|Q]; rewrite Q in *; rewrite ?neg_neg in *.
  - rewrite (angle_unique n s' e a 1 S' Aa An). replace (1 + b - 1)%nat with b by lia. reflexivity.
  - rewrite (angle_unique n s' e b 1 S' Ab An). replace (a + 1 - 1)%nat with a by lia. apply perm_swap.
Qed.

(** ** All steps *)
Lemma eliminated_cons n s e u1 : removed n s e u1 -> forall k u, eliminated (n - 6) u1 k u -> eliminated n s (S k) u.
Proof.
  intros R k u. induction 1 as [|k u e' u' E IH Q].
  - eapply eliminated_one; [apply eliminated_none|]. rewrite Nat.mul_0_r, Nat.sub_0_r. exact R.
  - eapply eliminated_one; [exact IH|]. replace (n - 6 * S k)%nat with (n - 6 - 6 * k)%nat by lia. exact Q.
Qed.
Lemma eliminated_good n s k u : flat_surface n s -> closed_surface n s -> eliminated n s k u -> flat_surface (n - 6 * k) u /\ closed_surface (n - 6 * k) u.
Proof.
  intros S C. induction 1 as [|k u e' u' E IH Q]; [now rewrite Nat.mul_0_r, Nat.sub_0_r|]. replace (n - 6 * Datatypes.S k)%nat with (n - 6 * k - 6)%nat by lia. eapply removed_good; eauto.
Qed.
Lemma eliminated_angles n s k u : flat_surface n s -> closed_surface n s -> eliminated n s k u -> Permutation (angle_list s) (repeat (Ok 1%nat) k ++ angle_list u).
Proof.
  intros S C. induction 1 as [|k u e' u' E IH Q]; [reflexivity|]. rewrite IH. destruct (eliminated_good n s k u S C E) as (Su & Cu). rewrite (removed_angles _ u e' u' Su Cu Q).
  cbn [repeat]. symmetry. apply Permutation_middle.
Qed.

Lemma eliminate_run levels fuel : forall n s, flat_surface n s -> closed_surface n s ->
  match eliminate o approx ops quot levels fuel s with
  | Ok u => exists k, eliminated n s k u /\ forall e, ~ removable (n - 6 * k) u e
  | Throw => exists k u, eliminated n s k u /\ stuck (n - 6 * k) u
  | UB => False
  | OutOfFuel => True
  end.
Proof.
  induction levels as [|k IH]; intros n s S C; cbn [eliminate]; [exact I|]. destruct (choice n s S C) as (c & -> & Ch). cbn [bind]. destruct c as [e|].
  2: { exists 0%nat. rewrite Nat.mul_0_r, Nat.sub_0_r. split; [apply eliminated_none|auto]. }
  destruct Ch as (Re & _). pose proof Re as (He & _). destruct (source_Ok n s S e He) as (v & Ev & _). rewrite Ev. cbn [bind]. destruct (removes n s e fuel S C Re) as (d & -> & Sf). cbn [bind].
  destruct (shift_add o approx ops quot fuel s d) as [u1| | |]; cbn in Sf; try contradiction; [|exact I]. cbn [bind]. destruct (touches_Ok n s S e v He Ev) as (l & -> & T). cbn [bind].
  destruct (forallb (fun b => b) l).
  - exists 0%nat, s. rewrite Nat.mul_0_r, Nat.sub_0_r. split; [apply eliminated_none|]. exists e. split; auto. now apply T.
  - destruct (removed_good n s e u1 Sf) as (S1 & C1). specialize (IH (n - 6)%nat u1 S1 C1). destruct (eliminate o approx ops quot k fuel u1); auto.
    + destruct IH as (j & E & Q). exists (Datatypes.S j). split; [eapply eliminated_cons; eauto|]. now replace (n - 6 * Datatypes.S j)%nat with (n - 6 - 6 * j)%nat by lia.
    + destruct IH as (j & u & E & Q). exists (Datatypes.S j), u. split; [eapply eliminated_cons; eauto|]. now replace (n - 6 * Datatypes.S j)%nat with (n - 6 - 6 * j)%nat by lia.
Qed.

(** Each step removes six of the half edges. *)
Lemma removable_size n s e : flat_surface n s -> closed_surface n s -> removable n s e -> (6 <= n)%nat.
Proof.
  intros S C (He & _ & D). assert (Fi := ends_collapsible n s e S C He D). set (t := fT s) in *. assert (W : well_formed n t) by apply S.
  assert (Hn := neg_ltn n t W e He). assert (Hx := nF_lt n t W e He). assert (Hc := nF_lt n t W _ Hn). assert (Hq := nF_lt n t W _ Hc).
  assert (N := six t e Fi). assert (Hx' := neg_ltn n t W _ Hx). assert (Hq' := neg_ltn n t W _ Hq).
  assert (L := NoDup_incl_length N (l' := seq 0 n)). rewrite seq_length in L. apply L.
  intros h [<-|[<-|[<-|[<-|[<-|[<-|[]]]]]]]; apply in_seq; split; try lia; assumption.
Qed.
Lemma eliminate_levels levels fuel : forall n s, flat_surface n s -> closed_surface n s -> (n < 6 * levels)%nat -> eliminate o approx ops quot (S levels) fuel s = eliminate o approx ops quot levels fuel s.
Proof.
  induction levels as [|k IH]; intros n s S C L; [lia|]. cbn [eliminate]. destruct (choice n s S C) as (c & -> & Ch). cbn [bind]. destruct c as [e|]; auto.
  destruct Ch as (Re & _). pose proof Re as (He & _). destruct (source_Ok n s S e He) as (v & Ev & _). rewrite Ev. cbn [bind]. destruct (removes n s e fuel S C Re) as (d & -> & Sf). cbn [bind].
  destruct (shift_add o approx ops quot fuel s d) as [u1| | |]; auto. cbn [bind]. destruct (touches_Ok n s S e v He Ev) as (l & -> & T). cbn [bind]. destruct (forallb (fun b => b) l); auto.
  destruct (removed_good n s e u1 Sf) as (S1 & C1). assert (N := removable_size n s e S C Re). apply (IH (n - 6)%nat u1 S1 C1). lia.
Qed.
End eliminate.
