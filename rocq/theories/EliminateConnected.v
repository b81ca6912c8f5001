(** * What is left once all marked points have been eliminated *)
From Coq Require Import ZArith Reals List Arith Bool Lia Lra Permutation.
From Verif Require Import Base HalfEdge HalfEdgeFacts Perm PermSpec PermFacts PermCycles PermLemmas IndexedSet IndexedSetFacts Combinatorial CombinatorialSpec
  CombinatorialFacts CombinatorialHistory ExactReal Vector PlaneSpec
  FlatTri FlatSpec FlatFacts FlatSum FlatLinear FlatAngle FlatSector Shift ShiftSpec ShiftFacts ShiftRun ShiftInvariants ShiftAngle EquivalenceSpec
  CollapseSpec CollapseMotionSpec CollapseFacts CollapseVertices CollapseShift CollapseFlips CollapseCount CollapseAngle Eliminate EliminateSpec EliminateMotion EliminateFacts.
Import ListNotations.

Section connected.
Context {K : ExactReal}.
Implicit Types s u : flat K.

Lemma next_vertex n s h : flat_surface n s -> closed_surface n s -> h < n -> same_vertex (fT s) (fF s h) (neg h).
Proof. intros S C H. assert (H1 := fF_lt n s h S H). exists 1. change (fV s (fF s h) = neg h). rewrite (fV_eq n s _ S H1 (C _ H1)). now rewrite (fF3 n s h S H). Qed.
(** A set of half edges of a connected surface that is closed under going around vertices and across edges. *)
Lemma connected_vertices n s (P : nat -> Prop) : flat_surface n s -> closed_surface n s -> connected n s -> (exists x, x < n /\ P x) ->
  (forall x, x < n -> P x -> P (neg x)) -> (forall x y, x < n -> same_vertex (fT s) x y -> P x -> P y) -> forall x, x < n -> P x.
Proof.
  intros S C Cn Ex Ne Ve. apply (Cn P); auto. intros x H Px. split; auto. assert (Hn := neg_ltn n _ (fs_wf n s S) x H). apply (Ve (neg x)); auto.
  apply (same_vertex_sym n _ _ _ (fs_wf n s S)); [now apply (fF_lt n s)|]. now apply (next_vertex n).
Qed.
(** Conversely, a set closed under going around triangles and across edges is closed under going around vertices. *)
Lemma vertex_closed n s (P : nat -> Prop) x y : flat_surface n s -> closed_surface n s -> (forall x, x < n -> P x -> P (neg x) /\ P (fF s x)) -> x < n -> same_vertex (fT s) x y -> P x -> P y.
Proof.
  intros S C Cl H (k & <-) Px. assert (G : Nat.iter k (nV (fT s)) x < n /\ P (Nat.iter k (nV (fT s)) x)); [|apply G]. induction k as [|k (IH1 & IH2)]; auto.
  set (z := Nat.iter k (nV (fT s)) x) in *. change (nV (fT s) z < n /\ P (nV (fT s) z)). change (nV (fT s) z) with (fV s z). split; [now apply (fV_lt n)|].
  assert (H1 := fF_lt n s z S IH1). assert (H2 := fF_lt n s _ S H1). rewrite (fV_eq n s z S IH1 (C z IH1)). apply Cl; auto. apply Cl; auto. apply Cl; auto.
Qed.

Lemma moved_connected n s1 d1 c s2 d2 : moved_to n s1 d1 c s2 d2 -> connected n s1 -> connected n s2.
Proof. intros (_ & _ & M) Cn P Ex Cl. apply (Cn P); auto. intros x H Px. destruct (M x H) as (E & _). rewrite <- E. now apply Cl. Qed.
Lemma flipped_connected n s1 d1 e s2 d2 : flat_surface n s1 -> flipped_to n s1 d1 e s2 d2 -> connected n s1 -> connected n s2.
Proof.
  intros S M Cn P Ex Cl. pose proof M as (CF & S2 & _ & (G1 & G2 & G3 & G4 & G5 & G6 & O) & _). pose proof CF as (He & _). assert (Hn := neg_ltn n _ (fs_wf n s1 S) e He).
  change (nF (fT s1) e) with (fF s1 e) in *. change (nF (fT s1) (neg e)) with (fF s1 (neg e)) in *.
  set (a := fF s1 e) in *. set (c := fF s1 (neg e)) in *. change (nF (fT s1) a) with (fF s1 a) in *. change (nF (fT s1) c) with (fF s1 c) in *. set (b := fF s1 a) in *. set (f := fF s1 c) in *.
  assert (Ha : a < n) by now apply (fF_lt n s1). assert (Hb : b < n) by now apply (fF_lt n s1). assert (Hc : c < n) by now apply (fF_lt n s1). assert (Hf : f < n) by now apply (fF_lt n s1).
  assert (Eb : fF s1 b = e) by now apply (fF3 n s1). assert (Ef : fF s1 f = neg e) by now apply (fF3 n s1).
  assert (Cn2 : forall x, x < n -> P x -> P (nF (fT s2) x)) by (intros x H Px; now apply Cl). assert (Cln : forall x, x < n -> P x -> P (neg x)) by (intros x H Px; now apply Cl).
  apply (Cn P Ex). intros x H Px. split; [now apply Cln|].
  assert (Six : forall y, In y [e; a; b; neg e; c; f] -> P y -> forall z, In z [e; a; b; neg e; c; f] -> P z).
  { assert (T1 : P a -> P (neg e)) by (intros Q; rewrite <- G1; auto). assert (T2 : P (neg e) -> P f) by (intros Q; rewrite <- G2; auto). assert (T3 : P f -> P a) by (intros Q; rewrite <- G3; auto).
    assert (T4 : P c -> P e) by (intros Q; rewrite <- G4; auto). assert (T5 : P e -> P b) by (intros Q; rewrite <- G5; auto). assert (T6 : P b -> P c) by (intros Q; rewrite <- G6; auto).
    assert (T7 : P e -> P (neg e)) by auto. assert (T8 : P (neg e) -> P e) by (intros Q; rewrite <- (neg_neg e); auto).
    clear - T1 T2 T3 T4 T5 T6 T7 T8. intros y Y Py z Z. assert (Q : P e) by (destruct Y as [<-|[<-|[<-|[<-|[<-|[<-|[]]]]]]]; auto). destruct Z as [<-|[<-|[<-|[<-|[<-|[<-|[]]]]]]]; auto. }
  destruct (in_dec Nat.eq_dec x [e; a; b; neg e; c; f]) as [I|I].
  - apply (Six x I Px). destruct I as [<-|[<-|[<-|[<-|[<-|[<-|[]]]]]]]; fold a c b f; rewrite ?Eb, ?Ef; cbn; auto 10.
  - assert (Q := O x H I). unfold fF. rewrite <- Q. now apply Cn2.
Qed.
Lemma deformed_connected n s d : flat_surface n s -> closed_surface n s -> shift_of n s d -> forall s' d', deforms n s d s' d' -> connected n s -> connected n s'.
Proof.
  intros S C Sh s' d'. induction 1 as [|s1 d1 c s2 d2 D1 IH Hc Pu M|s1 d1 e s2 d2 D1 IH M]; auto; intros Cn; destruct (deforms_good n s d S C Sh s1 d1 D1) as (S1 & C1 & Sh1).
  - eapply moved_connected; eauto.
  - eapply flipped_connected; eauto.
Qed.
Lemma collapsed_connected n s d e u : flat_surface n s -> closed_surface n s -> ends_in_point n s d e -> ~ same_vertex (fT s) e (neg e) -> collapsed_to n s d e u -> connected n s -> connected (n - 6) u.
Proof.
  intros S C En D (_ & Su & Cu & label & Cl & _) Cn P (i0 & Hi & Pi) Q. pose proof En as (He & _ & Fi & _). pose proof Cl as (C1 & C2 & C3 & C4).
  assert (W := fs_wf n s S). assert (Wu := fs_wf (n - 6) u Su). set (kp := kept (fT s) e).
  assert (Kp : forall h, h < n -> kp h < n /\ ~ dropped (fT s) e (kp h)) by (intros h H; now apply (keptish n (fT s) e W He Fi)).
  assert (Ks : forall h g, h < n -> g < n -> same_vertex (fT u) (label (kp h)) (label (kp g)) <-> merged (fT s) e h g) by (intros h g H G; now apply (kept_same n (fT s) (fT u) e label W C He Fi Wu Cu Cl D)).
  assert (All : forall h, h < n -> P (label (kp h))).
  { apply (connected_vertices n s (fun h => P (label (kp h))) S C Cn).
    - destruct (C3 i0 Hi) as (g & Hg & Ng & <-). exists g. split; auto. unfold kp. now rewrite (kept_id (fT s) e g Ng).
    - intros h H Ph. assert (Hn := neg_ltn n _ W h H). destruct (Kp h H) as (K1 & K2). destruct (C1 _ K1 K2) as (L1 & L2). assert (K3 := neg_ltn n _ W _ K1).
      assert (K4 : ~ dropped (fT s) e (neg (kp h))).
      { intros Z. apply K2. unfold dropped in *. cbn [In] in *. destruct Z as [Z|[Z|[Z|[Z|[Z|[Z|[]]]]]]]; apply (f_equal neg) in Z; rewrite ?neg_neg in Z; auto 8. }
      assert (Pn : P (label (neg (kp h)))) by (rewrite L2; now apply Q).
      assert (Cases : (h = e \/ h = neg e) \/ h = side_x (fT s) e \/ h = neg (side_x (fT s) e) \/ h = side_q (fT s) e \/ h = neg (side_q (fT s) e) \/ ~ dropped (fT s) e h).
      { destruct (in_dec Nat.eq_dec h [e; neg e; side_x (fT s) e; neg (side_x (fT s) e); side_q (fT s) e; neg (side_q (fT s) e)]) as [I|I]; [|now do 5 right]. cbn in I. intuition auto. }
      destruct Cases as [Ee|Cases].
      + apply (vertex_closed (n - 6) u P (label (kp h)) _ Su Cu Q); auto. apply Ks; auto. assert (R0 : forall x, same_vertex (fT s) x x) by (intros x; now exists 0).
        right. destruct Ee as [->| ->]; rewrite ?neg_neg; auto.
      + replace (kp (neg h)) with (neg (kp h)); auto. unfold kp in *. destruct Cases as [->|[->|[->|[->|Nd]]]]; rewrite ?neg_neg.
        * now rewrite (kept_nx (fT s) e Fi), (kept_x (fT s) e Fi), neg_neg.
        * now rewrite (kept_nx (fT s) e Fi), (kept_x (fT s) e Fi).
        * now rewrite (kept_nq (fT s) e Fi), (kept_q (fT s) e Fi), neg_neg.
        * now rewrite (kept_nq (fT s) e Fi), (kept_q (fT s) e Fi).
        * rewrite (kept_id (fT s) e h Nd) in *. now rewrite (kept_id (fT s) e (neg h)).
    - intros h g H Sv Ph. assert (Hg := same_vertex_lt n _ h g W H Sv). apply (vertex_closed (n - 6) u P (label (kp h)) _ Su Cu Q); auto; [apply C1; now apply Kp|]. apply Ks; auto. now left. }
  intros i H. destruct (C3 i H) as (g & Hg & Ng & <-). rewrite <- (kept_id (fT s) e g Ng). now apply All.
Qed.

Lemma removed_connected n s e u : flat_surface n s -> closed_surface n s -> removed n s e u -> connected n s -> connected (n - 6) u.
Proof.
  intros S C (Re & d & s' & d' & Sh & J & D & J' & Ct) Cn. assert (D' := without_deforms _ _ _ _ _ _ D). destruct (deforms_good n s d S C Sh s' d' D') as (S' & C' & Sh').
  assert (Cn' := deformed_connected n s d S C Sh s' d' D' Cn). assert (En := into_ends n s' d' e S' C' Sh' J').
  pose proof J' as (He & v & I & Cv & Cv' & A & _). assert (Hn := neg_ltn n _ (fs_wf n s' S') e He).
  assert (Df : ~ same_vertex (fT s') e (neg e)). { intros Q. assert (scontains v (neg e) = true) by (apply (vertex_same n s' v e (neg e) S' I Cv); auto). congruence. }
  assert (Df' : ~ same_vertex (fT s') (neg e) e) by (intros Q; apply Df; apply (same_vertex_sym n _ _ _ (fs_wf n s' S')); auto).
  assert (Em : edge_at e = e \/ edge_at e = neg e) by (unfold edge_at; destruct (Nat.even e); auto).
  apply (collapsed_connected n s' d' (edge_at e) u S' C' En); auto. destruct Em as [->| ->]; rewrite ?neg_neg; auto.
Qed.
Lemma eliminated_connected n s k u : flat_surface n s -> closed_surface n s -> eliminated n s k u -> connected n s -> connected (n - 6 * k) u.
Proof.
  intros S C E Cn. induction E as [|k u e' u' E IH Q]; [now rewrite Nat.mul_0_r, Nat.sub_0_r|]. replace (n - 6 * Datatypes.S k) with (n - 6 * k - 6) by lia.
  destruct (eliminated_good n s k u S C E) as (Su & Cu). eapply removed_connected; eauto.
Qed.

(** A marked point of a connected surface that cannot be moved into another vertex is the only vertex. *)
Lemma only_vertex n s v : flat_surface n s -> closed_surface n s -> connected n s -> (forall e, ~ removable n s e) -> In v (tverts (fT s)) -> angle s v = Ok 1 -> tverts (fT s) = [v].
Proof.
  intros S C Cn No I A. assert (W := fs_wf n s S).
  assert (All : forall h, h < n -> scontains v h = true).
  { apply (connected_vertices n s (fun h => scontains v h = true) S C Cn).
    - destruct (vertex_nonempty n s v S I) as (x & Hx & Cx). eauto.
    - intros h H Ch. assert (Hn := neg_ltn n _ W h H). destruct (vertex_of n s (neg h) S Hn) as (w & J & Cw). assert (R := removable_at n s S v h I Ch A w J Cw). destruct (eqb_in n s S w v J I) as [->|N]; auto. exfalso. now apply (No h), R.
    - intros x y H Sv Cx. apply (vertex_same n s v x y S I Cx). split; auto. split; auto. now apply (same_vertex_lt n _ x y W). }
  assert (U : forall w, In w (tverts (fT s)) -> w = v).
  { intros w J. destruct (vertex_nonempty n s w S J) as (x & Hx & Cx). apply (vertex_unique n s w v x S); auto. }
  assert (N := vertices_nodup n s S). destruct (tverts (fT s)) as [|a [|b l]]; [destruct I| |].
  - now rewrite (U a) by (cbn; auto).
  - exfalso. inversion N as [|? ? Na _]; subst. apply Na. rewrite (U a), (U b) by (cbn; auto). now left.
Qed.
End connected.
