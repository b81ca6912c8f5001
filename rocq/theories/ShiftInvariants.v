(** * What does not change when vertices are shifted *)
From Coq Require Import ZArith QArith Qreals Reals List Arith Bool Lia Lra Psatz Permutation.
From Verif Require Import Base HalfEdge HalfEdgeFacts Perm PermSpec PermFacts PermCycles PermLemmas IndexedSet Combinatorial CombinatorialSpec
  CombinatorialFacts CombinatorialFlip CombinatorialHistory CombinatorialOps Tracked ExactReal Vector PlaneSpec Plane VectorFacts Arb ArbFacts Quadratic QuadraticSpec QuadraticFacts QuadraticProps
  FlatTri FlatSpec FlatFacts FlatSum FlatLinear FlatOps FlatAngle FlatSector Collapse Shift ShiftSpec ShiftFacts ShiftRun.
Import ListNotations.
Local Open Scope R_scope.

Section invariants.
Context {K : ExactReal}.
Variable n : nat.
Implicit Types (s u : flat K) (d : list (vec K)).

(** The six half edges at a flipped edge. *)
Lemma flipped_six s1 d1 e s2 d2 : flat_surface n s1 -> flipped_to n s1 d1 e s2 d2 ->
  exists a b c f, fF s1 e = a /\ fF s1 a = b /\ fF s1 b = e /\ fF s1 (neg e) = c /\ fF s1 c = f /\ fF s1 f = neg e /\
    fF s2 a = neg e /\ fF s2 (neg e) = f /\ fF s2 f = a /\ fF s2 c = e /\ fF s2 e = b /\ fF s2 b = c /\
    NoDup [e; a; b; neg e; c; f] /\ (e < n)%nat /\ (a < n)%nat /\ (b < n)%nat /\ (c < n)%nat /\ (f < n)%nat /\ (neg e < n)%nat /\
    (forall i, (i < n)%nat -> ~ In i [e; a; b; neg e; c; f] -> fF s2 i = fF s1 i /\ ~ In (fF s1 i) [e; a; b; neg e; c; f]).
Proof.
  intros S (CF & S2 & _ & (G1 & G2 & G3 & G4 & G5 & G6 & O) & _). pose proof CF as (He & _). assert (W := fs_wf n s1 S).
  assert (F : flippable n (fT s1) e) by now apply (can_flip_iff n s1 e S He).
  destruct (flip_six n (fT s1) e W F) as (D6 & Ha & Hb & Hc & Hd & Hn & Fb & Fd).
  exists (fF s1 e), (fF s1 (fF s1 e)), (fF s1 (neg e)), (fF s1 (fF s1 (neg e))).
  assert (En : fF s1 (fF s1 (fF s1 (neg e))) = neg e) by exact Fd. assert (Ee : fF s1 (fF s1 (fF s1 e)) = e) by exact Fb.
  repeat (split; [first [reflexivity|exact Fb|exact Fd|exact G1|exact G2|exact G3|exact G4|exact G5|exact G6|exact D6|assumption]|]).
  intros i Hi I. split; [now apply (O i Hi)|]. intros Q. apply I. rewrite <- (fF3 n s1 i S Hi).
  destruct Q as [<-|[<-|[<-|[<-|[<-|[<-|[]]]]]]]; rewrite ?Ee, ?En; cbn; tauto.
Qed.

Lemma deforms_good s d : flat_surface n s -> closed_surface n s -> shift_of n s d -> forall s' d', deforms n s d s' d' ->
  flat_surface n s' /\ closed_surface n s' /\ shift_of n s' d'.
Proof.
  intros S C Sh s' d'. induction 1 as [|s1 d1 c s2 d2 _ IH _ _ M|s1 d1 e s2 d2 _ IH M]; auto.
  - destruct IH as (S1 & C1 & _). destruct M as (S2 & Sh2 & M). split; auto. split; auto. apply (closed_same n s1 s2 C1). intros x X. apply (M x X).
  - destruct IH as (S1 & C1 & _). destruct (flipped_six s1 d1 e s2 d2 S1 M) as (a & b & c & f & _ & _ & _ & _ & _ & _ & F1 & F2 & F3 & F4 & F5 & F6 & ND & _ & _ & _ & _ & _ & _ & O).
    pose proof (nodup6 _ _ _ _ _ _ ND) as ((D1 & D2 & D3 & D4 & D5) & (D7 & D8 & D9 & D10) & (D11 & D12 & D13) & (D14 & D15) & D16).
    destruct M as (_ & S2 & Sh2 & _). split; auto. split; auto. intros i Hi. destruct (in_dec Nat.eq_dec i [e; a; b; neg e; c; f]) as [I|I].
    + destruct I as [<-|[<-|[<-|[<-|[<-|[<-|[]]]]]]]; congruence.
    + rewrite (proj1 (O i Hi I)). now apply C1.
Qed.

(** ** Parallel shifts *)
Lemma deforms_parallel s d : flat_surface n s -> closed_surface n s -> shift_of n s d -> forall w, (forall h, (h < n)%nat -> exists k, dd d h = pscale k w) ->
  forall s' d', deforms n s d s' d' -> forall h, (h < n)%nat -> exists k, dd d' h = pscale k w.
Proof.
  intros S C Sh w Pa s' d'. induction 1 as [|s1 d1 c s2 d2 D1 IH _ _ M|s1 d1 e s2 d2 D1 IH M]; auto.
  - intros h H. destruct M as (_ & _ & M). destruct (M h H) as (_ & _ & _ & ->). destruct (IH h H) as (k & ->). exists ((1 - c) * k). unfold pscale; cbn. f_equal; ring.
  - destruct (deforms_good s d S C Sh s1 d1 D1) as (S1 & _). pose proof M as (CF & S2 & Sh2 & _ & _ & De & O). pose proof CF as (He & _).
    assert (Hn := neg_ltn n _ (fs_wf n s1 S1) e He).
    assert (X : exists k, dd d2 e = pscale k w).
    { destruct (IH (fF s1 (fF s1 e))) as (k1 & E1); [repeat apply (fF_lt n); auto|]. destruct (IH (fF s1 (neg e))) as (k2 & E2); [apply (fF_lt n); auto|].
      exists (- (k1 + k2)). rewrite De, E1, E2. unfold padd, pneg, pscale; cbn. f_equal; ring. }
    intros h H. destruct (Nat.eq_dec h e) as [->|Ne]; auto. destruct (Nat.eq_dec h (neg e)) as [->|Nn].
    + destruct Sh2 as (_ & N & _). rewrite (N e He). destruct X as (k & ->). exists (- k). unfold pneg, pscale; cbn. f_equal; ring.
    + destruct (O h H Ne Nn) as [_ ->]. auto.
Qed.

(** The polynomials that come up in this case. *)
Definition falling (p : quad K) : Prop := den (qa p) = 0 /\ 0 < den (qc p).
Lemma falling_reliable (o : solver K) : sound o -> reliable o falling.
Proof.
  intros So.
  assert (B : forall p t, falling p -> critical p t -> den (qb p) <> 0).
  { intros p t (A & Pc) (_ & Z & _) Q. unfold at_ in Z. rewrite A, Q in Z. lra. }
  split.
  - intros fuel p prec b t Pp E Ct. assert (Bp := B p t Pp Ct). destruct Pp as (A & _). apply (root_answer o So) in E. cbn in E. destruct E as (u & U & Zu & Eu).
    destruct Ct as (_ & Z & _). apply (linear_zero p _ A Bp) in Z, Zu. congruence.
  - intros fuel p q r t u Pp Pq E Cp Cq. assert (Bp := B p t Pp Cp). assert (Bq := B q u Pq Cq).
    apply (C54_less_linear K o fuel p q t u r So (proj1 Pp) (proj1 Pq) Bp Bq Cp Cq E).
Qed.
Lemma parallel_falling s d h w : flat_surface n s -> closed_surface n s -> shift_of n s d -> (forall h, (h < n)%nat -> exists k, dd d h = pscale k w) -> (h < n)%nat -> falling (corner s d h).
Proof.
  intros S C Sh Pa H. split.
  - unfold corner, det_quad; cbn [qa]. rewrite den_sub, !den_mul. destruct (Pa h H) as (k & E). destruct (Pa _ (fV_lt n s h S H)) as (k' & E').
    unfold dd, vden, pscale in E, E'. injection E as E1 E2. injection E' as E3 E4. rewrite E1, E2, E3, E4. ring.
  - rewrite <- at_0. rewrite (at_corner n s d S C Sh 0 h H). now apply (area_0 n s d S C).
Qed.

(** ** The area *)
Lemma deforms_area s d : flat_surface n s -> closed_surface n s -> shift_of n s d -> forall s' d', deforms n s d s' d' ->
  rsum (map (area_at s' d' 1) (seq 0 n)) = rsum (map (area_at s d 1) (seq 0 n)).
Proof.
  intros S C Sh s' d'. induction 1 as [|s1 d1 c s2 d2 D1 IH _ _ M|s1 d1 e s2 d2 D1 IH M]; auto.
  - rewrite <- IH. f_equal. apply map_ext_in. intros h I. apply in_seq in I. assert (H : (h < n)%nat) by lia. destruct M as (S2 & _ & M). unfold area_at.
    destruct (deforms_good s d S C Sh s1 d1 D1) as (S1 & _).
    assert (E : forall g, (g < n)%nat -> moving s2 d2 1 g = moving s1 d1 1 g).
    { intros g G. destruct (M g G) as (_ & _ & E1 & E2). unfold moving at 1. rewrite E1, E2. unfold moving, padd, pscale; cbn. f_equal; ring. }
    rewrite (proj1 (M h H)), !E; auto. now apply (fF_lt n).
  - rewrite <- IH. destruct (deforms_good s d S C Sh s1 d1 D1) as (S1 & C1 & Sh1).
    assert (D2 : deforms n s d s2 d2) by (eapply deforms_flip; eauto). destruct (deforms_good s d S C Sh s2 d2 D2) as (S2 & C2 & Sh2).
    destruct (flipped_six s1 d1 e s2 d2 S1 M) as (a & b & c & f & Ea & Eb & Ee & Ec & Ef & En & F1 & F2 & F3 & F4 & F5 & F6 & ND & He & Ha & Hb & Hc & Hf & Hn & O).
    pose proof (nodup6 _ _ _ _ _ _ ND) as ((X1 & X2 & X3 & X4 & X5) & (X7 & X8 & X9 & X10) & (X11 & X12 & X13) & (X14 & X15) & X16).
    destruct M as (_ & _ & _ & _ & Ve & De & Vo). rewrite Ea, Eb, Ec in Ve, De.
    assert (G : forall i, (i < n)%nat -> i <> e -> i <> neg e -> moving s2 d2 1 i = moving s1 d1 1 i).
    { intros i Hi I1 I2. unfold moving. now destruct (Vo i Hi I1 I2) as [-> ->]. }
    assert (Ge : moving s2 d2 1 e = pneg (padd (moving s1 d1 1 b) (moving s1 d1 1 c))).
    { unfold moving. rewrite Ve, De. unfold padd, pneg, pscale; cbn. f_equal; ring. }
    assert (Gn := mv_neg n s2 d2 S2 Sh2 1 e He). rewrite Ge in Gn.
    assert (Z : rsum (map (fun i => area_at s2 d2 1 i + -1 * area_at s1 d1 1 i) (seq 0 n)) = 0).
    { rewrite (rsum_support _ [e; a; b; neg e; c; f]); auto.
      - assert (Z1 := mv_sum n s1 d1 S1 C1 Sh1 1 e He). assert (Z2 := mv_sum n s1 d1 S1 C1 Sh1 1 (neg e) Hn). rewrite Ea, Eb in Z1. rewrite Ec, Ef, (mv_neg n s1 d1 S1 Sh1 1 e He) in Z2.
        cbn [map rsum]. unfold area_at. rewrite F1, F2, F3, F4, F5, F6, Ea, Eb, Ee, Ec, Ef, En, Ge, Gn, (G a), (G b), (G c), (G f), (mv_neg n s1 d1 S1 Sh1 1 e He) by auto.
        destruct (moving s1 d1 1 e) as [xe ye], (moving s1 d1 1 a) as [xa ya], (moving s1 d1 1 b) as [xb yb], (moving s1 d1 1 c) as [xc yc], (moving s1 d1 1 f) as [xf yf].
        unfold padd, pneg, pdet in *; cbn [fst snd] in *. injection Z1 as Z1 Z1'. injection Z2 as Z2 Z2'.
        replace xf with (xe - xc) by lra. replace yf with (ye - yc) by lra. replace xb with (- xe - xa) by lra. replace yb with (- ye - ya) by lra. ring.
      - apply seq_NoDup.
      - intros x I. apply in_seq. split; [lia|]. destruct I as [<-|[<-|[<-|[<-|[<-|[<-|[]]]]]]]; lia.
      - intros x I J. apply in_seq in I. assert (Hx : (x < n)%nat) by lia. destruct (O x Hx J) as [O1 O2].
        assert (N : forall y, ~ In y [e; a; b; neg e; c; f] -> y <> e /\ y <> neg e) by (intros y Q; split; intros ->; apply Q; cbn; auto).
        destruct (N x J). destruct (N _ O2). unfold area_at. rewrite O1, !G; auto; [lra|]. now apply (fF_lt n). }
    rewrite rsum_plus, rsum_scale in Z. lra.
Qed.
Lemma done_area u d : flat_surface n u -> done n d -> rsum (map (area_at u d 1) (seq 0 n)) = rsum (map (triangle_area2 u) (seq 0 n)).
Proof.
  intros Su Dd. f_equal. apply map_ext_in. intros h I. apply in_seq in I. assert (H : (h < n)%nat) by lia. unfold area_at, triangle_area2.
  assert (E : forall g, (g < n)%nat -> moving u d 1 g = vv u g).
  { intros g G. unfold moving. rewrite (Dd g G). destruct (vv u g). unfold padd, pscale; cbn. f_equal; ring. }
  rewrite !E; auto. now apply (fF_lt n).
Qed.
End invariants.
