(** * Flips of wide edges *)
From Coq Require Import ZArith Reals List Arith Bool Lia Lra Psatz.
From Verif Require Import Base HalfEdge HalfEdgeFacts Perm PermSpec PermFacts Combinatorial CombinatorialSpec CombinatorialFacts CombinatorialHistory ExactReal Vector PlaneSpec Plane VectorFacts
  CombinatorialOps FlatTri FlatSpec ChainSpec FlatFacts FlatSum FlatOps FlatAngle DeformSpec Tracked Vertical VerticalSpec VerticalFacts VerticalComponents Lengths IntervalExchange IntervalExchangeSpec
  IntervalExchangeFacts IntervalExchangeFlow IntervalExchangeLarge.
Import ListNotations.
Local Open Scope nat_scope.

Section quad.
Context {K : ExactReal}.
Variables (n : nat) (s s' : flat K) (v : pt).
Notation r := (rightwards s v).
Notation r' := (rightwards s' v).
Notation F := (fF s).
Notation F' := (fF s').

(** The two triangles at [e] before and after the flip. *)
Record quad (e a b c d : nat) : Prop := mkQuad {
  q1 : F e = a; q2 : F a = b; q3 : F b = e; q4 : F (neg e) = c; q5 : F c = d; q6 : F d = neg e;
  p1 : F' a = neg e; p2 : F' (neg e) = d; p3 : F' d = a; p4 : F' c = e; p5 : F' e = b; p6 : F' b = c;
  qN : NoDup [e; a; b; neg e; c; d];
  qe : e < n; qa : a < n; qb : b < n; qc : c < n; qd : d < n; qn : neg e < n;
  qo : forall i, i < n -> ~ In i [e; a; b; neg e; c; d] -> F' i = F i;
  qr : forall i, i < n -> i <> e -> i <> neg e -> vv s' i = vv s i;
  ra : r' e = (- (r b + r c))%R; rn : r' (neg e) = (r b + r c)%R
}.
Hypothesis CS : closed_flat n s.

Lemma flip_quad e : e < n -> fflip s e = (s', Ok tt) -> exists a b c d, quad e a b c d.
Proof.
  intros He E. destruct (flip_facts n s e s' (proj1 CS) He E) as (a & b & c & d & A1 & A2 & A3 & A4 & A5 & A6 & B1 & B2 & B3 & B4 & B5 & B6 & N & Ha & Hb & Hc & Hd & Hn & O & Va & Vb & Vc & Vd & Vn & V1 & V2).
  exists a, b, c, d. constructor; auto.
  - intros i Hi I. now apply O.
  - destruct (fflip_spec n s e s' (proj1 CS) He E) as (_ & _ & _ & U & _). intros i Hi N1 N2. unfold vv. now rewrite U.
  - unfold rightwards. rewrite V1. unfold pdet, pneg, padd. cbn [fst snd]. ring.
  - unfold rightwards. rewrite V2. unfold pdet, padd. cbn [fst snd]. ring.
Qed.
Lemma quad_sym e a b c d : quad e a b c d -> quad (neg e) c d a b.
Proof.
  intros Q. assert (Z1 := R_sum n s v CS e (qe _ _ _ _ _ Q)). assert (Z2 := R_sum n s v CS _ (qn _ _ _ _ _ Q)). rewrite (R_neg n s v CS) in Z2 by apply (qe _ _ _ _ _ Q).
  destruct Q. subst a b c d. constructor; rewrite ?neg_neg; auto.
  - clear - qN0. set (x := F e) in *. set (y := F x) in *. set (z := F (neg e)) in *. set (w := F z) in *. set (ne := neg e) in *. clearbody x y z w ne.
    apply NoDup_cons_iff in qN0 as [N1 Q]. apply NoDup_cons_iff in Q as [N2 Q]. apply NoDup_cons_iff in Q as [N3 Q]. cbn [In] in *.
    repeat (apply NoDup_cons_iff in Q as [? Q]). cbn [In] in *. repeat constructor; cbn [In]; intuition congruence.
  - intros i Hi I. apply qo0; auto. intros J. apply I. clear - J. cbn [In] in *. tauto.
  - rewrite rn0. lra.
  - rewrite ra0. lra.
Qed.

(** ** What a flip does to the surface *)
Section flip.
Variables (e a b c d : nat).
Hypothesis Q : quad e a b c d.
Local Notation six := [e; a; b; neg e; c; d].
Local Ltac side := first [apply (qe _ _ _ _ _ Q)|apply (qa _ _ _ _ _ Q)|apply (qb _ _ _ _ _ Q)|apply (qc _ _ _ _ _ Q)|apply (qd _ _ _ _ _ Q)|apply (qn _ _ _ _ _ Q)].

Lemma six_lt x : In x six -> x < n.
Proof. cbn [In]. intros [<-|[<-|[<-|[<-|[<-|[<-|[]]]]]]]; side. Qed.
Lemma six_F x : In x six -> In (F x) six.
Proof. destruct Q. cbn [In]. intros [<-|[<-|[<-|[<-|[<-|[<-|[]]]]]]]; rewrite ?q7, ?q8, ?q9, ?q10, ?q11, ?q12; tauto. Qed.
Lemma six_F' x : In x six -> In (F' x) six.
Proof. destruct Q. cbn [In]. intros [<-|[<-|[<-|[<-|[<-|[<-|[]]]]]]]; rewrite ?p7, ?p8, ?p9, ?p10, ?p11, ?p12; tauto. Qed.
Lemma not_six_F x : x < n -> ~ In x six -> ~ In (F x) six.
Proof. intros Hx N I. apply N. rewrite <- (F3 n s CS x Hx). now apply six_F, six_F. Qed.
Lemma not_six_r x : x < n -> ~ In x six -> r' x = r x.
Proof. intros Hx N. unfold rightwards. rewrite (qr _ _ _ _ _ Q); auto; intros ->; apply N; cbn [In]; tauto. Qed.
Lemma sides_r x : In x [a; b; c; d] -> r' x = r x.
Proof.
  intros I. assert (N := qN _ _ _ _ _ Q). apply NoDup_cons_iff in N as [N1 N]. apply NoDup_cons_iff in N as [N2 N]. apply NoDup_cons_iff in N as [N3 N]. apply NoDup_cons_iff in N as [N4 N]. cbn [In] in *.
  unfold rightwards. rewrite (qr _ _ _ _ _ Q); auto.
  - destruct I as [<-|[<-|[<-|[<-|[]]]]]; side.
  - clear - I N1. intros ->. tauto.
  - clear - I N2 N3 N4. intros ->. destruct I as [I|[I|[I|[I|[]]]]]; auto; subst; tauto.
Qed.
Lemma sums : (r e + r a + r b = 0 /\ - r e + r c + r d = 0)%R.
Proof.
  assert (Z1 := R_sum n s v CS e ltac:(side)). assert (Z2 := R_sum n s v CS (neg e) ltac:(side)). rewrite (R_neg n s v CS) in Z2 by side.
  rewrite (q1 _ _ _ _ _ Q), (q2 _ _ _ _ _ Q) in Z1. rewrite (q4 _ _ _ _ _ Q), (q5 _ _ _ _ _ Q) in Z2. lra.
Qed.

Lemma flip_closed : flat_surface n s' -> closed_flat n s'.
Proof.
  intros S'. split; auto. intros x Hx E. destruct (in_dec Nat.eq_dec x six) as [I|I].
  - assert (N := qN _ _ _ _ _ Q). destruct Q. clear - E I N p7 p8 p9 p10 p11 p12. cbn [In] in I.
    repeat (apply NoDup_cons_iff in N as [? N]). cbn [In] in *. destruct I as [<-|[<-|[<-|[<-|[<-|[<-|[]]]]]]]; rewrite ?p7, ?p8, ?p9, ?p10, ?p11, ?p12 in E; intuition congruence.
  - rewrite (qo _ _ _ _ _ Q) in E by auto. now apply (proj2 CS x Hx).
Qed.

(** Components are never merged, and only split when the edge becomes vertical. *)
Lemma joined_six x y : r e <> 0%R -> In x six -> In y six -> joined n s v x y.
Proof.
  intros N. assert (A : forall x, In x six -> joined n s v e x).
  { assert (J1 : joined n s v e a) by (rewrite <- (q1 _ _ _ _ _ Q); apply jo_face; side). assert (J2 : joined n s v e b) by (apply jo_trans with a; auto; rewrite <- (q2 _ _ _ _ _ Q); apply jo_face; side).
    assert (J3 : joined n s v e (neg e)) by (apply jo_across; auto; side). assert (J4 : joined n s v e c) by (apply jo_trans with (neg e); auto; rewrite <- (q4 _ _ _ _ _ Q); apply jo_face; side).
    assert (J5 : joined n s v e d) by (apply jo_trans with c; auto; rewrite <- (q5 _ _ _ _ _ Q); apply jo_face; side).
    clear x y. intros x. cbn [In]. intros [<-|[<-|[<-|[<-|[<-|[<-|[]]]]]]]; auto. apply jo_same. side. }
  intros Ix Iy. apply jo_trans with e; [apply jo_sym|]; auto.
Qed.
Lemma joined_six' x y : r' e <> 0%R -> In x six -> In y six -> joined n s' v x y.
Proof.
  intros N. assert (A : forall x, In x six -> joined n s' v e x).
  { assert (J2 : joined n s' v e b) by (rewrite <- (p5 _ _ _ _ _ Q); apply jo_face; side). assert (J4 : joined n s' v e c) by (apply jo_trans with b; auto; rewrite <- (p6 _ _ _ _ _ Q); apply jo_face; side).
    assert (J3 : joined n s' v e (neg e)) by (apply jo_across; auto; side). assert (J5 : joined n s' v e d) by (apply jo_trans with (neg e); auto; rewrite <- (p2 _ _ _ _ _ Q); apply jo_face; side).
    assert (J1 : joined n s' v e a) by (apply jo_trans with d; auto; rewrite <- (p3 _ _ _ _ _ Q); apply jo_face; side).
    clear x y. intros x. cbn [In]. intros [<-|[<-|[<-|[<-|[<-|[<-|[]]]]]]]; auto. apply jo_same. side. }
  intros Ix Iy. apply jo_trans with e; [apply jo_sym|]; auto.
Qed.
Lemma joined_before x y : r e <> 0%R -> joined n s' v x y -> joined n s v x y.
Proof.
  intros N J. induction J as [x Hx|x Hx|x Hx Nx|x y J IH|x y z J1 IH1 J2 IH2]; [now apply jo_same| | |now apply jo_sym|eapply jo_trans; eauto].
  - destruct (in_dec Nat.eq_dec x six) as [I|I]; [apply joined_six; auto; now apply six_F'|]. rewrite (qo _ _ _ _ _ Q) by auto. now apply jo_face.
  - destruct (Nat.eq_dec x e) as [->|N1]; [apply joined_six; auto; cbn [In]; tauto|]. destruct (Nat.eq_dec x (neg e)) as [->|N2]; [rewrite neg_neg; apply joined_six; auto; cbn [In]; tauto|].
    apply jo_across; auto. unfold rightwards in *. now rewrite (qr _ _ _ _ _ Q) in Nx.
Qed.
Lemma joined_after x y : r' e <> 0%R -> joined n s v x y -> joined n s' v x y.
Proof.
  intros N J. induction J as [x Hx|x Hx|x Hx Nx|x y J IH|x y z J1 IH1 J2 IH2]; [now apply jo_same| | |now apply jo_sym|eapply jo_trans; eauto].
  - destruct (in_dec Nat.eq_dec x six) as [I|I]; [apply joined_six'; auto; now apply six_F|]. rewrite <- (qo _ _ _ _ _ Q) by auto. now apply jo_face.
  - destruct (Nat.eq_dec x e) as [->|N1]; [apply joined_six'; auto; cbn [In]; tauto|]. destruct (Nat.eq_dec x (neg e)) as [->|N2]; [rewrite neg_neg; apply joined_six'; auto; cbn [In]; tauto|].
    apply jo_across; auto. unfold rightwards in *. now rewrite (qr _ _ _ _ _ Q).
Qed.

(** Another wide edge remains wide. *)
Lemma wide_sides : wide s v e -> (Rabs (r a) <= Rabs (r e) /\ Rabs (r b) <= Rabs (r e) /\ Rabs (r c) <= Rabs (r e) /\ Rabs (r d) <= Rabs (r e))%R.
Proof. intros W. unfold wide in W. rewrite (q1 _ _ _ _ _ Q), (q2 _ _ _ _ _ Q), (q4 _ _ _ _ _ Q), (q5 _ _ _ _ _ Q) in W. repeat split; apply W; cbn [In]; tauto. Qed.
Lemma narrower_diagonal : wide s v e -> (Rabs (r' e) <= Rabs (r e))%R.
Proof.
  intros W. destruct (wide_sides W) as (W1 & W2 & W3 & W4). destruct sums as [Z1 Z2]. rewrite (ra _ _ _ _ _ Q). clear - W1 W2 W3 W4 Z1 Z2.
  unfold Rabs in *. repeat destruct (Rcase_abs _); lra.
Qed.
Lemma six_narrower x : wide s v e -> In x six -> (Rabs (r' x) <= Rabs (r e))%R.
Proof.
  intros W I. destruct (wide_sides W) as (W1 & W2 & W3 & W4). assert (D := narrower_diagonal W). cbn [In] in I.
  assert (D' : (Rabs (r' (neg e)) <= Rabs (r e))%R). { rewrite (rn _ _ _ _ _ Q). rewrite (ra _ _ _ _ _ Q), Rabs_Ropp in D. exact D. }
  destruct I as [<-|[<-|[<-|[<-|[<-|[<-|[]]]]]]]; auto; rewrite sides_r by (cbn [In]; tauto); auto.
Qed.
Lemma six_face x : In x six -> wide s v x -> (Rabs (r e) <= Rabs (r x))%R.
Proof.
  intros I W. unfold wide in W. destruct Q. cbn [In] in I. assert (N : Rabs (r (neg e)) = Rabs (r e)) by (rewrite (R_neg n s v CS) by auto; apply Rabs_Ropp).
  destruct I as [<-|[<-|[<-|[<-|[<-|[<-|[]]]]]]]; [lra|apply W; rewrite q8, q9; cbn [In]; tauto|apply W; rewrite q9; cbn [In]; tauto|lra| |]; rewrite <- N; apply W; rewrite ?q11, ?q12; cbn [In]; tauto.
Qed.
Lemma wide_kept u : u < n -> wide s v e -> wide s v u -> u <> e -> u <> neg e -> wide s' v u.
Proof.
  intros Hu We Wu N1 N2. assert (Hn := N_lt n s CS u Hu). assert (Ru : r' u = r u) by (unfold rightwards; now rewrite (qr _ _ _ _ _ Q)).
  assert (G : forall y, y = u \/ y = neg u -> (Rabs (r' (F' y)) <= Rabs (r u) /\ Rabs (r' (F' (F' y))) <= Rabs (r u))%R).
  { intros y Y. assert (Hy : y < n) by (destruct Y as [->| ->]; auto). assert (Wy : wide s v y) by (destruct Y as [->| ->]; auto; now apply (wide_neg n s v u (proj1 CS) Hu)).
    assert (Ry : Rabs (r y) = Rabs (r u)) by (destruct Y as [->| ->]; auto; rewrite (R_neg n s v CS) by auto; apply Rabs_Ropp).
    destruct (in_dec Nat.eq_dec y six) as [I|I].
    - assert (L := six_face y I Wy). assert (I1 := six_F' y I). assert (I2 := six_F' _ I1). assert (L1 := six_narrower _ We I1). assert (L2 := six_narrower _ We I2). lra.
    - assert (I1 := not_six_F y Hy I). assert (H1 := F_lt n s CS y Hy). assert (I2 := not_six_F _ H1 I1). assert (H2 := F_lt n s CS _ H1).
      rewrite (qo _ _ _ _ _ Q y), (qo _ _ _ _ _ Q (F y)), !not_six_r, <- Ry by auto. split; apply Wy; cbn [In]; tauto. }
  destruct (G u (or_introl eq_refl)) as [G1 G2]. destruct (G (neg u) (or_intror eq_refl)) as [G3 G4]. intros x X. rewrite Ru. cbn [In] in X. destruct X as [<-|[<-|[<-|[<-|[]]]]]; auto.
Qed.
End flip.
End quad.
