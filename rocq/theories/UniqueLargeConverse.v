(** * When the flips for a unique large edge come to an end, all lines from vertices reach this edge *)
From Coq Require Import ZArith Reals List Arith Bool Lia Lra Psatz.
From Verif Require Import Base HalfEdge HalfEdgeFacts Perm PermSpec PermFacts Combinatorial CombinatorialSpec CombinatorialFacts CombinatorialHistory ExactReal Vector PlaneSpec Plane VectorFacts
  CombinatorialOps FlatTri FlatSpec ChainSpec FlatFacts FlatSum FlatOps FlatAngle DeformSpec Tracked Vertical VerticalSpec VerticalFacts VerticalComponents Lengths IntervalExchange IntervalExchangeSpec
  IntervalExchangeFacts IntervalExchangeFlow IntervalExchangeLarge IntervalExchangeMade UniqueLarge UniqueLargeSpec UniqueLargeFlip UniqueLargeFlow UniqueLargeFacts.
Import ListNotations.
Local Open Scope nat_scope.

(** ** Lines before a flip *)
Section back.
Context {K : ExactReal}.
Variables (n : nat) (s s' : flat K) (v : pt).
Notation r := (rightwards s v).
Notation r' := (rightwards s' v).
Notation F := (fF s).
Notation F' := (fF s').
Hypothesis CS : closed_flat n s.
Variables (e a b c d : nat).
Hypothesis Q : quad n s s' v e a b c d.
Local Notation six := [e; a; b; neg e; c; d].

(** Walking to [e] before the flip leads to one of the six half edges also after the flip. *)
Lemma joined_to_six x y : joined n s v x y -> joined n s' v x y \/ ((exists z, In z six /\ joined n s' v x z) /\ exists z, In z six /\ joined n s' v y z).
Proof.
  assert (L := six_lt n s s' v e a b c d Q). assert (X : forall x, In x six -> exists z, In z six /\ joined n s' v x z) by (intros z I; exists z; split; auto; apply jo_same; auto).
  intros J. induction J as [x Hx|x Hx|x Hx Nx|x y J IH|x y z J1 IH1 J2 IH2]; [left; now apply jo_same| | | |].
  - destruct (in_dec Nat.eq_dec x six) as [I|I]; [right; split; apply X; auto; now apply (six_F n s s' v e a b c d Q)|]. left. rewrite <- (qo _ _ _ _ _ _ _ _ _ Q) by auto. now apply jo_face.
  - destruct (in_dec Nat.eq_dec x [e; neg e]) as [I|I].
    + right. cbn [In] in I. split; apply X; destruct I as [<-|[<-|[]]]; rewrite ?neg_neg; cbn [In]; tauto.
    + left. apply jo_across; auto. cbn [In] in I. unfold rightwards. rewrite (qr _ _ _ _ _ _ _ _ _ Q); auto; intros ->; tauto.
  - destruct IH as [IH|[IH1 IH2]]; [left; now apply jo_sym|right; auto].
  - destruct IH1 as [IH1|[(z1 & I1 & K1) (z2 & I2 & K2)]], IH2 as [IH2|[(z3 & I3 & K3) (z4 & I4 & K4)]].
    + left. eapply jo_trans; eauto.
    + right. split; [exists z3|exists z4]; split; auto. eapply jo_trans; eauto.
    + right. split; [exists z1|exists z2]; split; auto. eapply jo_trans; [apply jo_sym|]; eauto.
    + right. split; [exists z1|exists z4]; auto.
Qed.
Lemma joined_to_e u : joined n s v u e -> joined n s' v u e \/ joined n s' v u (neg e).
Proof.
  assert (T : forall z, In z six -> joined n s' v z e \/ joined n s' v z (neg e)).
  { assert (L := six_lt n s s' v e a b c d Q). assert (J1 : forall x y, In x six -> F' x = y -> joined n s' v x y) by (intros x y I <-; apply jo_face; auto).
    assert (P1 := p1 _ _ _ _ _ _ _ _ _ Q). assert (P2 := p2 _ _ _ _ _ _ _ _ _ Q). assert (P3 := p3 _ _ _ _ _ _ _ _ _ Q). assert (P4 := p4 _ _ _ _ _ _ _ _ _ Q). assert (P5 := p5 _ _ _ _ _ _ _ _ _ Q). assert (P6 := p6 _ _ _ _ _ _ _ _ _ Q).
    assert (Ka := J1 a _ ltac:(cbn; tauto) P1). assert (Kd := J1 d _ ltac:(cbn; tauto) P3). assert (Kc := J1 c _ ltac:(cbn; tauto) P4). assert (Kb := J1 b _ ltac:(cbn; tauto) P6).
    intros z I. cbn [In] in I. destruct I as [<-|[<-|[<-|[<-|[<-|[<-|[]]]]]]]; [left; apply jo_same, L; cbn; tauto|auto| |right; apply jo_same, L; cbn; tauto|auto|].
    - left. now apply jo_trans with c. - right. now apply jo_trans with a. }
  intros J. destruct (joined_to_six u e J) as [|[(z & I & Z) _]]; auto. destruct (T z I) as [X|X]; [left|right]; now apply jo_trans with z.
Qed.

Hypothesis Pe : (0 < r e)%R.
Hypothesis Pa : (r a < 0)%R.
Hypothesis Pb : (r b < 0)%R.
Hypothesis Pc : (0 < r c)%R.
Hypothesis Pd : (0 < r d)%R.
Variable u : nat.
Hypothesis Nu : u <> e.
Hypothesis Nu' : u <> neg e.

Lemma e_to_b x : (0 < x < r e)%R -> (x < - r b)%R -> cross s v (e, x) (neg b, x).
Proof. intros X L. assert (A := cross_previous s v e x). rewrite (q1 _ _ _ _ _ _ _ _ _ Q), (q2 _ _ _ _ _ _ _ _ _ Q) in A. now apply A. Qed.
Lemma e_to_a x : (0 < x < r e)%R -> (- r b < x)%R -> cross s v (e, x) (neg a, x + r b)%R.
Proof. intros X L. assert (A := cross_next s v e x). rewrite (q1 _ _ _ _ _ _ _ _ _ Q), (q2 _ _ _ _ _ _ _ _ _ Q) in A. apply A; auto. lra. Qed.
Lemma c_to_e x : (0 < x < r c)%R -> cross s v (c, x) (e, x).
Proof.
  intros X. destruct (sums n s s' v CS e a b c d Q) as [Z1 Z2]. assert (A := cross_previous s v c x). rewrite (q5 _ _ _ _ _ _ _ _ _ Q), (q6 _ _ _ _ _ _ _ _ _ Q), (R_neg n s v CS), neg_neg in A by apply (qe _ _ _ _ _ _ _ _ _ Q). apply A; auto. lra.
Qed.
Lemma d_to_e x : (0 < x < r d)%R -> cross s v (d, x) (e, x + r c)%R.
Proof. intros X. assert (A := cross_next s v d x). rewrite (q6 _ _ _ _ _ _ _ _ _ Q), (q4 _ _ _ _ _ _ _ _ _ Q), neg_neg in A. apply A; auto. lra. Qed.

Lemma same_line_back : forall k p, within s' v u k p -> fst p < n -> fst p <> e -> fst p <> neg e -> exists k', within s v u k' p.
Proof.
  destruct (sums n s s' v CS e a b c d Q) as [Z1 Z2]. destruct (side_lt n s s' v e a b c d Q) as (Ha & Hb & Hc & Hd & He). assert (G := sides_r n s s' v e a b c d Q).
  assert (NE : forall x, In x [a; b] -> neg x <> e /\ neg x <> neg e).
  { intros x I. split; [now apply (not_e n s s' v e a b c d Q)|]. intros E. apply neg_inj in E. assert (N := qN _ _ _ _ _ _ _ _ _ Q). clear - I E N. apply NoDup_cons_iff in N as [N _]. subst x. cbn [In] in *. intuition congruence. }
  induction k as [k IH] using lt_wf_ind. intros p W Hp Np Np'. destruct W as [k p E|k p q C W]; [exists 0; now constructor|].
  assert (Up : forall x j y, In x [a; b] -> j <= k -> within s' v u j (neg x, y) -> exists k', within s v u k' (neg x, y)).
  { intros x j y I L W'. destruct (NE x I). apply (IH j); auto; [lia|]. cbn [fst]. apply (N_lt n s CS). cbn [In] in I. destruct I as [<-|[<-|[]]]; auto. }
  destruct p as [h x]. cbn [fst] in *. destruct (in_dec Nat.eq_dec h six) as [I|I].
  - cbn [In] in I. assert (P : (0 < x < r' h)%R) by (clear - C; inversion C; auto). destruct I as [<-|[<-|[<-|[<-|[<-|[<-|[]]]]]]]; try contradiction; rewrite G in P by (cbn [In]; tauto).
    + lra.
    + lra.
    + inversion C as [h y Y L E1 E2|h y Y L E1 E2]; subst h y q; rewrite (p4 _ _ _ _ _ _ _ _ _ Q), (p5 _ _ _ _ _ _ _ _ _ Q), G in * by (cbn [In]; tauto).
      * destruct (Up b k x) as (k' & W'); auto; [cbn; tauto|]. exists (S (S k')). apply wi_step with (e, x); [now apply c_to_e|]. apply wi_step with (neg b, x); auto. apply e_to_b; lra.
      * inversion W as [j p E|j p q' C' W']; subst; [now cbn in Nu'|]. inversion C' as [h y Y' L' E1 E2|h y Y' L' E1 E2]; subst h y q'; rewrite (p2 _ _ _ _ _ _ _ _ _ Q), (p3 _ _ _ _ _ _ _ _ _ Q), (rn _ _ _ _ _ _ _ _ _ Q), G in * by (cbn [In]; tauto); [|lra].
        destruct (Up a j (x + r b)%R) as (k' & W''); auto; [cbn; tauto|]. exists (S (S k')). apply wi_step with (e, x); [now apply c_to_e|]. apply wi_step with (neg a, x + r b)%R; auto. apply e_to_a; lra.
    + inversion C as [h y Y L E1 E2|h y Y L E1 E2]; subst h y q; rewrite (p3 _ _ _ _ _ _ _ _ _ Q), (p1 _ _ _ _ _ _ _ _ _ Q), (rn _ _ _ _ _ _ _ _ _ Q) in *.
      * rewrite neg_neg in W. inversion W as [j p E|j p q' C' W']; subst; [now cbn in Nu|]. inversion C' as [h y Y' L' E1 E2|h y Y' L' E1 E2]; subst h y q'; rewrite (p5 _ _ _ _ _ _ _ _ _ Q), (p6 _ _ _ _ _ _ _ _ _ Q), G in * by (cbn [In]; tauto); [lra|].
        destruct (Up b j (x + r c)%R) as (k' & W''); auto; [cbn; tauto|]. exists (S (S k')). apply wi_step with (e, x + r c)%R; [now apply d_to_e|]. apply wi_step with (neg b, x + r c)%R; auto. apply e_to_b; lra.
      * destruct (Up a k (x + (r b + r c))%R) as (k' & W''); auto; [cbn; tauto|]. exists (S (S k')). apply wi_step with (e, x + r c)%R; [now apply d_to_e|]. apply wi_step with (neg a, x + (r b + r c))%R; auto.
        replace (x + (r b + r c))%R with (x + r c + r b)%R by ring. apply e_to_a; lra.
  - assert (I1 := not_six_F n s s' v CS e a b c d Q h Hp I). assert (H1 := F_lt n s CS h Hp). assert (I2 := not_six_F n s s' v CS e a b c d Q _ H1 I1). assert (H2 := F_lt n s CS _ H1).
    assert (C' : cross s v (h, x) q /\ (fst q = neg (F (F h)) \/ fst q = neg (F h))).
    { assert (E1 := qo _ _ _ _ _ _ _ _ _ Q h Hp I). assert (E2 := qo _ _ _ _ _ _ _ _ _ Q _ H1 I1). assert (R0 := not_six_r n s s' v e a b c d Q h Hp I). assert (R2 := not_six_r n s s' v e a b c d Q _ H2 I2).
      clear - C E1 E2 R0 R2. inversion C as [h' y Y L A B|h' y Y L A B]; subst h' y q; rewrite E1, E2, ?R2 in *; rewrite R0 in Y; (split; [|cbn [fst]; auto]); [now apply cross_previous|now apply cross_next]. }
    destruct C' as [C' J]. destruct (IH k ltac:(lia) q W) as (k' & W').
    + destruct J as [->| ->]; now apply (N_lt n s CS).
    + destruct J as [->| ->]; intros E; [apply I2|apply I1]; rewrite <- (neg_neg (F _)), E; cbn [In]; tauto.
    + destruct J as [->| ->]; intros E; apply neg_inj in E; [apply I2|apply I1]; rewrite E; cbn [In]; tauto.
    + exists (S k'). now apply wi_step with q.
Qed.
End back.

Section lines.
Context {K : ExactReal}.
Variables (n : nat) (v : pt).
Hypothesis Nv : v <> (0, 0)%R.
Implicit Types s : flat K.
Definition lines s u := forall x, joined n s v u x -> (0 < rightwards s v x)%R -> (0 < rightwards s v (fF s (fF s x)))%R -> exists k, within s v u k (neg (fF s x), rightwards s v (fF s (fF s x))).

Lemma unflip s s' u e : closed_flat n s -> joined n s v u e -> rightwards s v e <> 0%R -> wide s v e -> u <> e -> u <> neg e -> fflip s e = (s', Ok tt) ->
  slanted n v s' u -> lines s' u -> slanted n v s u /\ lines s u.
Proof.
  intros CS J R0 W N1 N2 E SL' LN. assert (He := proj2 (joined_lt n s v CS _ _ J)).
  assert (QQ : exists e a b c d, quad n s s' v e a b c d /\ (0 < rightwards s v e)%R /\ wide s v e /\ joined n s v u e /\ u <> e /\ u <> neg e).
  { destruct (flip_quad n s s' v CS e He E) as (a & b & c & d & Q). destruct (Rlt_dec 0 (rightwards s v e)) as [L|L]; [exists e, a, b, c, d; auto 10|].
    exists (neg e), c, d, a, b. split; [now apply quad_sym|]. split; [rewrite (R_neg n s v CS) by auto; lra|]. split; [now apply (wide_neg n s v e (proj1 CS) He)|]. rewrite neg_neg. split; auto. apply jo_trans with e; auto. now apply jo_across. }
  clear e J W N1 N2 E He R0. destruct QQ as (e & a & b & c & d & Q & Pe & W & J & Nu & Nu'). assert (R0 : rightwards s v e <> 0%R) by lra.
  assert (R0' : rightwards s' v e <> 0%R).
  { destruct (joined_to_e n s s' v e a b c d Q u J) as [X|X]; [now apply SL'|]. assert (Y := SL' _ X). rewrite (rn _ _ _ _ _ _ _ _ _ Q) in Y. rewrite (ra _ _ _ _ _ _ _ _ _ Q). lra. }
  assert (JA := fun x => joined_after n s s' v e a b c d Q u x R0').
  assert (SL : slanted n v s u).
  { intros x Jx. assert (Hx := proj2 (joined_lt n s v CS _ _ Jx)). destruct (Nat.eq_dec x e) as [->|D1]; auto. destruct (Nat.eq_dec x (neg e)) as [->|D2]; [rewrite (R_neg n s v CS) by apply (qe _ _ _ _ _ _ _ _ _ Q); lra|].
    assert (Y := SL' x (JA x Jx)). unfold rightwards in Y. now rewrite (qr _ _ _ _ _ _ _ _ _ Q) in Y. }
  split; auto.
  assert (JS := fun x I => jo_trans n s v u e x J (joined_six n s s' v e a b c d Q e x R0 ltac:(now left) I)).
  destruct (wide_sides n s s' v e a b c d Q W) as (W1 & W2 & W3 & W4). destruct (sums n s s' v CS e a b c d Q) as [Z1 Z2].
  assert (Na : rightwards s v a <> 0%R) by (apply SL, JS; cbn; tauto). assert (Nb : rightwards s v b <> 0%R) by (apply SL, JS; cbn; tauto).
  assert (Nc : rightwards s v c <> 0%R) by (apply SL, JS; cbn; tauto). assert (Nd : rightwards s v d <> 0%R) by (apply SL, JS; cbn; tauto).
  destruct (signs _ _ _ Z1 Pe Na Nb W1 W2) as [Pa Pb].
  assert (Pcd : (- rightwards s v c < 0 /\ - rightwards s v d < 0)%R) by (apply (signs (rightwards s v e)); rewrite ?Rabs_Ropp; auto; lra). destruct Pcd as [Pc Pd].
  assert (Pc' : (0 < rightwards s v c)%R) by lra. assert (Pd' : (0 < rightwards s v d)%R) by lra.
  assert (Back := same_line_back n s s' v CS e a b c d Q Pa Pb Pc' Pd' u Nu Nu'). destruct (side_lt n s s' v e a b c d Q) as (Ha & Hb & Hc & Hd & He). assert (G := sides_r n s s' v e a b c d Q).
  assert (NE : forall x, In x [a; b] -> neg x <> e /\ neg x <> neg e).
  { intros x I. split; [now apply (not_e n s s' v e a b c d Q)|]. intros E. apply neg_inj in E. assert (N := qN _ _ _ _ _ _ _ _ _ Q). clear - I E N. apply NoDup_cons_iff in N as [N _]. subst x. cbn [In] in *. intuition congruence. }
  intros x Jx P1 P2. assert (Hx := proj2 (joined_lt n s v CS _ _ Jx)). destruct (in_dec Nat.eq_dec x [e; a; b; neg e; c; d]) as [I|I].
  - cbn [In] in I. destruct I as [<-|[<-|[<-|[<-|[<-|[<-|[]]]]]]].
    + rewrite (q1 _ _ _ _ _ _ _ _ _ Q), (q2 _ _ _ _ _ _ _ _ _ Q) in P2. lra.
    + lra.
    + lra.
    + rewrite (R_neg n s v CS) in P1 by auto. lra.
    + rewrite (q5 _ _ _ _ _ _ _ _ _ Q), (q6 _ _ _ _ _ _ _ _ _ Q), (R_neg n s v CS) in P2 by auto. lra.
    + rewrite (q6 _ _ _ _ _ _ _ _ _ Q), (q4 _ _ _ _ _ _ _ _ _ Q), neg_neg. rewrite (ra _ _ _ _ _ _ _ _ _ Q) in R0'. destruct (Rlt_dec (rightwards s v c) (- rightwards s v b)) as [L|L].
      * assert (T := LN e (JA e J)). rewrite (p5 _ _ _ _ _ _ _ _ _ Q), (p6 _ _ _ _ _ _ _ _ _ Q), (ra _ _ _ _ _ _ _ _ _ Q), G in T by (cbn; tauto). destruct T as (k & T); [lra|lra|]. destruct (NE b); [cbn; tauto|].
        destruct (Back k _ T) as (k' & T'); auto; [now apply (N_lt n s CS)|]. exists (S k'). apply wi_step with (neg b, rightwards s v c); auto. apply (e_to_b n s s' v e a b c d Q); lra.
      * assert (T := LN d (JA d (JS d ltac:(cbn; tauto)))). rewrite (p3 _ _ _ _ _ _ _ _ _ Q), (p1 _ _ _ _ _ _ _ _ _ Q), (rn _ _ _ _ _ _ _ _ _ Q), G in T by (cbn; tauto). destruct T as (k & T); [lra|lra|]. destruct (NE a); [cbn; tauto|].
        destruct (Back k _ T) as (k' & T'); auto; [now apply (N_lt n s CS)|]. exists (S k'). apply wi_step with (neg a, rightwards s v b + rightwards s v c)%R; auto. rewrite Rplus_comm. apply (e_to_a n s s' v e a b c d Q); lra.
  - assert (I1 := not_six_F n s s' v CS e a b c d Q x Hx I). assert (H1 := F_lt n s CS x Hx). assert (I2 := not_six_F n s s' v CS e a b c d Q _ H1 I1). assert (H2 := F_lt n s CS _ H1).
    assert (T := LN x (JA x Jx)). rewrite (qo _ _ _ _ _ _ _ _ _ Q x), (qo _ _ _ _ _ _ _ _ _ Q _ H1), !(not_six_r n s s' v e a b c d Q) in T by auto. destruct (T P1 P2) as (k & T').
    apply (Back k); auto; cbn [fst]; [now apply (N_lt n s CS)| |]; intros E; [|apply neg_inj in E]; apply I1; [rewrite <- (neg_neg (fF s x))|]; rewrite E; cbn [In]; tauto.
Qed.

(** ** Lines into the unique large edge *)
Lemma unique_lines s u : closed_flat n s -> u < n -> (0 < rightwards s v u)%R -> unique_large n s v u -> lines s u.
Proof.
  intros CS Hu Pu (Wu & SL & UQ).
  set (count := fun y => length (filter (fun z => if Rlt_dec (rightwards s v y) (rightwards s v z) then true else false) (seq 0 n))).
  assert (Up : forall m y x, count y < m -> joined n s v u y -> (0 < x < rightwards s v y)%R -> (forall z, In z [fF s (neg y); fF s (fF s (neg y))] -> (Rabs (rightwards s v z) <= Rabs (rightwards s v y))%R) -> exists k, within s v u k (y, x)).
  { induction m as [|m IH]; intros y x Lc Jy X WL; [lia|]. destruct (Nat.eq_dec y u) as [->|Ny]; [exists 0; now constructor|]. assert (Hy := proj2 (joined_lt n s v CS _ _ Jy)).
    assert (H1 := F_lt n s CS y Hy). assert (H2 := F_lt n s CS _ H1). assert (J1 : joined n s v u (fF s y)) by (apply jo_trans with y; auto; now apply jo_face). assert (J2 : joined n s v u (fF s (fF s y))) by (apply jo_trans with (fF s y); auto; now apply jo_face).
    assert (Z := R_sum n s v CS y Hy). assert (S1 := SL _ J1). assert (S2 := SL _ J2).
    assert (NW : ~ ((Rabs (rightwards s v (fF s y)) <= Rabs (rightwards s v y))%R /\ (Rabs (rightwards s v (fF s (fF s y))) <= Rabs (rightwards s v y))%R)).
    { intros [A1 A2]. assert (Wy : wide s v y) by (intros z I; cbn [In] in I; destruct I as [<-|[<-|[<-|[<-|[]]]]]; auto; apply WL; cbn [In]; tauto). destruct (UQ y Jy Wy) as [->| ->]; [contradiction|]. rewrite (R_neg n s v CS) in X by auto. lra. }
    assert (More : forall y', y' < n -> (rightwards s v y < rightwards s v y')%R -> count y' < count y).
    { intros y' Hy' L. unfold count. apply Nat.lt_le_trans with (length (y' :: filter (fun z => if Rlt_dec (rightwards s v y') (rightwards s v z) then true else false) (seq 0 n))); [cbn; lia|].
      apply NoDup_incl_length.
      - constructor; [|apply NoDup_filter, seq_NoDup]. intros I. apply filter_In in I as [_ I]. destruct (Rlt_dec _ _); [lra|discriminate].
      - intros z [<-|I]; apply filter_In.
        + split; [apply in_seq; lia|]. now destruct (Rlt_dec _ _).
        + apply filter_In in I as [I1 I2]. split; auto. destruct (Rlt_dec (rightwards s v y') (rightwards s v z)); [|discriminate]. destruct (Rlt_dec (rightwards s v y) (rightwards s v z)); auto. lra. }
    assert (N1 := R_neg n s v CS _ H1). assert (N2 := R_neg n s v CS _ H2). assert (F3 := F3 n s CS y Hy).
    destruct (Rlt_dec 0 (rightwards s v (fF s y))) as [A|A].
    - assert (B : (rightwards s v (fF s (fF s y)) < 0)%R) by lra. destruct (IH (neg (fF s (fF s y))) x) as (k & W).
      + assert (Q := More (neg (fF s (fF s y))) (N_lt n s CS _ H2)). rewrite N2 in Q. specialize (Q ltac:(lra)). lia.
      + apply jo_trans with (fF s (fF s y)); auto. now apply jo_across.
      + rewrite N2. lra.
      + rewrite N2, neg_neg, F3, Rabs_Ropp. intros z I. cbn [In] in I. destruct I as [<-|[<-|[]]]; unfold Rabs; repeat destruct (Rcase_abs _); lra.
      + exists (S k). apply wi_step with (neg (fF s (fF s y)), x); auto. apply cross_previous; auto. lra.
    - assert (A' : (rightwards s v (fF s y) < 0)%R) by lra. assert (B : (0 < rightwards s v (fF s (fF s y)))%R).
      { destruct (Rlt_dec 0 (rightwards s v (fF s (fF s y)))) as [B|B]; auto. exfalso. apply NW. unfold Rabs. repeat destruct (Rcase_abs _); lra. }
      destruct (IH (neg (fF s y)) (x + rightwards s v (fF s (fF s y)))%R) as (k & W).
      + assert (Q := More (neg (fF s y)) (N_lt n s CS _ H1)). rewrite N1 in Q. specialize (Q ltac:(lra)). lia.
      + apply jo_trans with (fF s y); auto. now apply jo_across.
      + rewrite N1. lra.
      + rewrite N1, neg_neg, F3, Rabs_Ropp. intros z I. cbn [In] in I. destruct I as [<-|[<-|[]]]; unfold Rabs; repeat destruct (Rcase_abs _); lra.
      + exists (S k). apply wi_step with (neg (fF s y), x + rightwards s v (fF s (fF s y)))%R; auto. apply cross_next; auto. lra. }
  intros x Jx P1 P2. assert (Hx := proj2 (joined_lt n s v CS _ _ Jx)). assert (H1 := F_lt n s CS x Hx). assert (Z := R_sum n s v CS x Hx). assert (N1 := R_neg n s v CS _ H1). assert (F3 := F3 n s CS x Hx).
  assert (J1 : joined n s v u (fF s x)) by (apply jo_trans with x; auto; now apply jo_face).
  apply (Up (S (count (neg (fF s x))))); [lia| | |].
  - apply jo_trans with (fF s x); auto. apply jo_across; auto.
  - rewrite N1. lra.
  - rewrite N1, neg_neg, F3, Rabs_Ropp. intros z I. cbn [In] in I. destruct I as [<-|[<-|[]]]; unfold Rabs; repeat destruct (Rcase_abs _); lra.
Qed.

(** ** Lines as fractions *)
Lemma cross_step s p q : closed_flat n s -> fst p < n -> (0 < snd p < 1)%R -> cross s v (position s v p) q -> exists p', flow_step s v p p' /\ position s v p' = q /\ (0 < snd p' < 1)%R /\ fst p' < n.
Proof.
  destruct p as [h t]. intros CS Hh T C. cbn [fst snd] in *. unfold position in C. cbn [fst snd] in C. assert (Z := R_sum n s v CS h Hh). assert (H1 := F_lt n s CS h Hh). assert (H2 := F_lt n s CS _ H1).
  inversion C as [h' y Y L E1 E2|h' y Y L E1 E2]; subst h' y q; assert (P : (0 < rightwards s v h)%R) by lra.
  - set (z := (t * rightwards s v h / - rightwards s v (fF s (fF s h)))%R). assert (D : (0 < - rightwards s v (fF s (fF s h)))%R) by lra. assert (Ez : (z * - rightwards s v (fF s (fF s h)) = t * rightwards s v h)%R) by (unfold z; field; lra).
    assert (Rz : (0 < z < 1)%R) by (split; nra). exists (neg (fF s (fF s h)), 1 - (1 - z))%R. split; [apply (step_previous n s v CS Nv); auto; try lra; replace (1 - (1 - z))%R with z by ring; auto|]. cbn [fst snd]. split; [|split; [lra|now apply (N_lt n s CS)]].
    unfold position. cbn [fst snd]. rewrite (R_neg n s v CS) by auto. f_equal. lra.
  - assert (D : (0 < - rightwards s v (fF s h))%R) by lra. set (z := ((1 - t) * rightwards s v h / - rightwards s v (fF s h))%R). assert (Ez : (z * - rightwards s v (fF s h) = (1 - t) * rightwards s v h)%R) by (unfold z; field; lra).
    assert (Rz : (0 < z < 1)%R) by (split; nra). exists (neg (fF s h), 1 - z)%R. split; [apply (step_next n s v CS Nv); auto; lra|]. cbn [fst snd]. split; [|split; [lra|now apply (N_lt n s CS)]].
    unfold position. cbn [fst snd]. rewrite (R_neg n s v CS) by auto. f_equal. lra.
Qed.
Lemma within_hit s u : closed_flat n s -> forall k p, within s v u k (position s v p) -> fst p < n -> (0 < snd p < 1)%R -> fst p = u \/ exists w, first_hit s v u p w.
Proof.
  intros CS. induction k as [k IH] using lt_wf_ind. intros p W Hp T. inversion W as [j q E|j q q' C W']; subst; [now left|]. right.
  destruct (cross_step s p q' CS Hp T C) as (p' & St & <- & T' & Hp'). destruct (Nat.eq_dec (fst p') u) as [E|E]; [|destruct (IH j ltac:(lia) p' W' Hp' T') as [|(w & A)]; [contradiction|]; exists w; now apply hit_later with p'].
  destruct p' as [h y]. cbn [fst] in E. subst h. exists y. now apply hit_now.
Qed.
Lemma separatrix_position s x p : closed_flat n s -> x < n -> separatrix s v x p -> (0 < rightwards s v x)%R /\ (0 < rightwards s v (fF s (fF s x)))%R /\ position s v p = (neg (fF s x), rightwards s v (fF s (fF s x))) /\ (0 < snd p < 1)%R /\ fst p < n.
Proof.
  intros CS Hx S. destruct S as [w c Hw Hc E]. assert (H1 := F_lt n s CS x Hx). assert (Z := R_sum n s v CS x Hx). destruct (D_pos n s v CS x Hx) as (D1 & D2 & D3).
  assert (A : (rightwards s v x + w * rightwards s v (fF s x) = 0)%R). { assert (Q := f_equal (fun q => pdet q v) E). clear - Q. unfold rightwards. unfold pdet, padd, pscale in *. cbn [fst snd] in *. lra. }
  assert (B : (c * rightwards s v x = w * pdet (vv s x) (vv s (fF s x)))%R). { assert (Q := f_equal (fun q => pdet (vv s x) q) E). clear - Q. unfold rightwards. unfold pdet, padd, pscale in *. cbn [fst snd] in *. lra. }
  assert (P1 : (0 < rightwards s v x)%R) by (clear - B D1 Hw Hc; assert (0 < w * pdet (vv s x) (vv s (fF s x)))%R by nra; nra). assert (P2 : (rightwards s v (fF s x) < 0)%R) by (clear - A P1 Hw; nra).
  split; auto. split; [clear - Z A P2 Hw; nra|]. unfold position. cbn [fst snd]. rewrite (R_neg n s v CS) by auto. split; [f_equal; lra|]. split; [lra|now apply (N_lt n s CS)].
Qed.
Lemma lines_flow s u : closed_flat n s -> slanted n v s u -> lines s u -> flows_into n s v u.
Proof.
  intros CS SL L. split; auto. intros x p J S. assert (Hx := proj2 (joined_lt n s v CS _ _ J)). destruct (separatrix_position s x p CS Hx S) as (P1 & P2 & E & T & Hp). destruct (L x J P1 P2) as (k & W). apply (within_hit s u CS k); auto. now rewrite E.
Qed.
End lines.

(** ** The loop *)
Section converse.
Context {K : ExactReal}.
Variables (n : nat) (v : vec K) (u visits : nat).
Hypothesis Nv : vden v <> (0, 0)%R.
Hypothesis Hu : u < n.
Hypothesis Hk : n < visits.
Lemma loop_ended : forall fuel (s : flat K) m flips C m', closed_flat n s -> valid n s v m -> wide s (vden v) u -> (0 < rightwards s (vden v) u)%R -> make_unique_loop fuel visits m u = Ok (flips, C, m') ->
  (forall s', fflips s flips = (s', Ok tt) -> slanted n (vden v) s' u) -> slanted n (vden v) s u /\ lines n (vden v) s u.
Proof.
  induction fuel as [|fuel IH]; intros s m flips C m' CS I Wu Pu E SL; [discriminate|]. cbn [make_unique_loop] in E. assert (Ru : rightwards s (vden v) u <> 0%R) by lra.
  destruct (visit_from n s v u (proj1 CS) Hu Ru visits m I Hk) as (o & C1 & m1 & E1 & I1 & P). rewrite E1 in E. cbn [bind] in E. destruct o as [e|].
  - destruct P as (J & We & N1 & N2 & He). destruct (flip_ok n s v m1 e I1 He) as [Y N]. destruct (can_flip_dec n s e (proj1 CS) He) as [CF|CF]; [|rewrite (N CF) in E; discriminate].
    destruct (Y CF) as (s1 & m2 & Ef & Em & I2). rewrite Em in E. cbn [bind] in E. destruct (one_flip n v u Nv Hu s s1 e CS Wu J We N1 N2 Ef) as (CS1 & Wu1 & V1 & O1).
    destruct (make_unique_loop fuel visits m2 u) as [[[fl C2] m3]| | |] eqn:EL; try discriminate. cbn [bind] in E. injection E as <- <- <-.
    destruct (IH s1 m2 fl C2 m3 CS1 I2 Wu1) as [S1 L1]; auto; [unfold rightwards in *; now rewrite V1| |].
    + intros s' E'. apply SL. cbn [fflips]. now rewrite Ef.
    + apply (unflip n (vden v) s s1 u e CS J); auto. now apply (wide_nonzero n s v CS). intros ->. now rewrite neg_neg in N2.
  - destruct P as (P1 & P2 & P3). injection E as <- <- <-. assert (S : slanted n (vden v) s u) by now apply SL. split; auto. apply unique_lines; auto. split; auto.
Qed.
End converse.
