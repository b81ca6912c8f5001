(** * Flips of wide edges and the lines from vertices *)
From Coq Require Import ZArith Reals List Arith Bool Lia Lra Psatz.
From Verif Require Import Base HalfEdge HalfEdgeFacts Perm PermSpec PermFacts Combinatorial CombinatorialSpec CombinatorialFacts CombinatorialHistory ExactReal Vector PlaneSpec Plane VectorFacts
  CombinatorialOps FlatTri FlatSpec ChainSpec FlatFacts FlatSum FlatOps FlatAngle DeformSpec Tracked Vertical VerticalSpec VerticalFacts VerticalComponents Lengths IntervalExchange IntervalExchangeSpec
  IntervalExchangeFacts IntervalExchangeFlow IntervalExchangeLarge UniqueLargeSpec UniqueLargeFlip.
Import ListNotations.
Local Open Scope nat_scope.

(** ** Positions *)
(** A point of a half edge is now given by its distance to the left end of the half edge. *)
Section cross.
Context {K : ExactReal}.
Variables (s : flat K) (v : pt).
Notation r := (rightwards s v).
Notation F := (fF s).
Inductive cross : nat * R -> nat * R -> Prop :=
| cross_previous h x : (0 < x < r h)%R -> (x < - r (F (F h)))%R -> cross (h, x) (neg (F (F h)), x)
| cross_next h x : (0 < x < r h)%R -> (0 < x + r (F (F h)))%R -> cross (h, x) (neg (F h), x + r (F (F h)))%R.
Inductive within (u : nat) : nat -> nat * R -> Prop :=
| wi_now k p : fst p = u -> within u k p
| wi_step k p q : cross p q -> within u k q -> within u (S k) p.
Lemma within_le u k p : within u k p -> forall k', k <= k' -> within u k' p.
Proof. intros W. induction W as [k p E|k p q C W IH]; intros k' L; [now constructor|]. destruct k' as [|k']; [lia|]. apply wi_step with q; auto. apply IH. lia. Qed.
Definition position (p : nat * R) : nat * R := (fst p, snd p * r (fst p))%R.

Variable n : nat.
Hypothesis CS : closed_flat n s.
Hypothesis Nv : v <> (0, 0)%R.
Lemma step_cross p q : fst p < n -> flow_step s v p q -> cross (position p) (position q).
Proof.
  destruct p as [h t]. cbn [fst]. intros Hh E. apply (step_inv n s v CS h t q Hh) in E as [[P T] E]. assert (Z := R_sum n s v CS h Hh). assert (X : (0 < t * r h < r h)%R) by nra.
  destruct E as [(u & U & -> & Eu)|(u & U & -> & Eu)]; unfold position; cbn [fst snd].
  - rewrite (R_neg n s v CS) by now apply (F_lt n s CS). replace ((1 - u) * - r (F h))%R with (t * r h + r (F (F h)))%R by lra. apply cross_next; auto.
    replace (t * r h + r (F (F h)))%R with ((1 - u) * - r (F h))%R by lra. assert (r (F h) < 0)%R by nra. nra.
  - rewrite (R_neg n s v CS) by now apply (F_lt n s CS), (F_lt n s CS). rewrite Eu. apply cross_previous; auto. assert (r (F (F h)) < 0)%R by nra. nra.
Qed.
Lemma hit_within u p w : first_hit s v u p w -> fst p < n -> exists k, within u k (position p).
Proof.
  intros A. induction A as [p w A|p q w A N A' IH]; intros Hp.
  - exists 1. apply wi_step with (position (u, w)); [now apply step_cross|]. now apply wi_now.
  - destruct (IH (step_lt n s v CS p q Hp A)) as (k & W). exists (S k). apply wi_step with (position q); auto. now apply step_cross.
Qed.
(** The line into a triangle whose third vertex is below the widest side. *)
Lemma corner x : x < n -> (0 < r x)%R -> (0 < r (F (F x)))%R -> exists p, separatrix s v x p /\ position p = (neg (F x), r (F (F x))).
Proof.
  intros Hx P1 P2. assert (Z := R_sum n s v CS x Hx). destruct (D_pos n s v CS x Hx) as (D1 & D2 & D3). set (u := (r x / - r (F x))%R). assert (N : (0 < - r (F x))%R) by lra.
  assert (Eu : (u * - r (F x) = r x)%R) by (unfold u; field; lra). assert (U : (0 < u < 1)%R) by (split; nra).
  destruct (upwards v Nv (padd (vv s x) (pscale u (vv s (F x)))) (vv s x)) as (c & C & E); auto.
  - unfold rightwards in *. clear - Eu. unfold pdet, padd, pscale in *. cbn [fst snd] in *. lra.
  - clear - D1 U. unfold pdet, padd, pscale in *. cbn [fst snd] in *. nra.
  - exists (neg (F x), 1 - u)%R. split; [now apply separatrix_crosses with c|]. unfold position. cbn [fst snd]. rewrite (R_neg n s v CS) by now apply (F_lt n s CS). f_equal. lra.
Qed.
End cross.

(** ** Lines after a flip *)
Section sim.
Context {K : ExactReal}.
Variables (n : nat) (s s' : flat K) (v : pt).
Notation r := (rightwards s v).
Notation r' := (rightwards s' v).
Notation F := (fF s).
Notation F' := (fF s').
Hypothesis CS : closed_flat n s.
Variables (e a b c d : nat).
Hypothesis Q : quad n s s' v e a b c d.
Hypothesis Pe : (0 < r e)%R.
Hypothesis Pa : (r a < 0)%R.
Hypothesis Pb : (r b < 0)%R.
Hypothesis Pc : (0 < r c)%R.
Hypothesis Pd : (0 < r d)%R.
Local Notation six := [e; a; b; neg e; c; d].

Lemma side_lt : a < n /\ b < n /\ c < n /\ d < n /\ e < n. Proof. destruct Q. auto. Qed.
Lemma not_e x : In x [a; b] -> neg x <> e.
Proof. intros I E. assert (N := qN _ _ _ _ _ _ _ _ _ Q). clear - I E N. subst e. rewrite neg_neg in N. repeat (apply NoDup_cons_iff in N as [? N]). cbn [In] in *. intuition congruence. Qed.

Lemma from_e x q : cross s v (e, x) q -> (0 < x < r e)%R /\ ((x < - r b /\ q = (neg b, x)) \/ (- r b < x /\ q = (neg a, x + r b)))%R.
Proof.
  intros C. inversion C as [h y Y L E1 E2|h y Y L E1 E2]; subst h y q; rewrite (q1 _ _ _ _ _ _ _ _ _ Q), (q2 _ _ _ _ _ _ _ _ _ Q) in *; split; auto. right. split; auto. lra.
Qed.
Lemma from_c x q : cross s v (c, x) q -> (0 < x < r c)%R /\ q = (e, x).
Proof.
  destruct (sums n s s' v CS e a b c d Q) as [Z1 Z2]. destruct side_lt as (_ & _ & _ & _ & He).
  intros C. inversion C as [h y Y L E1 E2|h y Y L E1 E2]; subst h y q; rewrite (q5 _ _ _ _ _ _ _ _ _ Q), (q6 _ _ _ _ _ _ _ _ _ Q) in *; split; auto.
  - now rewrite neg_neg. - rewrite (R_neg n s v CS) in L by auto. lra.
Qed.
Lemma from_d x q : cross s v (d, x) q -> (0 < x < r d)%R /\ q = (e, x + r c)%R.
Proof.
  intros C. inversion C as [h y Y L E1 E2|h y Y L E1 E2]; subst h y q; rewrite (q6 _ _ _ _ _ _ _ _ _ Q), (q4 _ _ _ _ _ _ _ _ _ Q) in *; split; auto.
  - lra. - now rewrite neg_neg.
Qed.
(** The same line in the other two triangles. *)
Lemma to_b_from_c x : (0 < x < r c)%R -> (x < - r b)%R -> cross s' v (c, x) (neg b, x).
Proof.
  intros X L. assert (A := cross_previous s' v c x). rewrite (p4 _ _ _ _ _ _ _ _ _ Q), (p5 _ _ _ _ _ _ _ _ _ Q), !(sides_r n s s' v e a b c d Q) in A by (cbn [In]; tauto). now apply A.
Qed.
Lemma to_a_from_c x : (0 < x < r c)%R -> (- r b < x)%R -> cross s' v (c, x) (neg e, x + r b)%R /\ cross s' v (neg e, x + r b)%R (neg a, x + r b)%R.
Proof.
  intros X L. destruct (sums n s s' v CS e a b c d Q) as [Z1 Z2]. split.
  - assert (A := cross_next s' v c x). rewrite (p4 _ _ _ _ _ _ _ _ _ Q), (p5 _ _ _ _ _ _ _ _ _ Q), !(sides_r n s s' v e a b c d Q) in A by (cbn [In]; tauto). apply A; auto. lra.
  - assert (A := cross_previous s' v (neg e) (x + r b)%R). rewrite (p2 _ _ _ _ _ _ _ _ _ Q), (p3 _ _ _ _ _ _ _ _ _ Q), (rn _ _ _ _ _ _ _ _ _ Q), !(sides_r n s s' v e a b c d Q) in A by (cbn [In]; tauto). apply A; lra.
Qed.
Lemma to_a_from_d x : (0 < x < r d)%R -> (- r b < x + r c)%R -> cross s' v (d, x) (neg a, x + r c + r b)%R.
Proof.
  intros X L. assert (A := cross_next s' v d x). rewrite (p3 _ _ _ _ _ _ _ _ _ Q), (p1 _ _ _ _ _ _ _ _ _ Q), (rn _ _ _ _ _ _ _ _ _ Q), !(sides_r n s s' v e a b c d Q) in A by (cbn [In]; tauto).
  replace (x + r c + r b)%R with (x + (r b + r c))%R by ring. apply A; auto. lra.
Qed.
Lemma to_b_from_d x : (0 < x < r d)%R -> (x + r c < - r b)%R -> cross s' v (d, x) (e, x) /\ cross s' v (e, x) (neg b, x + r c)%R.
Proof.
  intros X L. split.
  - assert (A := cross_previous s' v d x). rewrite (p3 _ _ _ _ _ _ _ _ _ Q), (p1 _ _ _ _ _ _ _ _ _ Q), (rn _ _ _ _ _ _ _ _ _ Q), neg_neg, !(sides_r n s s' v e a b c d Q) in A by (cbn [In]; tauto). apply A; auto. lra.
  - assert (A := cross_next s' v e x). rewrite (p5 _ _ _ _ _ _ _ _ _ Q), (p6 _ _ _ _ _ _ _ _ _ Q), (ra _ _ _ _ _ _ _ _ _ Q), !(sides_r n s s' v e a b c d Q) in A by (cbn [In]; tauto). apply A; lra.
Qed.

Variable u : nat.
Hypothesis Nu : u <> e.
Lemma same_line : forall k p, within s v u k p -> fst p < n -> fst p <> e -> within s' v u k p.
Proof.
  induction k as [k IH] using lt_wf_ind. intros p W Hp Np. destruct side_lt as (Ha & Hb & Hc & Hd & He). destruct W as [k p E|k p q C W]; [now constructor|].
  assert (Top : forall k' y q, within s v u k' (e, y) -> k' <= k -> cross s v (e, y) q -> within s' v u (pred k') q).
  { clear p q C W Hp Np. intros k' y q W L C. inversion W as [j p E|j p q' C' W']; subst; [now cbn in Nu|]. destruct (from_e y q C) as [Y Eq]. destruct (from_e y q' C') as [_ Eq'].
    assert (q' = q) by (destruct Eq as [[? ->]|[? ->]], Eq' as [[? ->]|[? ->]]; auto; lra). subst q'. cbn [pred]. apply IH; auto; destruct Eq as [[_ ->]|[_ ->]]; cbn [fst].
    - now apply (N_lt n s CS). - now apply (N_lt n s CS). - apply not_e. cbn; tauto. - apply not_e. cbn; tauto. }
  destruct p as [h x]. cbn [fst] in *. destruct (in_dec Nat.eq_dec h six) as [I|I].
  - cbn [In] in I. assert (P : (0 < x < r h)%R) by (clear - C; inversion C; auto). destruct I as [<-|[<-|[<-|[<-|[<-|[<-|[]]]]]]].
    + contradiction.
    + lra.
    + lra.
    + rewrite (R_neg n s v CS) in P by auto. lra.
    + destruct (from_c x q C) as [X ->]. inversion W as [j p E|j p q' C' W']; subst; [now cbn in Nu|]. assert (T := Top _ _ _ W (le_n _) C'). cbn [pred] in T.
      destruct (from_e x q' C') as [_ [[L ->]|[L ->]]].
      * apply wi_step with (neg b, x); [now apply to_b_from_c|]. apply within_le with j; auto.
      * destruct (to_a_from_c x X L) as [A1 A2]. apply wi_step with (neg e, x + r b)%R; auto. apply wi_step with (neg a, x + r b)%R; auto.
    + destruct (from_d x q C) as [X ->]. inversion W as [j p E|j p q' C' W']; subst; [now cbn in Nu|]. assert (T := Top _ _ _ W (le_n _) C'). cbn [pred] in T.
      destruct (from_e _ q' C') as [_ [[L ->]|[L ->]]].
      * destruct (to_b_from_d x X L) as [A1 A2]. apply wi_step with (e, x); auto. apply wi_step with (neg b, x + r c)%R; auto.
      * apply wi_step with (neg a, x + r c + r b)%R; [now apply to_a_from_d|]. apply within_le with j; auto.
  - assert (I1 := not_six_F n s s' v CS e a b c d Q h Hp I). assert (H1 := F_lt n s CS h Hp). assert (I2 := not_six_F n s s' v CS e a b c d Q _ H1 I1). assert (H2 := F_lt n s CS _ H1).
    assert (C' : cross s' v (h, x) q).
    { assert (E1 := qo _ _ _ _ _ _ _ _ _ Q h Hp I). assert (E2 := qo _ _ _ _ _ _ _ _ _ Q _ H1 I1). assert (R0 := not_six_r n s s' v e a b c d Q h Hp I). assert (R2 := not_six_r n s s' v e a b c d Q _ H2 I2).
      clear - C E1 E2 R0 R2. assert (A1 := cross_previous s' v h x). assert (A2 := cross_next s' v h x). rewrite E1, E2, R0, R2 in A1, A2. inversion C; subst; auto. }
    apply wi_step with q; auto. assert (J : fst q = neg (F (F h)) \/ fst q = neg (F h)) by (clear - C; inversion C; auto).
    apply IH; auto; destruct J as [->| ->]; try (now apply (N_lt n s CS)); intros E; [apply I2|apply I1]; rewrite <- E, neg_neg; cbn [In]; tauto.
Qed.

(** The line from the vertex below [e] does not cross [e] anymore. *)
Lemma below_line k : within s v u k (e, r c) -> 0 < k /\ (((r c < - r b)%R /\ within s' v u (pred k) (neg b, r c)) \/ ((- r b < r c)%R /\ within s' v u (pred k) (neg a, r c + r b)%R)).
Proof.
  destruct side_lt as (Ha & Hb & Hc & Hd & He). intros W. inversion W as [j p E|j p q' C' W']; subst; [now cbn in Nu|]. split; [lia|]. cbn [pred]. destruct (from_e _ _ C') as [_ [[L ->]|[L ->]]]; [left|right]; split; auto; apply same_line; auto; cbn [fst];
    try (now apply (N_lt n s CS)); apply not_e; cbn; tauto.
Qed.
(** The corners of the two triangles into which a line goes. *)
Lemma corners_after x : In x six -> (0 < r' x)%R -> (0 < r' (F' (F' x)))%R -> (x = e /\ (r c < - r b)%R /\ (neg (F' x), r' (F' (F' x))) = (neg b, r c)) \/
  (x = d /\ (- r b < r c)%R /\ (neg (F' x), r' (F' (F' x))) = (neg a, r c + r b)%R).
Proof.
  intros I P1 P2. assert (G := sides_r n s s' v e a b c d Q). cbn [In] in I. destruct I as [<-|[<-|[<-|[<-|[<-|[<-|[]]]]]]].
  - left. rewrite (p5 _ _ _ _ _ _ _ _ _ Q), (p6 _ _ _ _ _ _ _ _ _ Q), (ra _ _ _ _ _ _ _ _ _ Q), !G in * by (cbn [In]; tauto). split; auto. split; auto. lra.
  - rewrite G in P1 by (cbn [In]; tauto). lra.
  - rewrite G in P1 by (cbn [In]; tauto). lra.
  - rewrite (p2 _ _ _ _ _ _ _ _ _ Q), (p3 _ _ _ _ _ _ _ _ _ Q), G in P2 by (cbn [In]; tauto). lra.
  - rewrite (p4 _ _ _ _ _ _ _ _ _ Q), (p5 _ _ _ _ _ _ _ _ _ Q), G in P2 by (cbn [In]; tauto). lra.
  - right. rewrite (p3 _ _ _ _ _ _ _ _ _ Q), (p1 _ _ _ _ _ _ _ _ _ Q), (rn _ _ _ _ _ _ _ _ _ Q) in *. split; auto. split; [lra|]. f_equal. lra.
Qed.
End sim.
