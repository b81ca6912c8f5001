(** * The flow through contours *)
From Coq Require Import ZArith Reals List Arith Bool Lia Lra Psatz.
From Verif Require Import Base HalfEdge HalfEdgeFacts Perm PermSpec PermFacts Combinatorial CombinatorialSpec CombinatorialFacts CombinatorialHistory ExactReal Vector PlaneSpec Plane VectorFacts
  CombinatorialOps FlatTri FlatSpec ChainSpec FlatFacts FlatSum FlatOps FlatAngle DeformSpec Tracked Vertical VerticalSpec VerticalFacts VerticalComponents Lengths IntervalExchange IntervalExchangeSpec IntervalExchangeFacts.
Import ListNotations.
Local Open Scope nat_scope.

Section flow.
Context {K : ExactReal}.
Variables (n : nat) (s : flat K) (v : pt).
Hypothesis CS : closed_flat n s.
Hypothesis Nv : v <> (0, 0)%R.
Notation r := (rightwards s v).
Notation F := (fF s).
Let S0 : flat_surface n s := proj1 CS.

(** A vector that is parallel to [v] and to the left of a vector that points to the right is a positive multiple of [v]. *)
Lemma upwards (p a : pt) : pdet p v = 0%R -> (0 < pdet a v)%R -> (0 < pdet a p)%R -> exists c, (0 < c)%R /\ p = pscale c v.
Proof.
  intros Z A B. assert (V := pdot_pos v Nv). exists (pdot p v / pdot v v)%R. assert (E : p = pscale (pdot p v / pdot v v) v).
  { destruct p as [x y], v as [q w]. unfold pdet, pdot, pscale in *. cbn [fst snd] in *. apply pt_eq; cbn [fst snd]; apply (Rmult_eq_reg_r (q * q + w * w)); try lra.
    - replace ((x * q + y * w) / (q * q + w * w) * q * (q * q + w * w))%R with ((x * q + y * w) * q)%R by (field; lra). replace (x * (q * q + w * w))%R with (x * q * q + (x * w) * w)%R by ring. replace (x * w)%R with (y * q)%R by lra. ring.
    - replace ((x * q + y * w) / (q * q + w * w) * w * (q * q + w * w))%R with ((x * w) * q + y * w * w)%R by (field; lra). replace (x * w)%R with (y * q)%R by lra. ring. }
  split; auto. set (c := (pdot p v / pdot v v)%R) in *. rewrite E in B. assert (Q : pdet a (pscale c v) = (c * pdet a v)%R) by (unfold pdet, pscale; cbn; ring). rewrite Q in B. clear - A B. nra.
Qed.
Lemma step_next h t u : h < n -> (0 < r h)%R -> (0 < t < 1)%R -> (0 < u < 1)%R -> (r h + u * r (F h) = t * r h)%R -> flow_step s v (h, t) (neg (F h), 1 - u)%R.
Proof.
  intros Hh P T U E. destruct (D_pos n s v CS h Hh) as (D1 & D2 & D3).
  destruct (upwards (padd (pscale (1 - t) (vv s h)) (pscale u (vv s (F h)))) (vv s h)) as (c & C & Q); auto.
  - unfold rightwards in E. unfold pdet, padd, pscale in *. cbn [fst snd] in *. lra.
  - clear - D1 U. unfold pdet, padd, pscale in *. cbn [fst snd] in *. nra.
  - apply (flow_next s v h t u c); auto. clear - Q. destruct (vv s h) as [x y], (vv s (F h)) as [x' y'], v as [p q]. unfold padd, pscale in *. cbn [fst snd] in *. injection Q as Q1 Q2. f_equal; lra.
Qed.
Lemma step_previous h t u : h < n -> (0 < r h)%R -> (0 < t < 1)%R -> (0 < u < 1)%R -> ((1 - u) * - r (F (F h)) = t * r h)%R -> flow_step s v (h, t) (neg (F (F h)), 1 - u)%R.
Proof.
  intros Hh P T U E. destruct (D_pos n s v CS h Hh) as (D1 & D2 & D3). destruct (fs_flat n s S0 h Hh (proj2 CS h Hh)) as [Z _].
  destruct (upwards (padd (pscale (- t) (vv s h)) (pscale (- (1 - u)) (vv s (F (F h))))) (vv s h)) as (c & C & Q); auto.
  - unfold rightwards in E. unfold pdet, padd, pscale in *. cbn [fst snd] in *. lra.
  - clear - D3 U. unfold pdet, padd, pscale in *. cbn [fst snd] in *. nra.
  - apply (flow_previous s v h t u c); auto. clear - Q Z. destruct (vv s h) as [x y], (vv s (F h)) as [x' y'], (vv s (F (F h))) as [x2 y2], v as [p q]. unfold padd, pscale in *. cbn [fst snd] in *. injection Q as Q1 Q2. injection Z as Z1 Z2. f_equal; lra.
Qed.

(** Conversely. *)
Lemma step_inv h t q : h < n -> flow_step s v (h, t) q -> (0 < r h /\ 0 < t < 1)%R /\
  ((exists u, 0 < u < 1 /\ q = (neg (F h), 1 - u) /\ r h + u * r (F h) = t * r h)%R \/ (exists u, 0 < u < 1 /\ q = (neg (F (F h)), 1 - u) /\ (1 - u) * - r (F (F h)) = t * r h)%R).
Proof.
  intros Hh E. destruct (D_pos n s v CS h Hh) as (D1 & D2 & D3). destruct (fs_flat n s S0 h Hh (proj2 CS h Hh)) as [Z _].
  inversion E as [h' t' u c T U C Q E1 E2|h' t' u c T U C Q E1 E2]; subst h' t' q.
  - assert (A : (c * pdet (vv s h) v = u * pdet (vv s h) (vv s (F h)))%R).
    { clear - Q. destruct (vv s h) as [x y], (vv s (F h)) as [x' y'], v as [p q]. unfold padd, pscale, pdet in *. cbn [fst snd] in *. injection Q as Q1 Q2.
      assert (c * p = x + u * x' - t * x)%R by lra. assert (c * q = y + u * y' - t * y)%R by lra. replace (c * (x * q - y * p))%R with (x * (c * q) - y * (c * p))%R by ring. rewrite H, H0. ring. }
    split. { split; auto. unfold rightwards. clear - A C D1 U. nra. }
    left. exists u. split; auto. split; auto. unfold rightwards. clear - Q. destruct (vv s h) as [x y], (vv s (F h)) as [x' y'], v as [p q]. unfold padd, pscale, pdet in *. cbn [fst snd] in *. injection Q as Q1 Q2.
    assert (X : (x + u * x' - t * x = c * p)%R) by lra. assert (Y : (y + u * y' - t * y = c * q)%R) by lra.
    assert ((x + u * x' - t * x) * q = (y + u * y' - t * y) * p)%R by (rewrite X, Y; ring). lra.
  - assert (A : (c * pdet (vv s h) v = (1 - u) * pdet (vv s (F (F h))) (vv s h))%R).
    { clear - Q Z. destruct (vv s h) as [x y], (vv s (F h)) as [x' y'], (vv s (F (F h))) as [x2 y2], v as [p q]. unfold padd, pscale, pdet in *. cbn [fst snd] in *. injection Q as Q1 Q2. injection Z as Z1 Z2.
      assert (x' = - x - x2)%R by lra. assert (y' = - y - y2)%R by lra. subst x' y'.
      assert (X : (c * p = - (1 - u) * x2 - t * x)%R) by lra. assert (Y : (c * q = - (1 - u) * y2 - t * y)%R) by lra. replace (c * (x * q - y * p))%R with (x * (c * q) - y * (c * p))%R by ring. rewrite X, Y. ring. }
    split. { split; auto. unfold rightwards. clear - A C D3 U. nra. }
    right. exists u. split; auto. split; auto. unfold rightwards. clear - Q Z. destruct (vv s h) as [x y], (vv s (F h)) as [x' y'], (vv s (F (F h))) as [x2 y2], v as [p q]. unfold padd, pscale, pdet in *. cbn [fst snd] in *. injection Q as Q1 Q2. injection Z as Z1 Z2.
    assert (x' = - x - x2)%R by lra. assert (y' = - y - y2)%R by lra. subst x' y'.
    assert (X : (- (1 - u) * x2 - t * x = c * p)%R) by lra. assert (Y : (- (1 - u) * y2 - t * y = c * q)%R) by lra.
    assert (((- (1 - u) * x2 - t * x) * q = (- (1 - u) * y2 - t * y) * p)%R) by (rewrite X, Y; ring). lra.
Qed.
Lemma apart a b c t u w : (a + b + c = 0)%R -> (0 < a)%R -> (0 < t < 1)%R -> (0 < u < 1)%R -> (0 < w < 1)%R -> (a + u * b = t * a)%R -> ((1 - w) * - c = t * a)%R -> False.
Proof.
  intros Z P T U W E1 E2. assert (c = - a - b)%R by lra. subst c. assert (Q : (0 < t * a)%R) by nra. assert (b < 0)%R by nra. assert (0 < a + b)%R by nra.
  assert (0 < w * (a + b))%R by nra. assert (0 < (1 - u) * - b)%R by nra. lra.
Qed.
Lemma step_fun p q q' : fst p < n -> flow_step s v p q -> flow_step s v p q' -> q = q'.
Proof.
  destruct p as [h t]. cbn [fst]. intros Hh A B. assert (Z := R_sum n s v CS h Hh).
  apply step_inv in A as [[P T] A]; auto. apply step_inv in B as [_ B]; auto.
  destruct A as [(u & U & -> & Eu)|(u & U & -> & Eu)], B as [(w & W & -> & Ew)|(w & W & -> & Ew)].
  - assert (Q : ((u - w) * r (F h) = 0)%R) by lra. assert (r (F h) < 0)%R by (clear - Eu U T P; nra). assert (u = w) by nra. now subst.
  - exfalso. apply (apart (r h) (r (F h)) (r (F (F h))) t u w); auto.
  - exfalso. apply (apart (r h) (r (F h)) (r (F (F h))) t w u); auto.
  - assert (Q : ((u - w) * r (F (F h)) = 0)%R) by lra. assert (r (F (F h)) < 0)%R by (clear - Eu U T P; nra). assert (u = w) by nra. now subst.
Qed.
Lemma step_lt p q : fst p < n -> flow_step s v p q -> fst q < n.
Proof. intros H A. destruct A as [h t u c|h t u c]; cbn [fst] in *; apply (N_lt n s CS), (F_lt n s CS); auto. now apply (F_lt n s CS). Qed.
Lemma first_hit_fun h p u : first_hit s v h p u -> fst p < n -> forall u', first_hit s v h p u' -> u = u'.
Proof.
  intros A. induction A as [p u A|p q u A N A' IH]; intros Hp u' B; inversion B as [p' w B1|p' q' w B1 N' B2]; subst.
  - assert (E := step_fun _ _ _ Hp A B1). congruence.
  - assert (E := step_fun _ _ _ Hp A B1). subst. contradiction.
  - assert (E := step_fun _ _ _ Hp A B1). subst. now cbn in N.
  - assert (E := step_fun _ _ _ Hp A B1). subst. apply IH; auto. eapply step_lt; eauto.
Qed.

(** ** Widths before a half edge *)
Lemma before_left (f : nat -> R) l1 l2 e : In e l1 -> before f (l1 ++ l2) e = before f l1 e.
Proof. induction l1 as [|x l1 IH]; intros I; [destruct I|]. cbn [app before]. destruct (Nat.eqb_spec x e) as [->|N]; auto. destruct I as [->|I]; [contradiction|]. now rewrite IH. Qed.
Lemma before_right (f : nat -> R) l1 l2 e : ~ In e l1 -> before f (l1 ++ l2) e = (rsum (map f l1) + before f l2 e)%R.
Proof.
  induction l1 as [|x l1 IH]; intros I; cbn [app before map rsum]; [ring|]. destruct (Nat.eqb_spec x e) as [->|N]; [exfalso; apply I; now left|]. rewrite IH; [ring|]. intros Q. apply I. now right.
Qed.
Lemma before_bound (f : nat -> R) l e : (forall x, In x l -> 0 < f x)%R -> In e l -> (0 <= before f l e /\ before f l e + f e <= rsum (map f l))%R.
Proof.
  assert (P0 : forall l', (forall x, In x l' -> 0 < f x)%R -> (0 <= rsum (map f l'))%R).
  { induction l' as [|y l' IH']; intros P; cbn [map rsum]; [lra|]. assert (0 <= rsum (map f l'))%R by (apply IH'; intros; apply P; now right). assert (0 < f y)%R by (apply P; now left). lra. }
  induction l as [|x l IH]; intros P I; [destruct I|]. cbn [before map rsum]. assert (Px : (0 < f x)%R) by (apply P; now left). assert (P' : forall y, In y l -> (0 < f y)%R) by (intros; apply P; now right).
  assert (S := P0 l P'). destruct (Nat.eqb_spec x e) as [->|N]; [lra|]. destruct I as [->|I]; [contradiction|]. destruct (IH P' I). lra.
Qed.

(** ** Upwards from a half edge to the contour above it *)
Lemma contour_flow h0 u a l : a < n -> contour s v a l -> (forall x, node s v a x -> x <> a -> x <> h0) ->
  forall e x, In e l -> (0 < x < r e)%R -> first_hit s v h0 (e, x / r e)%R u -> first_hit s v h0 (a, (before r l e + x) / r a)%R u.
Proof.
  intros Ha C. induction C as [a Q|a l1 l2 B C1 IH1 C2 IH2]; intros N e x I X H.
  - destruct I as [->|[]]. cbn [before]. rewrite Nat.eqb_refl. replace (0 + x)%R with x by ring. exact H.
  - assert (Hl := lchild_lt n s CS a Ha). assert (Hr := rchild_lt n s CS a Ha). destruct (children n s v CS a Ha B) as (P1 & P2 & P3). assert (Pa := proj1 B). assert (H1 := F_lt n s CS a Ha). assert (H2 := F_lt n s CS _ H1).
    assert (Nl : node s v a (lchild s a)) by (constructor; auto; constructor). assert (Nr : node s v a (rchild s a)) by (constructor; auto; constructor).
    assert (Pl : forall y, In y l1 -> (0 < r y)%R) by (intros y Y; apply (contour_In n s v CS _ _ Hl C1) in Y as [_ [Y _]]; auto).
    assert (Pr : forall y, In y l2 -> (0 < r y)%R) by (intros y Y; apply (contour_In n s v CS _ _ Hr C2) in Y as [_ [Y _]]; auto).
    assert (S1 := contour_sum n s v CS _ _ Hl C1). assert (S2 := contour_sum n s v CS _ _ Hr C2).
    assert (Ne : forall y, r y = (r a)%R -> (r y < r a)%R -> False) by (intros; lra).
    assert (Rl : lchild s a <> a) by (intros E; apply (Ne (lchild s a)); [now rewrite E|lra]). assert (Rr : rchild s a <> a) by (intros E; apply (Ne (rchild s a)); [now rewrite E|lra]).
    assert (Nl' : forall y, node s v (lchild s a) y -> y <> a). { intros y Y E. apply (node_le n s v CS _ _ Hl) in Y. rewrite E in Y. lra. }
    assert (Nr' : forall y, node s v (rchild s a) y -> y <> a). { intros y Y E. apply (node_le n s v CS _ _ Hr) in Y. rewrite E in Y. lra. }
    destruct (in_dec Nat.eq_dec e l1) as [I1|I1].
    + rewrite before_left by auto. destruct (before_bound r l1 e Pl I1) as [B1 B2]. rewrite S1 in B2. set (y := (before r l1 e + x)%R) in *.
      assert (Y : (0 < y < r (lchild s a))%R) by (unfold y; lra).
      assert (T : (0 < y / r a < 1)%R). { split; [apply Rdiv_lt_0_compat; lra|]. apply (Rmult_lt_reg_r (r a)); auto. replace (y / r a * r a)%R with y by (field; lra). lra. }
      assert (U : (0 < y / r (lchild s a) < 1)%R). { split; [apply Rdiv_lt_0_compat; lra|]. apply (Rmult_lt_reg_r (r (lchild s a))); auto. replace (y / r (lchild s a) * r (lchild s a))%R with y by (field; lra). lra. }
      apply hit_later with (lchild s a, (y / r (lchild s a)))%R; [| |apply (IH1 Hl); [|exact I1|exact X|exact H]].
      * replace (y / r (lchild s a))%R with (1 - (1 - y / r (lchild s a)))%R by ring. unfold lchild at 1. apply step_previous; auto; [lra|].
        replace (- r (F (F a)))%R with (r (lchild s a)) by (unfold lchild; rewrite (R_neg n s v CS) by auto; ring). field. lra.
      * cbn [fst]. now apply N.
      * intros z Z _. apply N; [|now apply Nl']. now apply (node_trans _ _ _ (lchild s a)).
    + assert (I2 : In e l2) by (apply in_app_or in I; tauto). rewrite before_right, S1 by auto. destruct (before_bound r l2 e Pr I2) as [B1 B2]. rewrite S2 in B2. set (y := (before r l2 e + x)%R) in *.
      assert (Y : (0 < y < r (rchild s a))%R) by (unfold y; lra). replace (r (lchild s a) + before r l2 e + x)%R with (r (lchild s a) + y)%R by (unfold y; ring).
      assert (T : (0 < (r (lchild s a) + y) / r a < 1)%R). { split; [apply Rdiv_lt_0_compat; lra|]. apply (Rmult_lt_reg_r (r a)); auto. replace ((r (lchild s a) + y) / r a * r a)%R with (r (lchild s a) + y)%R by (field; lra). lra. }
      assert (U : (0 < y / r (rchild s a) < 1)%R). { split; [apply Rdiv_lt_0_compat; lra|]. apply (Rmult_lt_reg_r (r (rchild s a))); auto. replace (y / r (rchild s a) * r (rchild s a))%R with y by (field; lra). lra. }
      apply hit_later with (rchild s a, (y / r (rchild s a)))%R; [| |apply (IH2 Hr); [|exact I2|exact X|exact H]].
      * replace (y / r (rchild s a))%R with (1 - (1 - y / r (rchild s a)))%R by ring. unfold rchild at 1. apply step_next; auto; [lra|].
        replace (r (F a)) with (- r (rchild s a))%R by (unfold rchild; rewrite (R_neg n s v CS) by auto; ring). replace ((r (lchild s a) + y) / r a * r a)%R with (r (lchild s a) + y)%R by (field; lra). replace ((1 - y / r (rchild s a)) * - r (rchild s a))%R with (y - r (rchild s a))%R by (field; lra). lra.
      * cbn [fst]. now apply N.
      * intros z Z _. apply N; [|now apply Nr']. now apply (node_trans _ _ _ (rchild s a)).
Qed.
End flow.

(** ** Upside down *)
Section mirror.
Context {K : ExactReal}.
Variables (n : nat) (s : flat K) (v : pt).
Hypothesis CS : closed_flat n s.
Hypothesis Nv : v <> (0, 0)%R.
Notation r := (rightwards s v).
Notation F := (fF s).
Lemma down_r x : rightwards s (pneg v) x = (- r x)%R.
Proof. unfold rightwards, pdet, pneg. cbn [fst snd]. ring. Qed.
Lemma down_nonzero : pneg v <> (0, 0)%R.
Proof. intros E. apply Nv. destruct v as [p q]. unfold pneg in E. cbn [fst snd] in E. injection E as E1 E2. f_equal; lra. Qed.
Lemma down_joined x y : joined n s v x y <-> joined n s (pneg v) x y.
Proof.
  split; intros J; induction J as [x Hx|x Hx|x Hx N|x y J IH|x y z J1 IH1 J2 IH2]; try (now constructor); try (eapply jo_trans; eauto; fail).
  - apply jo_across; auto. rewrite down_r. lra. - apply jo_across; auto. rewrite down_r in N. lra.
Qed.
Lemma down_wide x : wide s (pneg v) x <-> wide s v x.
Proof. unfold wide. split; intros H y Y; specialize (H y Y); rewrite !down_r, !Rabs_Ropp in *; auto. Qed.

(** From the contour below a half edge up to the half edge. *)
Lemma contour_flow_down h0 u a l : a < n -> contour s (pneg v) a l -> (forall x, node s (pneg v) a x -> back s (pneg v) x -> x <> a -> neg x <> h0) ->
  forall e x, In e l -> e <> a -> (0 < x < - r e)%R ->
  (forall y, (0 < y < - r a)%R -> y = (before (rightwards s (pneg v)) l e + x)%R -> neg a = h0 /\ u = (1 - y / - r a)%R \/ neg a <> h0 /\ first_hit s v h0 (neg a, 1 - y / - r a)%R u) ->
  first_hit s v h0 (neg e, 1 - x / - r e)%R u.
Proof.
  assert (Nv' := down_nonzero). intros Ha C. induction C as [a Q|a l1 l2 B C1 IH1 C2 IH2]; intros N e x I De X H.
  - destruct I as [->|[]]. contradiction.
  - assert (Hl := lchild_lt n s CS a Ha). assert (Hr := rchild_lt n s CS a Ha). destruct (children n s (pneg v) CS a Ha B) as (P1 & P2 & P3). assert (Pa := proj1 B). assert (H1 := F_lt n s CS a Ha). assert (H2 := F_lt n s CS _ H1).
    rewrite down_r in P1, P2, Pa. rewrite !down_r in P3.
    assert (Pl : forall y, In y l1 -> (0 < rightwards s (pneg v) y)%R) by (intros y Y; apply (contour_In n s _ CS _ _ Hl C1) in Y as [_ [Y _]]; auto).
    assert (Pr : forall y, In y l2 -> (0 < rightwards s (pneg v) y)%R) by (intros y Y; apply (contour_In n s _ CS _ _ Hr C2) in Y as [_ [Y _]]; auto).
    assert (S1 := contour_sum n s _ CS _ _ Hl C1). assert (S2 := contour_sum n s _ CS _ _ Hr C2). rewrite down_r in S1, S2.
    assert (Ne : forall y, r y = r a -> (- r y < - r a)%R -> False) by (intros; lra).
    assert (Nl' : forall y, node s (pneg v) (lchild s a) y -> y <> a). { intros y Y E. apply (node_le n s _ CS _ _ Hl) in Y. rewrite !down_r, E in Y. lra. }
    assert (Nr' : forall y, node s (pneg v) (rchild s a) y -> y <> a). { intros y Y E. apply (node_le n s _ CS _ _ Hr) in Y. rewrite !down_r, E in Y. lra. }
    assert (Nl : node s (pneg v) a (lchild s a)) by (constructor; auto; constructor). assert (Nr : node s (pneg v) a (rchild s a)) by (constructor; auto; constructor).
    assert (F3a := F3 n s CS a Ha).
    (* The last step, through the triangle above [neg a]. *)
    assert (Left : forall y, (0 < y < - r (lchild s a))%R -> flow_step s v (neg (lchild s a), 1 - y / - r (lchild s a))%R (neg a, 1 - y / - r a)%R).
    { intros y Y. unfold lchild at 1. rewrite neg_neg. replace (neg a) with (neg (F (F (F a)))) by now rewrite F3a.
      assert (E : r (F (F a)) = (- r (lchild s a))%R) by (unfold lchild; rewrite (R_neg n s v CS) by auto; ring).
      apply (step_next n s v CS Nv); auto; try rewrite E; try lra.
      - split; [|assert (0 < y / - r (lchild s a))%R by (apply Rdiv_lt_0_compat; lra); lra]. assert (y / - r (lchild s a) < 1)%R; [|lra]. apply (Rmult_lt_reg_r (- r (lchild s a))); [lra|]. replace (y / - r (lchild s a) * - r (lchild s a))%R with y by (field; lra). lra.
      - split; [apply Rdiv_lt_0_compat; lra|]. apply (Rmult_lt_reg_r (- r a)); [lra|]. replace (y / - r a * - r a)%R with y by (field; lra). lra.
      - rewrite F3a. field. lra. }
    assert (Right : forall y, (0 < y < - r (rchild s a))%R -> flow_step s v (neg (rchild s a), 1 - y / - r (rchild s a))%R (neg a, 1 - (- r (lchild s a) + y) / - r a)%R).
    { intros y Y. unfold rchild at 1. rewrite neg_neg. replace (neg a) with (neg (F (F (F a)))) by now rewrite F3a.
      assert (E : r (F a) = (- r (rchild s a))%R) by (unfold rchild; rewrite (R_neg n s v CS) by auto; ring).
      apply (step_previous n s v CS Nv); auto; try rewrite E; try lra.
      - split; [|assert (0 < y / - r (rchild s a))%R by (apply Rdiv_lt_0_compat; lra); lra]. assert (y / - r (rchild s a) < 1)%R; [|lra]. apply (Rmult_lt_reg_r (- r (rchild s a))); [lra|]. replace (y / - r (rchild s a) * - r (rchild s a))%R with y by (field; lra). lra.
      - split; [apply Rdiv_lt_0_compat; lra|]. apply (Rmult_lt_reg_r (- r a)); [lra|]. replace ((- r (lchild s a) + y) / - r a * - r a)%R with (- r (lchild s a) + y)%R by (field; lra). lra.
      - rewrite F3a. replace (r a) with (r (lchild s a) + r (rchild s a))%R by lra. field. lra. }
    assert (Go : forall p y, (0 < y < - r a)%R -> y = (before (rightwards s (pneg v)) (l1 ++ l2) e + x)%R -> flow_step s v p (neg a, 1 - y / - r a)%R -> first_hit s v h0 p u).
    { intros p y Y Ey St. destruct (H y Y Ey) as [[E1 E2]|[E1 E2]]; [subst u; rewrite E1 in St; now apply hit_now|]. now apply hit_later with (neg a, 1 - y / - r a)%R. }
    destruct (in_dec Nat.eq_dec e l1) as [I1|I1].
    + rewrite before_left in * by auto. destruct (before_bound _ l1 e Pl I1) as [B1 B2]. rewrite S1, down_r in B2.
      destruct (Nat.eq_dec e (lchild s a)) as [El|El].
      * assert (Z : before (rightwards s (pneg v)) l1 e = 0%R) by (rewrite El in B2; rewrite El; rewrite El in B1; lra). apply (Go _ x); [lra|rewrite Z; ring|]. rewrite El. apply Left. rewrite El in X. lra.
      * apply (IH1 Hl); auto.
        -- intros y Y By _. apply N; auto. now apply (node_trans _ _ _ (lchild s a)).
        -- intros y Y Ey. right. split; [|apply (Go _ y); [lra|auto|now apply Left]]. apply N; [exact Nl| |apply Nl'; constructor].
           inversion C1 as [? Q' E E'|? ? ? B' ? ? E E']; [|exact B']. rewrite <- E' in I1. destruct I1 as [I1|[]]. now elim El.
    + assert (I2 : In e l2) by (apply in_app_or in I; tauto). rewrite before_right, S1 in * by auto. destruct (before_bound _ l2 e Pr I2) as [B1 B2]. rewrite S2, down_r in B2.
      destruct (Nat.eq_dec e (rchild s a)) as [El|El].
      * assert (Z : before (rightwards s (pneg v)) l2 e = 0%R) by (rewrite El in B2; rewrite El; rewrite El in B1; lra). rewrite El in X. apply (Go _ (- r (lchild s a) + x)%R); [lra|rewrite Z; ring|]. rewrite El. now apply Right.
      * apply (IH2 Hr); auto.
        -- intros y Y By _. apply N; auto. now apply (node_trans _ _ _ (rchild s a)).
        -- intros y Y Ey. right. split; [|apply (Go _ (- r (lchild s a) + y)%R); [lra|rewrite Ey; ring|now apply Right]]. apply N; [exact Nr| |apply Nr'; constructor].
           inversion C2 as [? Q' E E'|? ? ? B' ? ? E E']; [|exact B']. rewrite <- E' in I2. destruct I2 as [I2|[]]. now elim El.
Qed.
End mirror.
