(** * Contours of a large half edge *)
From Coq Require Import ZArith Reals List Arith Bool Lia Lra Psatz.
From Coq Require Import Permutation.
From Verif Require Import Base HalfEdge HalfEdgeFacts Perm PermSpec PermFacts Combinatorial CombinatorialSpec CombinatorialFacts CombinatorialHistory ExactReal Vector PlaneSpec Plane VectorFacts
  CombinatorialOps FlatTri FlatSpec ChainSpec FlatFacts FlatSum FlatOps FlatAngle DeformSpec Tracked Vertical VerticalSpec VerticalFacts VerticalComponents Lengths IntervalExchange IntervalExchangeSpec IntervalExchangeFacts IntervalExchangeFlow.
Import ListNotations.
Local Open Scope nat_scope.

Section large.
Context {K : ExactReal}.
Variables (n : nat) (s : flat K) (v : pt).
Hypothesis CS : closed_flat n s.
Hypothesis Nv : v <> (0, 0)%R.
Notation r := (rightwards s v).
Notation F := (fF s).
Notation back := (back s v).
Notation front := (front s v).
Notation upright := (upright s v).
Notation node := (node s v).
Notation lchild := (lchild s).
Notation rchild := (rchild s).
Notation parent := (parent s v).
Let S0 : flat_surface n s := proj1 CS.

(** ** Induction on widths *)
Definition less x y := if Rlt_dec (r x) (r y) then true else false.
Definition narrower x := length (filter (fun y => less y x) (seq 0 n)).
Definition wider x := length (filter (less x) (seq 0 n)).
Lemma less_spec x y : less x y = true <-> (r x < r y)%R.
Proof. unfold less. destruct (Rlt_dec (r x) (r y)); split; intros; try discriminate; auto; contradiction. Qed.
Lemma less_not x y : (r y <= r x)%R -> less x y = false.
Proof. intros H. destruct (less x y) eqn:E; auto. apply less_spec in E. lra. Qed.
Lemma narrower_lt x y : x < n -> (r x < r y)%R -> narrower x < narrower y.
Proof.
  intros H L. apply (filter_less _ _ _ x); [intros z _ Q; apply less_spec in Q; apply less_spec; lra|apply in_seq; lia|now apply less_spec|apply less_not; lra].
Qed.
Lemma wider_lt x y : y < n -> (r x < r y)%R -> wider y < wider x.
Proof.
  intros H L. apply (filter_less _ _ _ y); [intros z _ Q; apply less_spec in Q; apply less_spec; lra|apply in_seq; lia|now apply less_spec|apply less_not; lra].
Qed.
Lemma narrower_le x : narrower x <= n.
Proof.
  unfold narrower. replace n with (length (seq 0 n)) at 2 by apply seq_length. generalize (seq 0 n) as l. induction l as [|y l IH]; cbn [filter length]; [lia|]. destruct (less y x); cbn [length]; lia.
Qed.

(** ** Components *)
Lemma joined_lt x y : joined n s v x y -> x < n /\ y < n.
Proof. intros J. induction J as [x H|x H|x H N|x y J IH|x y z J1 IH1 J2 IH2]; auto using (F_lt n s CS), (N_lt n s CS); tauto. Qed.
Lemma joined_F2 x : x < n -> joined n s v x (F (F x)).
Proof. intros H. apply jo_trans with (F x); apply jo_face; auto. now apply (F_lt n s CS). Qed.
Lemma joined_lchild x : x < n -> back x -> joined n s v x (lchild x).
Proof. intros H (A & B & C). apply jo_trans with (F (F x)); [now apply joined_F2|]. apply jo_across; [|lra]. now do 2 apply (F_lt n s CS). Qed.
Lemma joined_rchild x : x < n -> back x -> joined n s v x (rchild x).
Proof. intros H (A & B & C). apply jo_trans with (F x); [now apply jo_face|]. apply jo_across; [|lra]. now apply (F_lt n s CS). Qed.
Lemma node_joined a x : a < n -> node a x -> joined n s v a x.
Proof.
  intros H N. induction N as [|x N IH B|x N IH B]; [now apply jo_same| |]; assert (Hx := node_lt n s v CS a x H N); (apply jo_trans with x; [auto|]); [now apply joined_lchild|now apply joined_rchild].
Qed.

(** ** The triangle below a half edge *)
Definition child x : Prop := back (parent x) /\ (x = lchild (parent x) \/ x = rchild (parent x)).
Definition long_below x : Prop := (0 < r (F (neg x)) /\ 0 < r (F (F (neg x))))%R.
Lemma child_left x : x < n -> back x -> child (lchild x).
Proof. intros H B. unfold child. rewrite (parent_left n s v CS) by auto. auto. Qed.
Lemma child_right x : x < n -> back x -> child (rchild x).
Proof. intros H B. unfold child. rewrite (parent_right n s v CS) by auto. auto. Qed.
Lemma parent_lt x : x < n -> parent x < n.
Proof. intros H. apply (N_lt n s CS) in H. unfold IntervalExchangeFacts.parent. destruct (Rlt_dec 0 (r (F (neg x)))); auto using (F_lt n s CS). Qed.
Lemma child_less x : x < n -> child x -> (r x < r (parent x))%R.
Proof. intros H [B E]. assert (Hp := parent_lt x H). destruct (children n s v CS _ Hp B) as (P1 & P2 & P3). destruct E as [E|E]; rewrite <- E in *; lra. Qed.
Lemma child_pos x : x < n -> child x -> (0 < r x)%R.
Proof. intros H [B E]. assert (Hp := parent_lt x H). destruct (children n s v CS _ Hp B) as (P1 & P2 & P3). destruct E as [E|E]; rewrite <- E in *; lra. Qed.
Lemma child_long x : x < n -> child x -> long_below x -> False.
Proof.
  intros H [B E] [L1 L2]. assert (Hp := parent_lt x H). destruct B as (B1 & B2 & B3). set (p := parent x) in *. assert (H1 := F_lt n s CS p Hp).
  destruct E as [E|E]; rewrite E in L1, L2; unfold IntervalExchangeFacts.lchild, IntervalExchangeFacts.rchild in L1, L2; rewrite neg_neg in L1, L2.
  - rewrite (F3 n s CS (F p) H1) in L2. lra.
  - lra.
Qed.
Lemma child_face x : x < n -> child x -> in_face s (parent x) (neg x).
Proof.
  intros H [B E]. unfold in_face. set (p := parent x) in *. clearbody p. destruct E as [E|E]; rewrite E; unfold IntervalExchangeFacts.lchild, IntervalExchangeFacts.rchild; rewrite neg_neg; auto.
Qed.
Lemma below_kinds x : x < n -> (0 < r x)%R -> r (F (neg x)) <> 0%R -> r (F (F (neg x))) <> 0%R -> child x \/ long_below x.
Proof.
  intros H P N1 N2. assert (Hn := N_lt n s CS x H). assert (Z := R_sum n s v CS _ Hn). rewrite (R_neg n s v CS) in Z by auto. assert (H1 := F_lt n s CS _ Hn). assert (F3x := F3 n s CS _ Hn).
  unfold child, IntervalExchangeFacts.parent, long_below. destruct (Rlt_dec 0 (r (F (neg x)))) as [A|A].
  - destruct (Rlt_dec 0 (r (F (F (neg x))))) as [B|B]; [now right|]. left. split.
    + unfold IntervalExchangeFacts.back. rewrite F3x, (R_neg n s v CS) by auto. lra.
    + left. unfold IntervalExchangeFacts.lchild. now rewrite F3x, neg_neg.
  - left. split.
    + unfold IntervalExchangeFacts.back. rewrite F3x, (R_neg n s v CS) by auto. lra.
    + right. unfold IntervalExchangeFacts.rchild. now rewrite F3x, neg_neg.
Qed.

Lemma abs3 a b c : (a + b + c = 0)%R -> (0 < a)%R -> (b < 0)%R -> (c < 0)%R -> (Rabs b <= Rabs a /\ Rabs c <= Rabs a)%R.
Proof. intros. rewrite (Rabs_pos_eq a), (Rabs_left b), (Rabs_left c) by lra. lra. Qed.
Lemma long_wide x : x < n -> back x -> long_below x -> wide s v x.
Proof.
  intros H (A & B & C) [L1 L2]. assert (Hn := N_lt n s CS x H). assert (Z1 := R_sum n s v CS _ H). assert (Z2 := R_sum n s v CS _ Hn). rewrite (R_neg n s v CS) in Z2 by auto.
  destruct (abs3 _ _ _ Z1 A B C) as [U1 U2]. destruct (abs3 (r x) (- r (F (neg x))) (- r (F (F (neg x))))) as [U3 U4]; try lra. rewrite !Rabs_Ropp in *.
  intros y [<-|[<-|[<-|[<-|[]]]]]; auto.
Qed.
Lemma wide_above x : x < n -> wide s v x -> front x -> False.
Proof.
  intros H Q (P & [[A B]|[A B]]); assert (Z := R_sum n s v CS _ H).
  - specialize (Q (F (F x)) ltac:(right; now left)). rewrite (Rabs_left (r (F (F x)))), (Rabs_pos_eq (r x)) in Q by lra. lra.
  - specialize (Q (F x) ltac:(now left)). rewrite (Rabs_left (r (F x))), (Rabs_pos_eq (r x)) in Q by lra. lra.
Qed.
Lemma wide_below x : x < n -> wide s v x -> child x -> False.
Proof.
  intros H Q C. assert (P := child_pos x H C). assert (L := child_less x H C). destruct C as [B E]. assert (Hp := parent_lt x H).
  assert (D : In (parent x) [F x; F (F x); F (neg x); F (F (neg x))]). { unfold IntervalExchangeFacts.parent. destruct (Rlt_dec 0 (r (F (neg x)))); cbn; auto. }
  specialize (Q _ D). rewrite !Rabs_pos_eq in Q by lra. lra.
Qed.
Lemma narrow_spec x : x < n -> (forall y, In y [x; neg x] -> r (F y) <> 0%R /\ r (F (F y)) <> 0%R) -> (0 < r x)%R -> (narrow s v x <-> front x /\ child x).
Proof.
  intros H NZ P. assert (Hn := N_lt n s CS x H). assert (Z1 := R_sum n s v CS _ H). assert (Z2 := R_sum n s v CS _ Hn). rewrite (R_neg n s v CS) in Z2 by auto.
  destruct (NZ x ltac:(now left)) as [U1 U2]. destruct (NZ (neg x) ltac:(right; now left)) as [U3 U4]. split.
  - intros [[y [Iy Ly]] [z [Iz Lz]]]. split.
    + destruct (kinds n s v CS x H P) as [B|[Q|[_ Q]]]; auto; [|now destruct Q]. exfalso. destruct B as (B1 & B2 & B3). destruct (abs3 _ _ _ Z1 B1 B2 B3). destruct Iy as [<-|[<-|[]]]; lra.
    + destruct (below_kinds x H P U3 U4) as [Q|[Q1 Q2]]; auto. exfalso. destruct (abs3 (r x) (- r (F (neg x))) (- r (F (F (neg x))))) as [V1 V2]; try lra. rewrite !Rabs_Ropp in *. destruct Iz as [<-|[<-|[]]]; lra.
  - intros [Q C]. split.
    + destruct Q as (_ & [[A B]|[A B]]).
      * exists (F (F x)). split; [right; now left|]. rewrite (Rabs_left (r (F (F x)))), Rabs_pos_eq by lra. lra.
      * exists (F x). split; [now left|]. rewrite (Rabs_left (r (F x))), Rabs_pos_eq by lra. lra.
    + exists (parent x). assert (L := child_less x H C). split; [unfold IntervalExchangeFacts.parent; destruct (Rlt_dec 0 (r (F (neg x)))); cbn; auto|]. rewrite !Rabs_pos_eq by lra. lra.
Qed.

(** ** The component of the only wide half edge *)
Section unique.
Variable h : nat.
Hypothesis Hh : h < n.
Hypothesis Ph : (0 < r h)%R.
Hypothesis U : unique_large n s v h.
Lemma joined_nonzero x : joined n s v h x -> r x <> 0%R. Proof. apply U. Qed.
Lemma joined_sides x : joined n s v h x -> forall y, In y [x; neg x] -> r (F y) <> 0%R /\ r (F (F y)) <> 0%R.
Proof.
  intros J y I. assert (Hx := proj2 (joined_lt _ _ J)). assert (Jn : joined n s v h (neg x)) by (apply jo_trans with x; auto; apply jo_across; auto; now apply joined_nonzero).
  assert (Jy : joined n s v h y) by (destruct I as [<-|[<-|[]]]; auto). assert (Hy := proj2 (joined_lt _ _ Jy)).
  split; apply joined_nonzero; apply jo_trans with y; auto; [now apply jo_face|now apply joined_F2].
Qed.
Lemma joined_kinds x : joined n s v h x -> (0 < r x)%R -> (back x \/ front x) /\ (child x \/ long_below x).
Proof.
  intros J P. assert (Hx := proj2 (joined_lt _ _ J)). destruct (joined_sides x J x ltac:(now left)) as [A B]. destruct (joined_sides x J (neg x) ltac:(right; now left)) as [C D]. split; [|now apply below_kinds].
  destruct (kinds n s v CS x Hx P) as [Q|[Q|[_ Q]]]; auto. now destruct Q.
Qed.
Lemma unique_pos x : joined n s v h x -> (0 < r x)%R -> wide s v x -> x = h.
Proof. intros J P W. destruct U as (_ & _ & U3). destruct (U3 x J W) as [|E]; auto. rewrite E, (R_neg n s v CS) in P by auto. lra. Qed.
Lemma joined_parent x : joined n s v h x -> child x -> joined n s v h (parent x).
Proof.
  intros J C. assert (Hx := proj2 (joined_lt _ _ J)). assert (Hp := parent_lt x Hx). apply jo_trans with x; auto. destruct C as [B E]. apply jo_sym.
  destruct E as [E|E]; rewrite E at 2; [now apply joined_lchild|now apply joined_rchild].
Qed.
Lemma back_node : forall k x, wider x < k -> joined n s v h x -> back x -> node h x.
Proof.
  induction k as [|k IH]; intros x L J B; [lia|]. assert (Hx := proj2 (joined_lt _ _ J)). assert (P := proj1 B). destruct (proj2 (joined_kinds x J P)) as [C|C].
  - assert (Jp := joined_parent x J C). assert (Hp := parent_lt x Hx). assert (Q := wider_lt x (parent x) Hp (child_less x Hx C)). specialize (IH (parent x) ltac:(lia) Jp (proj1 C)).
    destruct C as [Bp E]. destruct E as [E|E]; rewrite E; now constructor.
  - rewrite (unique_pos x J P (long_wide x Hx B C)). constructor.
Qed.
Lemma child_node x : joined n s v h x -> child x -> node h x.
Proof.
  intros J C. assert (Jp := joined_parent x J C). assert (N := back_node _ (parent x) (Nat.lt_succ_diag_r _) Jp (proj1 C)). destruct C as [Bp E]. destruct E as [E|E]; rewrite E; now constructor.
Qed.
Lemma root_back : back h.
Proof. destruct (proj1 (joined_kinds h (jo_same _ _ _ h Hh) Ph)) as [|Q]; auto. exfalso. exact (wide_above h Hh (proj1 U) Q). Qed.
Lemma node_child x : node h x -> x = h \/ child x.
Proof. intros N. destruct N as [|x N B|x N B]; auto; right; assert (Hx := node_lt n s v CS h x Hh N); [now apply child_left|now apply child_right]. Qed.
Lemma leaf_spec x : (node h x /\ front x) <-> (joined n s v h x /\ 0 < r x /\ narrow s v x)%R.
Proof.
  split.
  - intros [N Q]. assert (J := node_joined h x Hh N). assert (P := node_pos n s v CS h x Hh Ph N). assert (Hx := node_lt n s v CS h x Hh N). split; auto. split; auto.
    apply narrow_spec; auto; [now apply joined_sides|]. split; auto. destruct (node_child x N) as [->|]; auto. exfalso. exact (wide_above h Hh (proj1 U) Q).
  - intros (J & P & N). assert (Hx := proj2 (joined_lt _ _ J)). apply narrow_spec in N as [Q C]; auto; [|now apply joined_sides]. split; auto. now apply child_node.
Qed.
End unique.

(** ** The contour of a half edge *)
Lemma not_upright_contour : forall k a, a < n -> (0 < r a)%R -> narrower a < k -> (forall x, node a x -> ~ upright x) -> exists l, contour s v a l.
Proof.
  induction k as [|k IH]; intros a Ha P L N; [lia|]. destruct (kinds n s v CS a Ha P) as [B|[Q|Q]]; [|exists [a]; now constructor|exfalso; now apply (N a (node_root _ _ _))].
  assert (Hl := lchild_lt n s CS a Ha). assert (Hr := rchild_lt n s CS a Ha). destruct (children n s v CS a Ha B) as (P1 & P2 & P3).
  destruct (IH (lchild a) Hl P1) as [l1 C1]; [assert (Q := narrower_lt (lchild a) a Hl ltac:(lra)); lia|intros x Nx; apply N; apply (node_trans _ _ _ (lchild a)); auto; constructor; auto; constructor|].
  destruct (IH (rchild a) Hr P2) as [l2 C2]; [assert (Q := narrower_lt (rchild a) a Hr ltac:(lra)); lia|intros x Nx; apply N; apply (node_trans _ _ _ (rchild a)); auto; constructor; auto; constructor|].
  exists (l1 ++ l2). now constructor.
Qed.
Lemma unique_contour h : h < n -> (0 < r h)%R -> unique_large n s v h -> exists l, contour s v h l.
Proof.
  intros Hh P U. apply (not_upright_contour (Datatypes.S (narrower h))); auto. intros x N (Px & Q). assert (J := node_joined h x Hh N). assert (W := joined_sides h U x J x ltac:(now left)). destruct W, Q; contradiction.
Qed.
End large.

(** ** The function [makeContour] *)
Section made.
Context {K : ExactReal}.
Variables (n : nat) (s : flat K) (V : vec K).
Hypothesis CS : closed_flat n s.
Notation v := (vden V).
Notation r := (rightwards s v).
Lemma make_contour_ok : forall k m a, valid n s V m -> a < n -> (0 < r a)%R -> narrower n s v a < k ->
  (exists l m', make_contour k m a = Ok (l, m') /\ valid n s V m' /\ contour s v a l) \/ (make_contour k m a = Throw /\ forall l, ~ contour s v a l).
Proof.
  induction k as [|k IH]; intros m a I Ha P L; [lia|]. assert (S0 := proj1 CS). assert (W := fs_wf n s S0). assert (Nv := vd_nonzero _ _ _ _ I). assert (Nb := proj2 CS a Ha).
  cbn [make_contour]. destruct (classify_ok n s V 0 m a I Ha Nb) as (c & m1 & E & I1 & Q). change (3 + 0) with 3 in E. rewrite E. cbn [bind].
  destruct (kinds n s v CS a Ha P) as [B|[Fr|Up]].
  - rewrite (kind_unique n s v a S0 Nv Ha Nb c BACKWARD Q (back_kind n s v CS Nv a Ha B)). rewrite (vd_surface _ _ _ _ I1), (prev_Ok n), (pF_tri n) by auto. cbn [bind]. change (nF (fT s)) with (fF s). fold (lchild s a).
    assert (Hl := lchild_lt n s CS a Ha). assert (Hr := rchild_lt n s CS a Ha). destruct (children n s v CS a Ha B) as (P1 & P2 & P3).
    assert (Q1 := narrower_lt n s v (lchild s a) a Hl ltac:(lra)). assert (Q2 := narrower_lt n s v (rchild s a) a Hr ltac:(lra)).
    destruct (IH m1 (lchild s a) I1 Hl P1 ltac:(lia)) as [(l1 & m2 & -> & I2 & C1)|[-> C1]]; cbn [bind].
    2: { right. split; auto. intros l C. inversion C as [? Fr|? l1 l2 ? D1 D2]; subst; [now apply (front_back s v a)|now apply (C1 l1)]. }
    rewrite (vd_surface _ _ _ _ I2), (next_Ok n) by auto. cbn [bind]. change (nF (fT s)) with (fF s). fold (rchild s a).
    destruct (IH m2 (rchild s a) I2 Hr P2 ltac:(lia)) as [(l2 & m3 & -> & I3 & C2)|[-> C2]]; cbn [bind].
    + left. exists (l1 ++ l2), m3. split; auto. split; auto. now constructor.
    + right. split; auto. intros l C. inversion C as [? Fr|? k1 k2 ? D1 D2]; subst; [now apply (front_back s v a)|now apply (C2 k2)].
  - rewrite (kind_unique n s v a S0 Nv Ha Nb c FORWARD Q (front_kind n s v CS Nv a Ha Fr)). left. exists [a], m1. split; auto. split; auto. now constructor.
  - right. split.
    + destruct (upright_kind n s v CS Nv a Ha Up) as [T|T]; [rewrite (kind_unique n s v a S0 Nv Ha Nb c RIGHT_VERTICAL Q T)|rewrite (kind_unique n s v a S0 Nv Ha Nb c LEFT_VERTICAL Q T)]; auto.
    + intros l C. destruct Up as [_ Up]. inversion C as [? [_ Fr]|? ? ? [_ B] ? ?]; subst; intuition lra.
Qed.
End made.
