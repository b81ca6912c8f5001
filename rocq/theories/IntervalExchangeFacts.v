(** * Facts about contours *)
From Coq Require Import ZArith Reals List Arith Bool Lia Lra Psatz.
From Verif Require Import Base HalfEdge HalfEdgeFacts Perm PermSpec PermFacts Combinatorial CombinatorialSpec CombinatorialFacts CombinatorialHistory ExactReal Vector PlaneSpec Plane VectorFacts
  CombinatorialOps FlatTri FlatSpec ChainSpec FlatFacts FlatSum FlatOps FlatAngle DeformSpec Tracked Vertical VerticalSpec VerticalFacts VerticalComponents Lengths IntervalExchange IntervalExchangeSpec.
Import ListNotations.
Local Open Scope nat_scope.

Section real.
Context {K : ExactReal}.
Variables (n : nat) (s : flat K) (v : pt).
Hypothesis CS : closed_flat n s.
Hypothesis Nv : v <> (0, 0)%R.
Notation r := (rightwards s v).
Notation F := (fF s).
Let S0 : flat_surface n s := proj1 CS.

Lemma F_lt x : x < n -> F x < n. Proof. apply (fF_lt n s x S0). Qed.
Lemma F3 x : x < n -> F (F (F x)) = x. Proof. intros H. apply (wf_triangle _ _ (fs_wf n s S0) x H). Qed.
Lemma N_lt x : x < n -> neg x < n. Proof. apply (neg_ltn n _ (fs_wf n s S0)). Qed.
Lemma R_neg x : x < n -> r (neg x) = (- r x)%R.
Proof. intros H. unfold rightwards. rewrite (fs_odd n s S0) by auto. unfold pdet, pneg. cbn [fst snd]. ring. Qed.
Lemma R_sum x : x < n -> (r x + r (F x) + r (F (F x)) = 0)%R.
Proof. intros H. apply (face_facts n s v x S0 H (proj2 CS x H)). Qed.
Lemma F_neq x : x < n -> F x <> x /\ F (F x) <> x /\ F (F x) <> F x.
Proof. intros H. destruct (face_facts n s v x S0 H (proj2 CS x H)) as (_ & _ & _ & A & B & _). split; [now apply CS|]. split; auto. Qed.
Lemma D_pos x : x < n -> (0 < pdet (vv s x) (vv s (F x)))%R /\ (0 < pdet (vv s (F x)) (vv s (F (F x))))%R /\ (0 < pdet (vv s (F (F x))) (vv s x))%R.
Proof. intros H. apply (face_facts n s v x S0 H (proj2 CS x H)). Qed.
Lemma two_vertical x : x < n -> r x = 0%R -> r (F x) = 0%R -> False.
Proof. intros H A B. apply (proj1 (F_neq x H)). apply (one_vertical n s v x S0 Nv H (proj2 CS x H)); auto; unfold in_face; auto. Qed.

(** ** The kinds of a triangle seen from a half edge that points to the right *)
Definition back x : Prop := (0 < r x /\ r (F x) < 0 /\ r (F (F x)) < 0)%R.
Definition front x : Prop := (0 < r x /\ (0 < r (F x) /\ r (F (F x)) < 0 \/ r (F x) < 0 /\ 0 < r (F (F x))))%R.
Definition upright x : Prop := (0 < r x /\ (r (F x) = 0 \/ r (F (F x)) = 0))%R.
Lemma kinds x : x < n -> (0 < r x)%R -> back x \/ front x \/ upright x.
Proof. intros H P. assert (Z := R_sum x H). unfold back, front, upright. destruct (Rtotal_order (r (F x)) 0) as [A|[A|A]], (Rtotal_order (r (F (F x))) 0) as [B|[B|B]]; intuition lra. Qed.
Lemma back_kind x : x < n -> back x -> face_kind s v x BACKWARD.
Proof. intros H (A & B & C). apply (kind_pos n s v x S0 Nv H (proj2 CS x H) BACKWARD); auto. Qed.
Lemma front_kind x : x < n -> front x -> face_kind s v x FORWARD.
Proof. intros H (A & B). apply (kind_pos n s v x S0 Nv H (proj2 CS x H) FORWARD); auto. tauto. Qed.
Lemma upright_kind x : x < n -> upright x -> face_kind s v x RIGHT_VERTICAL \/ face_kind s v x LEFT_VERTICAL.
Proof.
  intros H (A & [B|B]); [left; apply (kind_pos n s v x S0 Nv H (proj2 CS x H) RIGHT_VERTICAL); auto|right; apply (kind_pos n s v x S0 Nv H (proj2 CS x H) LEFT_VERTICAL); auto].
Qed.

(** ** The tree of half edges above a half edge *)
Definition lchild x := neg (F (F x)).
Definition rchild x := neg (F x).
Definition parent x := if Rlt_dec 0 (r (F (neg x))) then F (neg x) else F (F (neg x)).
Inductive node (a : nat) : nat -> Prop :=
| node_root : node a a
| node_left x : node a x -> back x -> node a (lchild x)
| node_right x : node a x -> back x -> node a (rchild x).

Lemma lchild_lt x : x < n -> lchild x < n. Proof. intros. now apply N_lt, F_lt, F_lt. Qed.
Lemma rchild_lt x : x < n -> rchild x < n. Proof. intros. now apply N_lt, F_lt. Qed.
Lemma children x : x < n -> back x -> (0 < r (lchild x) /\ 0 < r (rchild x) /\ r x = r (lchild x) + r (rchild x))%R.
Proof. intros H (A & B & C). assert (Z := R_sum x H). unfold lchild, rchild. rewrite !R_neg by auto using F_lt. lra. Qed.
Lemma parent_left x : x < n -> back x -> parent (lchild x) = x.
Proof. intros H (A & B & C). unfold parent, lchild. rewrite neg_neg, F3 by auto. destruct (Rlt_dec 0 (r x)); auto. contradiction. Qed.
Lemma parent_right x : x < n -> back x -> parent (rchild x) = x.
Proof. intros H (A & B & C). unfold parent, rchild. rewrite neg_neg. destruct (Rlt_dec 0 (r (F (F x)))); [lra|]. now apply F3. Qed.
Lemma children_neq x : x < n -> lchild x <> rchild x.
Proof. intros H E. apply neg_inj in E. now apply (F_neq x H). Qed.
Lemma node_lt a x : a < n -> node a x -> x < n.
Proof. intros H N. induction N; auto using lchild_lt, rchild_lt. Qed.
Lemma node_pos a x : a < n -> (0 < r a)%R -> node a x -> (0 < r x)%R.
Proof. intros H P N. induction N as [|x N IH B|x N IH B]; auto; assert (Hx := node_lt a x H N); apply (children x Hx B). Qed.
Lemma node_le a x : a < n -> node a x -> (r x <= r a)%R.
Proof. intros H N. induction N as [|x N IH B|x N IH B]; [lra| |]; assert (Hx := node_lt a x H N); destruct (children x Hx B) as (A1 & A2 & A3); lra. Qed.
Lemma node_trans a b x : node a b -> node b x -> node a x.
Proof. intros A B. induction B; auto; now constructor. Qed.
Lemma node_parent a x : a < n -> node a x -> x = a \/ (node a (parent x) /\ back (parent x)).
Proof. intros H N. destruct N as [|x N B|x N B]; auto; right; assert (Hx := node_lt a x H N); [rewrite parent_left|rewrite parent_right]; auto. Qed.
Lemma node_chain a b x : a < n -> b < n -> node a x -> node b x -> node a b \/ node b a.
Proof.
  intros Ha Hb NA. induction NA as [|x NA IH B|x NA IH B]; intros NB; auto; assert (Hx := node_lt a x Ha NA).
  - destruct (node_parent b _ Hb NB) as [<-|[NB' _]]; [left; now constructor|]. rewrite parent_left in NB' by auto. auto.
  - destruct (node_parent b _ Hb NB) as [<-|[NB' _]]; [left; now constructor|]. rewrite parent_right in NB' by auto. auto.
Qed.
Lemma node_first a x : a < n -> node a x -> x = a \/ (back a /\ (node (lchild a) x \/ node (rchild a) x)).
Proof.
  intros H N. induction N as [|x N IH B|x N IH B]; auto; right.
  - destruct IH as [->|(Ba & [L|L])]; split; auto; [left; constructor|left; now constructor|right; now constructor].
  - destruct IH as [->|(Ba & [L|L])]; split; auto; [right; constructor|left; now constructor|right; now constructor].
Qed.
Lemma subtrees a x : a < n -> back a -> node (lchild a) x -> node (rchild a) x -> False.
Proof.
  intros H B L R. assert (Hl := lchild_lt a H). assert (Hr := rchild_lt a H). destruct (children a H B) as (P1 & P2 & P3).
  destruct (node_chain _ _ x Hl Hr L R) as [Q|Q].
  - destruct (node_parent _ _ Hl Q) as [E|[Q' _]]; [now apply (children_neq a H)|]. rewrite parent_right in Q' by auto. apply node_le in Q'; auto. lra.
  - destruct (node_parent _ _ Hr Q) as [E|[Q' _]]; [now apply (children_neq a H)|]. rewrite parent_left in Q' by auto. apply node_le in Q'; auto. lra.
Qed.
Lemma node_below a x : a < n -> (0 < r a)%R -> node a x -> x <> a -> (r x < r a)%R.
Proof.
  intros H P N D. destruct (node_parent a x H N) as [|[N' B]]; [contradiction|]. assert (Hp := node_lt _ _ H N'). assert (L := node_le _ _ H N'). destruct (children _ Hp B) as (P1 & P2 & P3).
  assert (E : x = lchild (parent x) \/ x = rchild (parent x)). { inversion N as [E|y Ny By E|y Ny By E]; subst; [contradiction| |]; assert (Hy := node_lt _ _ H Ny); [rewrite parent_left|rewrite parent_right]; auto. }
  destruct E as [E|E]; rewrite <- E in *; lra.
Qed.

(** ** Contours *)
Inductive contour : nat -> list nat -> Prop :=
| contour_leaf a : front a -> contour a [a]
| contour_node a l1 l2 : back a -> contour (lchild a) l1 -> contour (rchild a) l2 -> contour a (l1 ++ l2).

Lemma front_back x : front x -> back x -> False.
Proof. unfold front, back. intros. intuition lra. Qed.
Lemma front_node a x : a < n -> front a -> node a x -> x = a.
Proof. intros H Q N. destruct (node_first a x H N) as [|[B _]]; auto. exfalso. now apply (front_back a). Qed.
Lemma contour_In a l : a < n -> contour a l -> forall x, In x l <-> node a x /\ front x.
Proof.
  intros Ha C. induction C as [a Q|a l1 l2 B C1 IH1 C2 IH2]; intros x.
  - cbn [In]. split; [intros [<-|[]]; split; auto; constructor|]. intros [N _]. left. symmetry. now apply front_node.
  - specialize (IH1 (lchild_lt a Ha)). specialize (IH2 (rchild_lt a Ha)). rewrite in_app_iff, IH1, IH2. split.
    + intros [[N Q]|[N Q]]; split; auto; [apply (node_trans a (lchild a))|apply (node_trans a (rchild a))]; auto; constructor; auto; constructor.
    + intros [N Q]. destruct (node_first a x Ha N) as [->|(_ & [L|L])]; auto. exfalso. now apply (front_back a).
Qed.
Lemma contour_pos a l : contour a l -> (0 < r a)%R.
Proof. intros [? [P _]|? ? ? [P _]]; auto. Qed.
Lemma contour_nodes a l : a < n -> contour a l -> forall x, node a x -> back x \/ front x.
Proof.
  intros Ha C. induction C as [a Q|a l1 l2 B C1 IH1 C2 IH2]; intros x N.
  - right. now rewrite (front_node a x).
  - destruct (node_first a x Ha N) as [->|(_ & [L|L])]; auto using lchild_lt, rchild_lt.
Qed.
Lemma contour_NoDup a l : a < n -> contour a l -> NoDup l.
Proof.
  intros Ha C. induction C as [a Q|a l1 l2 B C1 IH1 C2 IH2]; [constructor; auto; constructor|]. assert (Hl := lchild_lt a Ha). assert (Hr := rchild_lt a Ha).
  specialize (IH1 Hl). specialize (IH2 Hr). assert (D : forall x, In x l1 -> In x l2 -> False). { intros x A1 A2. apply (contour_In _ _ Hl C1) in A1 as [A1 _]. apply (contour_In _ _ Hr C2) in A2 as [A2 _]. now apply (subtrees a x). }
  clear - IH1 IH2 D. induction l1 as [|x l1 IH]; auto. inversion IH1 as [|? ? N1 N2]; subst. cbn [app]. constructor; [|apply IH; auto; intros y Y; apply (D y); now right].
  rewrite in_app_iff. intros [Q|Q]; auto. apply (D x); auto. now left.
Qed.
Lemma contour_fun a l : contour a l -> forall l', contour a l' -> l' = l.
Proof.
  intros C. induction C as [a Q|a l1 l2 B C1 IH1 C2 IH2]; intros l' C'; inversion C' as [? Q'|? m1 m2 B' C1' C2']; subst; auto; try (exfalso; now apply (front_back a)).
  now rewrite (IH1 _ C1'), (IH2 _ C2').
Qed.
Lemma contour_sum a l : a < n -> contour a l -> rsum (map r l) = r a.
Proof.
  intros Ha C. induction C as [a Q|a l1 l2 B C1 IH1 C2 IH2]; [cbn; ring|]. assert (A : forall x y, rsum (x ++ y) = (rsum x + rsum y)%R) by (intros x y; induction x as [|z x IHx]; cbn; rewrite ?IHx; ring).
  rewrite map_app, A, IH1, IH2 by auto using lchild_lt, rchild_lt. destruct (children a Ha B) as (_ & _ & E). lra.
Qed.
Lemma psum_app l1 l2 : psum (l1 ++ l2) = padd (psum l1) (psum l2).
Proof. induction l1 as [|p l1 IH]; cbn [app psum]; [unfold padd; cbn; destruct (psum l2); cbn; f_equal; ring|]. rewrite IH. unfold padd. cbn. f_equal; ring. Qed.
Lemma contour_psum a l : a < n -> contour a l -> psum (map (vv s) l) = vv s a.
Proof.
  intros Ha C. induction C as [a Q|a l1 l2 B C1 IH1 C2 IH2]; [cbn; unfold padd; destruct (vv s a); cbn; f_equal; ring|].
  rewrite map_app, psum_app, IH1, IH2 by auto using lchild_lt, rchild_lt. unfold lchild, rchild. rewrite !(fs_odd n s S0) by auto using F_lt.
  destruct (fs_flat n s S0 a Ha (proj2 CS a Ha)) as [Z _]. destruct (vv s a) as [x0 y0], (vv s (F a)) as [x1 y1], (vv s (F (F a))) as [x2 y2]. unfold padd, pneg in *. cbn [fst snd] in *. injection Z as Z1 Z2. f_equal; lra.
Qed.

(** ** Vertices along a contour *)
Notation same := (same_vertex (fT s)).
Notation vertex_path := (IntervalExchangeSpec.vertex_path s).
Lemma same_next x : x < n -> same (F x) (neg x).
Proof.
  intros H. assert (W := fs_wf n s S0). exists 1. cbn [Nat.iter]. assert (L := wf_link _ _ W (F x) (F_lt x H)). change (F (F x) <> F x -> F (neg (nV (fT s) (F x))) = F x) in L.
  specialize (L ltac:(now apply F_neq)). apply (nF_inj n _ W) in L; auto.
  - cbn. rewrite <- L at 2. now rewrite neg_neg.
  - apply N_lt. apply (nV_lt n _ W). now apply F_lt.
Qed.
Lemma same_refl x : same x x. Proof. now exists 0. Qed.
Lemma path_trans l1 : forall a b l2 c, vertex_path a l1 b -> vertex_path b l2 c -> vertex_path a (l1 ++ l2) c.
Proof.
  induction l1 as [|x l1 IH]; intros a b l2 c A B; cbn [app vertex_path] in *.
  - destruct l2 as [|y l2]; cbn [vertex_path] in *; [eapply same_vertex_trans; eauto|]. destruct B as [B1 B2]. split; auto. eapply same_vertex_trans; eauto.
  - destruct A as [A1 A2]. split; auto. eapply IH; eauto.
Qed.
Lemma path_start a a' l b : same a a' -> vertex_path a' l b -> vertex_path a l b.
Proof. destruct l as [|x l]; cbn [vertex_path]; [apply same_vertex_trans|]. intros A [B C]. split; auto. eapply same_vertex_trans; eauto. Qed.
Lemma path_end l : forall a b b', vertex_path a l b -> same b b' -> vertex_path a l b'.
Proof. induction l as [|x l IH]; intros a b b' A B; cbn [vertex_path] in *; [eapply same_vertex_trans; eauto|]. destruct A as [A C]. split; auto. eapply IH; eauto. Qed.
Lemma contour_path a l : a < n -> contour a l -> vertex_path a l (neg a).
Proof.
  intros Ha C. induction C as [a Q|a l1 l2 B C1 IH1 C2 IH2]; [cbn; split; apply same_refl|]. assert (H1 := F_lt a Ha). assert (H2 := F_lt _ H1). assert (W := fs_wf n s S0).
  apply path_trans with (neg (lchild a)).
  - apply path_start with (lchild a); auto using lchild_lt. assert (Q := same_next (F (F a)) H2). now rewrite F3 in Q.
  - apply path_end with (neg (rchild a)).
    + apply path_start with (rchild a); auto using rchild_lt. unfold lchild, rchild. rewrite neg_neg. now apply same_next.
    + unfold rchild. rewrite neg_neg. now apply same_next.
Qed.
Lemma path_neg l : (forall x, In x l -> x < n) -> forall a b, a < n -> b < n -> vertex_path a l b -> vertex_path b (map neg (rev l)) a.
Proof.
  assert (W := fs_wf n s S0). induction l as [|x l IH]; intros Hl a b Ha Hb; cbn [rev map vertex_path].
  - intros A. eapply same_vertex_sym; eauto.
  - intros [A B]. assert (Hx := Hl x (or_introl eq_refl)). rewrite map_app. apply path_trans with (neg x); [apply IH; auto using N_lt; intros; apply Hl; now right|].
    cbn. split; [apply same_refl|]. rewrite neg_neg. eapply same_vertex_sym; eauto.
Qed.
End real.
