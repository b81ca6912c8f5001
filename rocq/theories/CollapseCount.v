(** * Counting corners when an edge is collapsed

    A direction meets the corners of a vertex once per full turn; the corners are counted by how their sides lie with respect to the
    direction. *)
From Coq Require Import List Arith Bool Lia Permutation.
From Verif Require Import Base HalfEdge HalfEdgeFacts Perm PermSpec PermFacts PermCycles PermLemmas Combinatorial CombinatorialSpec CombinatorialFacts CombinatorialHistory FlatFacts
  CollapseSpec CollapseFacts CollapseVertices.
Import ListNotations.

(** ** Lists *)
Lemma filter_filter {A} (f g : A -> bool) l : filter f (filter g l) = filter (fun a => g a && f a) l.
Proof. induction l as [|a l IH]; cbn; auto. destruct (g a); cbn; [|auto]. destruct (f a); now rewrite IH. Qed.
Lemma filter_split {A} (f g : A -> bool) l : length (filter f l) = length (filter (fun a => f a && g a) l) + length (filter (fun a => f a && negb (g a)) l).
Proof. induction l as [|a l IH]; cbn; auto. destruct (f a), (g a); cbn; lia. Qed.
Lemma filter_one (f : nat -> bool) z n : z < n -> f z = true -> (forall h, h < n -> f h = true -> h = z) -> length (filter f (seq 0 n)) = 1.
Proof.
  intros Hz Fz U. assert (P : Permutation (filter f (seq 0 n)) [z]); [|now rewrite (Permutation_length P)].
  apply NoDup_Permutation; [apply NoDup_filter, seq_NoDup|repeat constructor; auto|]. intros h. rewrite filter_In, in_seq. cbn. split; [intros ((_ & H) & F); left; symmetry; now apply U|].
  intros [<-|[]]. split; auto. lia.
Qed.
Lemma filter_none {A} (f : A -> bool) l : (forall h, In h l -> f h = false) -> length (filter f l) = 0.
Proof. induction l as [|a l IH]; cbn; intros N; auto. rewrite (N a) by auto. apply IH. auto. Qed.
Lemma map_nodup {A B} (f : A -> B) l : (forall a a', In a l -> In a' l -> f a = f a' -> a = a') -> NoDup l -> NoDup (map f l).
Proof.
  induction l as [|a l IH]; cbn; intros F N; [constructor|]. inversion N as [|? ? Na Nl]; subst. constructor; [|apply IH; auto].
  intros I. apply in_map_iff in I as (b & E & I). apply Na. rewrite (F a b); auto.
Qed.
(** Lists whose elements correspond to each other. *)
Lemma related_perm {A B C} (R : A -> B -> Prop) (f : A -> C) (g : B -> C) l : forall l', NoDup l -> NoDup l' ->
  (forall a, In a l -> exists b, In b l' /\ R a b) -> (forall b, In b l' -> exists a, In a l /\ R a b) ->
  (forall a b b', In a l -> In b l' -> In b' l' -> R a b -> R a b' -> b = b') -> (forall a a' b, In a l -> In a' l -> In b l' -> R a b -> R a' b -> a = a') ->
  (forall a b, In a l -> In b l' -> R a b -> f a = g b) -> Permutation (map f l) (map g l').
Proof.
  induction l as [|a l IH]; intros l' N N' T T' F F' E.
  - destruct l' as [|b l']; auto. destruct (T' b) as (a & [] & _). cbn; auto.
  - destruct (T a) as (b & Ib & Rab); [cbn; auto|]. apply in_split in Ib as (l1 & l2 & ->). cbn [map].
    assert (P : Permutation (l1 ++ b :: l2) (b :: l1 ++ l2)) by (symmetry; apply Permutation_middle).
    rewrite (Permutation_map g P). cbn [map]. rewrite (E a b); [|cbn; auto|apply in_elt|auto]. apply perm_skip. inversion N as [|? ? Na Nl]; subst.
    assert (N2 := Permutation_NoDup P N'). inversion N2 as [|? ? Nb Nl']; subst.
    assert (Sub : forall x, In x (l1 ++ l2) -> In x (l1 ++ b :: l2)) by (intros x X; eapply Permutation_in; [symmetry; exact P|]; cbn; auto).
    assert (Ib : In b (l1 ++ b :: l2)) by apply in_elt.
    apply IH; auto.
    + intros x X. destruct (T x) as (y & Iy & Rxy); [cbn; auto|]. exists y. split; auto. eapply Permutation_in in Iy as Iy'; [|exact P]. destruct Iy' as [<-|]; auto.
      exfalso. apply Na. rewrite (F' a x b); auto; cbn; auto.
    + intros y Y. destruct (T' y) as (x & [<-|Ix] & Rxy); [auto| |eauto]. exfalso. apply Nb. rewrite (F a b y); auto; cbn; auto.
    + intros x y y' X Y Y'. apply F; cbn; auto.
    + intros x x' y X X' Y. apply F'; cbn; auto.
    + intros x y X Y. apply E; cbn; auto.
Qed.

Section count.
Variables (n : nat) (t u : tri) (e : nat) (label : nat -> nat).
Hypothesis W : well_formed n t.
Hypothesis Cl : no_boundary n t.
Hypothesis He : e < n.
Hypothesis Fi : collapsible t e.
Hypothesis W' : well_formed (n - 6) u.
Hypothesis Cl' : no_boundary (n - 6) u.
Hypothesis C : collapsed n t e u label.
Hypothesis D : ~ same_vertex t e (neg e).
Local Notation x := (side_x t e).
Local Notation p := (side_p t e).
Local Notation c := (side_c t e).
Local Notation q := (side_q t e).
Local Notation rep := (rep t e).
Local Notation P := (keep_p t e).
Local Notation P' := (keep_c t e).
Local Notation kept := (kept t e).
Local Notation same i j := (same_vertex u (label i) (label j)).
Let Hn : neg e < n := neg_ltn n t W e He.
Let Hx : x < n := nF_lt n t W e He.
Let Hp : p < n := nF_lt n t W x Hx.
Let Hc : c < n := nF_lt n t W (neg e) Hn.
Let Hq : q < n := nF_lt n t W c Hc.

Lemma merged_sym h g : h < n -> merged t e h g -> merged t e g h.
Proof. intros H [A|(A & B)]; [left; now apply (same_vertex_sym n t h g W)|right; auto]. Qed.
Lemma same_step h : same_vertex t h (nV t h).
Proof. now exists 1. Qed.
(** The ends of the sides. *)
Lemma side_ends : same_vertex t e c /\ same_vertex t (neg e) x /\ same_vertex t e (neg p) /\ same_vertex t (neg e) (neg q) /\ same_vertex t q (neg c) /\ same_vertex t p (neg x).
Proof.
  assert (Vc := V_c n t e W Cl He). assert (Vx := V_x n t e W Cl He).
  split; [apply (same_vertex_sym n t c e W); auto; rewrite <- Vc at 2; apply same_step|]. split; [apply (same_vertex_sym n t x _ W); auto; rewrite <- Vx; apply same_step|].
  rewrite <- (V_e n t e W Cl He), <- (V_n n t e W Cl He), <- (V_q n t e W Cl He), <- (V_p n t e W Cl He). repeat split; apply same_step.
Qed.
Lemma kept_merged h : h < n -> merged t e h (kept h).
Proof.
  intros H. destruct side_ends as (S1 & S2 & S3 & S4 & S5 & S6). destruct (keep_merged n t e W Cl He Fi) as (E1 & E2 & E3 & E4). destruct (keep_lt n t e W He Fi) as (L1 & L2).
  assert (L3 := neg_ltn n t W _ L1). assert (L4 := neg_ltn n t W _ L2). apply merged_sym in E1, E2, E3, E4; auto.
  assert (Tr := merged_trans n t e W). assert (Hp' := neg_ltn n t W _ Hp). assert (Hx' := neg_ltn n t W _ Hx). assert (Hc' := neg_ltn n t W _ Hc). assert (Hq' := neg_ltn n t W _ Hq).
  assert (Sy := fun a b Ha => same_vertex_sym n t a b W Ha).
  unfold CollapseVertices.kept.
  destruct (Nat.eqb_spec h e) as [->|_]; [apply (Tr _ (neg p)); auto; left; auto|].
  destruct (Nat.eqb_spec h x) as [->|_]; [apply (Tr _ (neg p)); auto; right; auto|].
  destruct (Nat.eqb_spec h (neg e)) as [->|_]; [apply (Tr _ c); auto; right; split; [right; now exists 0|auto]|].
  destruct (Nat.eqb_spec h (neg q)) as [->|_]; [apply (Tr _ c); auto; right; auto|].
  destruct (Nat.eqb_spec h q) as [->|_]; [apply (Tr _ (neg c)); auto; left; auto|].
  destruct (Nat.eqb_spec h (neg x)) as [->|_]; [apply (Tr _ p); auto; left; auto|].
  left. now exists 0.
Qed.
(** Half edges start at the same vertex after the collapse exactly when the ends of [e] are identified. *)
Lemma kept_same h g : h < n -> g < n -> (same (kept h) (kept g) <-> merged t e h g).
Proof.
  intros Hh Hg. destruct (keptish n t e W He Fi h Hh) as (K1 & K2). destruct (keptish n t e W He Fi g Hg) as (K3 & K4).
  rewrite (vertices_merge n t u e label W Cl He Fi W' Cl' C D) by auto. assert (M1 := kept_merged h Hh). assert (M2 := kept_merged g Hg). assert (Tr := merged_trans n t e W).
  split; intros M.
  - apply (Tr _ (kept h)); auto. apply (Tr _ (kept g)); auto. now apply merged_sym.
  - apply (Tr _ h); auto; [now apply merged_sym|]. now apply (Tr _ g).
Qed.
Lemma rep_kept h : h < n -> ~ vanishes t e h -> rep h = kept h.
Proof.
  intros H N. unfold CollapseSpec.rep, CollapseVertices.kept.
  assert (h <> e /\ h <> x /\ h <> p /\ h <> neg e /\ h <> c /\ h <> q) as (h1 & h2 & h3 & h4 & h5 & h6) by (repeat split; intros ->; apply N; cbn; tauto).
  rewrite (proj2 (Nat.eqb_neq h e)), (proj2 (Nat.eqb_neq h x)), (proj2 (Nat.eqb_neq h (neg e))), (proj2 (Nat.eqb_neq h q)) by auto.
  destruct (Nat.eqb_spec h (neg x)) as [->|_]; auto. destruct (Nat.eqb_spec (neg x) (neg q)) as [E|_]; auto.
  exfalso. assert (E' : x = q) by (rewrite <- (neg_neg x), E; apply neg_neg). pose proof (six t e Fi) as S6. distinct S6. congruence.
Qed.

(** ** Corners *)
Variables s s' : nat -> bool.
Hypothesis Ss : forall h, h < n -> ~ dropped t e h -> s' (label h) = s h.
Hypothesis Sn : forall h, h < n -> s (neg h) = negb (s h).
Hypothesis Sp : s p = s (neg x).
Hypothesis Sc : s c = s (neg q).
Definition hit (h : nat) : bool := negb (s h) && s (nV t h).
Definition hit' (i : nat) : bool := negb (s' i) && s' (nV u i).

Lemma s_keep : s P = s p /\ s P' = s c.
Proof.
  unfold keep_p, keep_c. split.
  - destruct (Nat.eqb_spec p (neg q)) as [E|_]; auto. now rewrite Sc, E.
  - destruct (Nat.eqb_spec c (neg x)) as [E|_]; auto. now rewrite Sp, E.
Qed.
Lemma s_rep h : h < n -> s (rep h) = s h.
Proof.
  intros H. destruct s_keep as (E1 & E2). unfold CollapseSpec.rep. destruct (Nat.eqb_spec h (neg x)) as [->|_]; [now rewrite E1|]. destruct (Nat.eqb_spec h (neg q)) as [->|_]; [now rewrite E2|]. auto.
Qed.
Lemma s_other h : h < n -> s (other t e h) = s h.
Proof.
  intros H. destruct s_keep as (E1 & E2). destruct (keep_lt n t e W He Fi) as (L1 & L2). unfold other.
  destruct (Nat.eqb_spec h x) as [->|_]; [rewrite Sn, E1, Sp, Sn, negb_involutive; auto|]. destruct (Nat.eqb_spec h q) as [->|_]; [rewrite Sn, E2, Sc, Sn, negb_involutive; auto|]. auto.
Qed.
Lemma other_fine h : h < n -> ~ vanishes t e h -> other t e (nV t h) < n /\ ~ dropped t e (other t e (nV t h)).
Proof.
  intros Hh Nh. destruct (keep_kept t e Fi) as ((K1 & K2) & K3 & K4). destruct (keep_lt n t e W He Fi) as (L1 & L2).
  assert (L3 : neg P < n) by now apply (neg_ltn n t W). assert (L4 : neg P' < n) by now apply (neg_ltn n t W).
  assert (Hv : nV t h < n) by now apply (nV_lt n t W). assert (Inj := V_inj n t W).
  assert (g1 : nV t h <> e) by (intros E; rewrite <- (V_c n t e W Cl He) in E; apply Inj in E; auto; apply Nh; rewrite E; cbn; tauto).
  assert (g2 : nV t h <> neg e) by (intros E; rewrite <- (V_x n t e W Cl He) in E; apply Inj in E; auto; apply Nh; rewrite E; cbn; tauto).
  assert (g3 : nV t h <> neg q) by (intros E; rewrite <- (V_n n t e W Cl He) in E; apply Inj in E; auto; apply Nh; rewrite E; cbn; tauto).
  assert (g4 : nV t h <> neg x) by (intros E; rewrite <- (V_p n t e W Cl He) in E; apply Inj in E; auto; apply Nh; rewrite E; cbn; tauto).
  unfold other. destruct (Nat.eqb_spec (nV t h) x) as [Q|h7]; [now split|]. destruct (Nat.eqb_spec (nV t h) q) as [Q|h8]; [now split|].
  split; auto. intros [E|[E|[E|[E|[E|[E|[]]]]]]]; congruence.
Qed.
Lemma hit_rep h : h < n -> ~ vanishes t e h -> hit' (label (rep h)) = hit h.
Proof.
  intros H N. destruct (rep_ok n t e W He Fi h H N) as (R1 & R2). destruct (other_fine h H N) as (O1 & O2). unfold hit, hit'.
  rewrite (step n t u e label W Cl He Fi W' Cl' C h H N). rewrite !Ss, s_rep, s_other by (auto; now apply (nV_lt n t W)). reflexivity.
Qed.
(** Exactly one of the corners that vanish is met, and it is at an end of [e]. *)
Lemma hit_vanishing : exists z, z < n /\ vanishes t e z /\ hit z = true /\ merged t e e z /\ forall h, vanishes t e h -> hit h = true -> h = z.
Proof.
  destruct side_ends as (S1 & S2 & S3 & S4 & S5 & S6). assert (R : forall h, same_vertex t h h) by (intros; now exists 0).
  assert (Ee : hit e = negb (s e) && s x) by (unfold hit; rewrite (V_e n t e W Cl He), Sn, Sp, Sn, negb_involutive; auto).
  assert (Ex : hit x = negb (s x) && negb (s e)) by (unfold hit; rewrite (V_x n t e W Cl He), Sn; auto).
  assert (Ep : hit p = false) by (unfold hit; rewrite (V_p n t e W Cl He), Sp; apply andb_negb_l).
  assert (En : hit (neg e) = s e && s c) by (unfold hit; rewrite (V_n n t e W Cl He), Sn, <- Sc, negb_involutive; auto).
  assert (Ec : hit c = negb (s c) && s e) by (unfold hit; now rewrite (V_c n t e W Cl He)).
  assert (Eq : hit q = false) by (unfold hit; rewrite (V_q n t e W Cl He), Sn, Sc, Sn, negb_involutive by auto; apply andb_negb_l).
  assert (U : forall z, (hit e = true -> e = z) -> (hit x = true -> x = z) -> (hit (neg e) = true -> neg e = z) -> (hit c = true -> c = z) -> forall h, vanishes t e h -> hit h = true -> h = z).
  { intros z U1 U2 U3 U4 h [<-|[<-|[<-|[<-|[<-|[<-|[]]]]]]] Q; auto; congruence. }
  destruct (s e) eqn:Q1; [destruct (s c) eqn:Q2|destruct (s x) eqn:Q2]; cbn in Ee, Ex, En, Ec.
  - exists (neg e). split; auto. split; [cbn; tauto|]. split; auto. split; [right; auto|]. rewrite andb_false_r in *. apply U; congruence.
  - exists c. split; auto. split; [cbn; tauto|]. split; auto. split; [left; auto|]. rewrite andb_false_r in *. apply U; congruence.
  - exists e. split; auto. split; [cbn; tauto|]. split; auto. split; [left; auto|]. rewrite andb_false_r in *. apply U; congruence.
  - exists x. split; auto. split; [cbn; tauto|]. split; auto. split; [right; auto|]. rewrite andb_false_r in *. apply U; congruence.
Qed.

Theorem count_corners (h0 : nat) (b w : nat -> bool) : h0 < n -> (forall h, h < n -> (b h = true <-> merged t e h0 h)) -> (forall i, i < n - 6 -> (w i = true <-> same_vertex u (label (kept h0)) i)) ->
  length (filter hit (filter b (seq 0 n))) = length (filter hit' (filter w (seq 0 (n - 6)))) + (if b e then 1 else 0).
Proof.
  intros H0 B Ww. rewrite !filter_filter. set (van := fun h => existsb (Nat.eqb h) [e; x; p; neg e; c; q]).
  assert (Van : forall h, van h = true <-> vanishes t e h).
  { intros h. unfold van, vanishes. rewrite existsb_exists. split; [intros (g & I & E); apply Nat.eqb_eq in E; now subst|]. intros I. exists h. split; auto. apply Nat.eqb_refl. }
  assert (Nan : forall h, negb (van h) = true <-> ~ vanishes t e h) by (intros h; rewrite <- Van; destruct (van h); cbn; split; congruence).
  rewrite (filter_split _ (fun h => negb (van h))). f_equal.
  - set (l := filter (fun a => b a && hit a && negb (van a)) (seq 0 n)).
    assert (L : forall h, In h l <-> h < n /\ merged t e h0 h /\ hit h = true /\ ~ vanishes t e h).
    { intros h. unfold l. rewrite filter_In, in_seq, !andb_true_iff, Nan. split.
      - intros ((_ & H) & (Q1 & Q2) & Q3). split; auto. split; auto. now apply B.
      - intros (H & Q1 & Q2 & Q3). split; [lia|]. split; auto. split; auto. now apply B. }
    assert (Pe : Permutation (map (fun h => label (rep h)) l) (filter (fun a => w a && hit' a) (seq 0 (n - 6)))).
    { destruct C as (C1 & C2 & C3 & C4). apply NoDup_Permutation; [|apply NoDup_filter, seq_NoDup|].
      - apply map_nodup; [|apply NoDup_filter, seq_NoDup]. intros a a' Ia Ia' E. apply L in Ia as (Ia & _ & _ & Na). apply L in Ia' as (Ia' & _ & _ & Na').
        destruct (rep_ok n t e W He Fi a Ia Na). destruct (rep_ok n t e W He Fi a' Ia' Na'). apply C2 in E; auto. now apply (rep_inj n t e Fi).
      - intros i. rewrite in_map_iff, filter_In, in_seq, andb_true_iff. split.
        + intros (h & <- & I). apply L in I as (H & M & Q & N). destruct (rep_ok n t e W He Fi h H N) as (R1 & R2). assert (Hi := proj1 (C1 _ R1 R2)). split; [lia|].
          rewrite (hit_rep h H N). split; auto. apply Ww; auto. rewrite (rep_kept h H N). now apply kept_same.
        + intros ((_ & Hi) & Qw & Qh). cbn in Hi. destruct (C3 i Hi) as (g & Hg & Ng & <-). destruct (rep_onto n t e W He Fi g Hg Ng) as (h & Hh & Nh & <-). exists h. split; auto. apply L.
          split; auto. rewrite (hit_rep h Hh Nh) in Qh. split; [|now split]. apply Ww in Qw; auto. rewrite (rep_kept h Hh Nh) in Qw. now apply kept_same. }
    apply Permutation_length in Pe. now rewrite map_length in Pe.
  - destruct hit_vanishing as (z & Hz & Vz & Qz & Mz & U).
    assert (Bz : b z = b e).
    { apply eq_true_iff_eq. rewrite !B by auto. assert (Tr := merged_trans n t e W). split; intros M; [apply (Tr _ z)|apply (Tr _ e)]; auto. now apply merged_sym. }
    destruct (b e) eqn:Be.
    + apply (filter_one _ z); auto; [rewrite Bz, Qz; cbn; rewrite negb_involutive; now apply Van|]. intros h H Q. rewrite !andb_true_iff, negb_involutive, Van in Q. apply U; tauto.
    + apply filter_none. intros h I. apply in_seq in I. destruct (b h && hit h && negb (negb (van h))) eqn:Q; auto. rewrite !andb_true_iff, negb_involutive, Van in Q. destruct Q as ((Q1 & Q2) & Q3).
      assert (h = z) by auto. subst h. congruence.
Qed.
End count.
