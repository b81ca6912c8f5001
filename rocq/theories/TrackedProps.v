(** * Theorems about objects attached to a triangulation (C44) *)
From Coq Require Import List Arith Bool Lia Permutation.
From Verif Require Import Base HalfEdge HalfEdgeFacts Perm PermSpec PermFacts PermCycles IndexedSet IndexedSetSpec IndexedSetFacts
  Combinatorial CombinatorialSpec CombinatorialFacts Tracked.
Import ListNotations.

(** ** Specification *)
(** The relabeling that exchanges the edges of [a] and [b] such that [a] becomes [b]. *)
Definition relabeled (a b h : nat) : nat :=
  if h =? a then b else if h =? b then a else if h =? neg a then neg b else if h =? neg b then neg a else h.
Definition relabeled_all (l : list (nat * nat)) (h : nat) : nat := fold_left (fun h p => relabeled (fst p) (snd p) h) l h.
(** The entries of [l] moved to the new labels. *)
Definition moved {T} (f : nat -> nat) (l l' : list T) : Prop :=
  length l' = length l /\ forall h, h < length l -> nth_error l' (f h) = nth_error l h.

(** ** Facts *)
Ltac eqbs := repeat match goal with |- context [?x =? ?y] => destruct (Nat.eqb_spec x y) end; subst; rewrite ?neg_neg in *; try congruence.

Lemma relabeled_neg a b h : a <> b -> relabeled a b (neg h) = neg (relabeled a b h).
Proof.
  intros N. unfold relabeled.
  destruct (Nat.eqb_spec h a) as [->|H1].
  { destruct (Nat.eqb_spec (neg a) a) as [E|_]; [exfalso; eapply neg_ne; eauto|].
    destruct (Nat.eqb_spec (neg a) b) as [<-|_]; [now rewrite neg_neg|]. now rewrite Nat.eqb_refl. }
  destruct (Nat.eqb_spec h b) as [->|H2].
  { destruct (Nat.eqb_spec (neg b) a) as [<-|_]; [now rewrite neg_neg|].
    destruct (Nat.eqb_spec (neg b) b) as [E|_]; [exfalso; eapply neg_ne; eauto|].
    destruct (Nat.eqb_spec (neg b) (neg a)) as [E|_]; [apply neg_inj in E; congruence|]. now rewrite Nat.eqb_refl. }
  destruct (Nat.eqb_spec h (neg a)) as [->|H3]; [now rewrite !neg_neg, Nat.eqb_refl|].
  destruct (Nat.eqb_spec h (neg b)) as [->|H4].
  { rewrite !neg_neg. destruct (Nat.eqb_spec b a); [congruence|]. now rewrite Nat.eqb_refl. }
  destruct (Nat.eqb_spec (neg h) a) as [E|_]; [exfalso; apply H3; now rewrite <- E, neg_neg|].
  destruct (Nat.eqb_spec (neg h) b) as [E|_]; [exfalso; apply H4; now rewrite <- E, neg_neg|].
  destruct (Nat.eqb_spec (neg h) (neg a)) as [E|_]; [apply neg_inj in E; congruence|].
  destruct (Nat.eqb_spec (neg h) (neg b)) as [E|_]; [apply neg_inj in E; congruence|]. auto.
Qed.

Lemma relabeled_involutive a b h : relabeled a b (relabeled a b h) = h.
Proof.
  unfold relabeled.
  destruct (Nat.eqb_spec h a) as [->|H1].
  { destruct (Nat.eqb_spec b a); auto. now rewrite Nat.eqb_refl. }
  destruct (Nat.eqb_spec h b) as [->|H2]; [now rewrite Nat.eqb_refl|].
  destruct (Nat.eqb_spec h (neg a)) as [->|H3].
  { destruct (Nat.eqb_spec (neg b) a) as [E|E]; [exfalso; apply H2; now rewrite <- E, neg_neg|].
    destruct (Nat.eqb_spec (neg b) b) as [E'|_]; [exfalso; eapply neg_ne; eauto|].
    destruct (Nat.eqb_spec (neg b) (neg a)); auto. now rewrite Nat.eqb_refl. }
  destruct (Nat.eqb_spec h (neg b)) as [->|H4].
  { destruct (Nat.eqb_spec (neg a) a) as [E'|_]; [exfalso; eapply neg_ne; eauto|].
    destruct (Nat.eqb_spec (neg a) b) as [E'|_]; [exfalso; apply H1; now rewrite <- E', neg_neg|]. now rewrite Nat.eqb_refl. }
  destruct (Nat.eqb_spec h a); [congruence|]. destruct (Nat.eqb_spec h b); [congruence|].
  destruct (Nat.eqb_spec h (neg a)); [congruence|]. destruct (Nat.eqb_spec h (neg b)); congruence.
Qed.

Lemma relabeled_lt m a b h : a < 2 * m -> b < 2 * m -> h < 2 * m -> relabeled a b h < 2 * m.
Proof. intros A B H. unfold relabeled. assert (X := neg_lt a m A). assert (Y := neg_lt b m B). repeat destruct (_ =? _); auto. Qed.

Lemma half_edge_swap_relabeled a b h : half_edge_swap h a b = relabeled a b h.
Proof.
  unfold half_edge_swap, relabeled.
  destruct (Nat.eqb_spec h a) as [->|H1]; auto.
  destruct (Nat.eqb_spec h (neg a)) as [->|H3]; auto.
  destruct (Nat.eqb_spec (neg a) b) as [<-|E]; auto. apply neg_neg.
Qed.

Lemma swap_entries_ok {T} (l : list T) i j : i < length l -> j < length l ->
  exists l', swap_entries l i j = Ok l' /\ length l' = length l /\
    (forall k, nth_error l' k = nth_error l (if k =? i then j else if k =? j then i else k)).
Proof.
  intros Hi Hj. unfold swap_entries.
  destruct (nth_error l i) as [x|] eqn:X; [|apply nth_error_None in X; lia]. destruct (nth_error l j) as [y|] eqn:Y; [|apply nth_error_None in Y; lia].
  unfold vget. rewrite X, Y. cbn [bind]. rewrite vset_Ok by auto. cbn [bind]. rewrite vset_Ok by (now rewrite upd_length). eexists. split; [reflexivity|].
  rewrite !upd_length. split; auto. intros k.
  destruct (Nat.eqb_spec k j) as [->|K1].
  - rewrite nth_error_upd_eq by (now rewrite upd_length). destruct (Nat.eqb_spec j i) as [->|]; [congruence|auto].
  - rewrite nth_error_upd_ne by auto. destruct (Nat.eqb_spec k i) as [->|K2].
    + rewrite nth_error_upd_eq by auto. auto.
    + now rewrite nth_error_upd_ne by auto.
Qed.

Lemma edge_index_neg h : edge_index (edge_of (neg h)) = edge_index (edge_of h).
Proof. unfold edge_of, edge_index, he_index. rewrite neg_neg. destruct (neg h <? h), (h <? neg h); rewrite ?neg_div2; auto. Qed.
Lemma edge_index_of h : edge_index (edge_of h) = h / 2.
Proof. unfold edge_of, edge_index, he_index. destruct (h <? neg h); rewrite ?neg_div2; auto. Qed.

(** *** Relabeling of the triangulation *)
Lemma transposition_cyclic a b i : a <> b -> cyclic [a; b] i = if i =? a then b else if i =? b then a else i.
Proof. intros. unfold cyclic. cbn. destruct (i =? a), (i =? b); auto. Qed.

Lemma conjugate_ok n p a b : wfp n p -> a < n -> b < n -> a <> b ->
  exists q, (do p <- rmul_cycle p [a; b]; lmul_cycle [a; b] p) = Ok q /\ wfp n q /\
    forall i, i < n -> fw q (cyclic [a; b] i) = cyclic [a; b] (fw p i).
Proof.
  intros W A B N. assert (L : forall x, In x [a; b] -> x < n) by (intros x [<-|[<-|[]]]; auto).
  assert (D : NoDup [a; b]) by (repeat constructor; cbn; intuition congruence).
  destruct (rmul_cycle_Ok n p [a; b] W L (or_introl D)) as (p1 & -> & W1 & F1). cbn [bind].
  destruct (lmul_cycle_Ok n p1 [a; b] W1 L (or_introl D)) as (q & E & W2 & F2). exists q. split; auto. split; auto. intros i Hi.
  assert (T : forall k, cyclic [a; b] (cyclic [a; b] k) = k).
  { intros k. rewrite !transposition_cyclic by auto. destruct (Nat.eqb_spec k a) as [->|K1].
    - destruct (Nat.eqb_spec b a); [congruence|]. now rewrite Nat.eqb_refl.
    - destruct (Nat.eqb_spec k b) as [->|K2]; [now rewrite Nat.eqb_refl|].
      destruct (Nat.eqb_spec k a); [congruence|]. destruct (Nat.eqb_spec k b); congruence. }
  assert (LT : forall k, k < n -> cyclic [a; b] k < n) by (intros k Hk; rewrite transposition_cyclic by auto; destruct (k =? a), (k =? b); auto).
  apply (bw_inj n q W2); auto using (fw_lt n q W2), (fw_lt n p W).
  rewrite (bw_fw n q W2) by auto. rewrite F2 by auto using (fw_lt n p W). rewrite T.
  rewrite <- (T i) at 2. rewrite <- F1 by auto. now rewrite (bw_fw n p1 W1) by auto.
Qed.

Lemma relabeled_two a b h : a <> neg b -> a <> b -> relabeled a b h = cyclic [neg a; neg b] (cyclic [a; b] h).
Proof.
  intros N N'. rewrite !transposition_cyclic by (auto; intros E; apply neg_inj in E; auto). unfold relabeled.
  assert (N2 : neg a <> b) by (intros E; apply N; now rewrite <- E, neg_neg).
  destruct (Nat.eqb_spec h a) as [->|H1].
  { destruct (Nat.eqb_spec b (neg a)); [congruence|]. destruct (Nat.eqb_spec b (neg b)) as [E|]; auto. exfalso; eapply neg_ne; eauto. }
  destruct (Nat.eqb_spec h b) as [->|H2].
  { destruct (Nat.eqb_spec a (neg a)) as [E|]; [exfalso; eapply neg_ne; eauto|]. destruct (Nat.eqb_spec a (neg b)); congruence. }
  auto.
Qed.

Lemma swap_perm_ok n m p a b : n = 2 * m -> wfp n p -> a < n -> b < n -> a <> b ->
  exists q, swap_perm p a b = Ok q /\ wfp n q /\ forall i, i < n -> fw q (relabeled a b i) = relabeled a b (fw p i).
Proof.
  intros E W A B N. unfold swap_perm. destruct (conjugate_ok n p a b W A B N) as (q & C & Wq & F).
  apply bind_Ok in C as (p1 & C1 & C2). rewrite C1. cbn [bind]. rewrite C2. cbn [bind].
  destruct (Nat.eqb_spec a (neg b)) as [->|N'].
  - exists q. split; auto. split; auto.
    assert (R : forall i, relabeled (neg b) b i = cyclic [neg b; b] i).
    { intros i. rewrite transposition_cyclic by auto. unfold relabeled. rewrite neg_neg.
      destruct (Nat.eqb_spec i (neg b)); auto. destruct (Nat.eqb_spec i b); auto. }
    intros i Hi. rewrite !R. auto.
  - assert (A' : neg a < n) by (subst n; now apply neg_lt). assert (B' : neg b < n) by (subst n; now apply neg_lt).
    assert (N2 : neg a <> neg b) by (intros X; apply neg_inj in X; auto).
    destruct (conjugate_ok n q (neg a) (neg b) Wq A' B' N2) as (q' & C' & Wq' & F'). exists q'. split; auto. split; auto.
    intros i Hi. rewrite !relabeled_two by auto.
    assert (LT : cyclic [a; b] i < n) by (rewrite transposition_cyclic by auto; destruct (i =? a), (i =? b); auto).
    rewrite F' by auto. now rewrite F by auto.
Qed.

Lemma swap_ok n t a b : well_formed n t -> a < n -> b < n ->
  exists t', swap t a b = Ok t' /\ well_formed n t' /\
    forall h, h < n -> nF t' (relabeled a b h) = relabeled a b (nF t h) /\ nV t' (relabeled a b h) = relabeled a b (nV t h).
Proof.
  intros W A B. unfold swap. destruct (Nat.eqb_spec a b) as [<-|N].
  { exists t. split; auto. split; auto. assert (R : forall h, relabeled a a h = h) by (intros h; unfold relabeled; destruct (Nat.eqb_spec h a); auto; destruct (Nat.eqb_spec h (neg a)); auto).
    intros h _. rewrite !R. auto. }
  destruct (wf_even n t W) as (m & E).
  destruct (swap_perm_ok n m (tV t) a b E (wfV n t W) A B N) as (V & -> & WV & FV). cbn [bind].
  destruct (swap_perm_ok n m (tF t) a b E (wfF n t W) A B N) as (F & -> & WF & FF). cbn [bind].
  destruct (reset_vertexes_Ok n V F WV) as (vs & -> & VC). cbn [bind]. eexists. split; [reflexivity|].
  assert (LT : forall h, h < n -> relabeled a b h < n) by (intros h; rewrite E in *; now apply relabeled_lt).
  change (forall i, i < n -> nV (mkTri V F vs) (relabeled a b i) = relabeled a b (nV t i)) in FV.
  change (forall i, i < n -> nF (mkTri V F vs) (relabeled a b i) = relabeled a b (nF t i)) in FF.
  split; [|auto]. constructor; auto.
  - now exists m.
  - now apply wfp_is_perm.
  - now apply wfp_is_perm.
  - intros e He. rewrite <- (relabeled_involutive a b e). set (i := relabeled a b e). assert (Hi : i < n) by (now apply LT).
    rewrite FF by auto. rewrite FF by now apply (nF_lt n t W). rewrite FF by (do 2 apply (nF_lt n t W); auto). now rewrite (wf_triangle n t W).
  - intros e He. rewrite <- (relabeled_involutive a b e). set (i := relabeled a b e). assert (Hi : i < n) by (now apply LT).
    rewrite FF, FV by auto. intros X. rewrite <- relabeled_neg by auto. rewrite FF by (apply (neg_ltn n t W), (nV_lt n t W); auto). f_equal.
    apply (wf_link n t W); auto.
Qed.

(** *** Dictionaries *)
Lemma edge_map_swap_ok {T} (l : list T) m a b : length l = m -> a < 2 * m -> b < 2 * m -> a <> b ->
  exists l', edge_map_swap l a b = Ok l' /\ length l' = m /\
    forall h, h < 2 * m -> nth_error l' (relabeled a b h / 2) = nth_error l (h / 2).
Proof.
  intros L A B N. unfold edge_map_swap. destruct (Nat.eqb_spec a b) as [|_]; [contradiction|]. rewrite !edge_index_of.
  assert (A2 : a / 2 < length l) by (apply Nat.div_lt_upper_bound; lia). assert (B2 : b / 2 < length l) by (apply Nat.div_lt_upper_bound; lia).
  destruct (swap_entries_ok l (a / 2) (b / 2) A2 B2) as (l' & E & L' & F). exists l'. split; auto. split; [lia|]. intros h Hh. rewrite F.
  assert (Q : forall x y, x / 2 = y / 2 -> x = y \/ x = neg y).
  { intros x y D. he_case x; he_case y; rewrite ?div2_even, ?div2_odd, ?neg_even, ?neg_odd in *; lia. }
  unfold relabeled. destruct (Nat.eqb_spec h a) as [->|H1].
  { destruct (Nat.eqb_spec (b / 2) (a / 2)) as [X|X]; [auto|now rewrite Nat.eqb_refl]. }
  destruct (Nat.eqb_spec h b) as [->|H2]; [now rewrite Nat.eqb_refl|].
  destruct (Nat.eqb_spec h (neg a)) as [->|H3].
  { rewrite !neg_div2. destruct (Nat.eqb_spec (b / 2) (a / 2)) as [X|X]; [now rewrite X|now rewrite Nat.eqb_refl]. }
  destruct (Nat.eqb_spec h (neg b)) as [->|H4]; [rewrite !neg_div2; now rewrite Nat.eqb_refl|].
  destruct (Nat.eqb_spec (h / 2) (a / 2)) as [X|_]; [apply Q in X as [|]; contradiction|].
  destruct (Nat.eqb_spec (h / 2) (b / 2)) as [X|_]; [apply Q in X as [|]; contradiction|]. auto.
Qed.

Lemma half_edge_map_swap_ok {T} (l : list T) m a b : length l = 2 * m -> a < 2 * m -> b < 2 * m -> a <> b -> a <> neg b ->
  exists l', half_edge_map_swap l a b = Ok l' /\ moved (relabeled a b) l l'.
Proof.
  intros L A B N N'. unfold half_edge_map_swap. destruct (Nat.eqb_spec a b) as [|_]; [contradiction|].
  assert (A' := neg_lt a m A). assert (B' := neg_lt b m B).
  destruct (swap_entries_ok l a b) as (l1 & -> & L1 & F1); [lia..|]. cbn [bind].
  destruct (swap_entries_ok l1 (neg a) (neg b)) as (l2 & -> & L2 & F2); [lia..|]. exists l2. split; auto. split; [lia|]. intros h Hh.
  assert (N2 : neg a <> b) by (intros E; apply N'; now rewrite <- E, neg_neg).
  assert (NA := neg_ne a). assert (NB := neg_ne b). assert (N3 : neg a <> neg b) by (intros X; apply neg_inj in X; auto).
  assert (Q : forall k, nth_error l2 k = nth_error l (relabeled a b k)).
  { intros k. rewrite F2, F1. f_equal. rewrite relabeled_two by auto. rewrite !transposition_cyclic by auto.
    destruct (Nat.eqb_spec k (neg a)), (Nat.eqb_spec k (neg b)), (Nat.eqb_spec k a), (Nat.eqb_spec k b); try congruence; 
    repeat match goal with |- context [?x =? ?y] => destruct (Nat.eqb_spec x y); try congruence end. }
  rewrite Q. now rewrite relabeled_involutive.
Qed.

(** The values of [h] and [-h] are opposite. *)
Definition odd_map {T} (opp : T -> T) (l : list T) : Prop :=
  forall h x, nth_error l h = Some x -> nth_error l (neg h) = Some (opp x).

Lemma odd_map_swap_ok {T} (opp : T -> T) (l : list T) m a b : (forall x, opp (opp x) = x) -> odd_map opp l -> length l = 2 * m -> a < 2 * m -> b < 2 * m -> a <> b ->
  exists l', odd_map_swap opp l a b = Ok l' /\ moved (relabeled a b) l l'.
Proof.
  intros OO O L A B N. unfold odd_map_swap. destruct (Nat.eqb_spec a b) as [|_]; [contradiction|].
  assert (A' := neg_lt a m A). assert (B' := neg_lt b m B). assert (NA := neg_ne a). assert (NB := neg_ne b).
  destruct (nth_error l a) as [x|] eqn:X; [|apply nth_error_None in X; lia]. destruct (nth_error l b) as [y|] eqn:Y; [|apply nth_error_None in Y; lia].
  assert (X' := O _ _ X). assert (Y' := O _ _ Y). unfold vget, odd_set. rewrite X, Y. cbn [bind].
  destruct (Nat.eqb_spec a (neg b)) as [->|N'].
  - rewrite vset_Ok by lia. cbn [bind]. rewrite neg_neg in *. rewrite vset_Ok by (rewrite upd_length; lia). eexists. split; [reflexivity|].
    split; [now rewrite !upd_length|]. intros h Hh. unfold relabeled. rewrite neg_neg.
    destruct (Nat.eqb_spec h (neg b)) as [->|H1].
    { rewrite nth_error_upd_eq by (rewrite upd_length; lia). congruence. }
    destruct (Nat.eqb_spec h b) as [->|H2]; [rewrite nth_error_upd_ne by auto; rewrite nth_error_upd_eq by lia; congruence|].
    now rewrite !nth_error_upd_ne by auto.
  - assert (N2 : neg a <> b) by (intros E; apply N'; now rewrite <- E, neg_neg).
    assert (N3 : neg a <> neg b) by (intros E; apply neg_inj in E; auto).
    rewrite vset_Ok by lia. cbn [bind]. rewrite vset_Ok by (rewrite upd_length; lia). cbn [bind]. rewrite vset_Ok by (rewrite !upd_length; lia). cbn [bind].
    rewrite vset_Ok by (rewrite !upd_length; lia). eexists. split; [reflexivity|]. split; [now rewrite !upd_length|]. intros h Hh. unfold relabeled.
    destruct (Nat.eqb_spec h a) as [->|H1]; [rewrite nth_error_upd_ne by auto; rewrite nth_error_upd_eq by (rewrite !upd_length; lia); congruence|].
    destruct (Nat.eqb_spec h b) as [->|H2]; [rewrite !(nth_error_upd_ne _ _ a) by auto; rewrite nth_error_upd_eq by lia; congruence|].
    destruct (Nat.eqb_spec h (neg a)) as [->|H3]; [rewrite nth_error_upd_eq by (rewrite !upd_length; lia); congruence|].
    destruct (Nat.eqb_spec h (neg b)) as [->|H4].
    { rewrite !(nth_error_upd_ne _ _ (neg a)) by auto. rewrite nth_error_upd_eq by (rewrite !upd_length; lia). congruence. }
    now rewrite !nth_error_upd_ne by auto.
Qed.

Lemma edge_set_swap_ok s a b h : mem (edge_set_swap s a b) (relabeled a b h / 2) = mem s (h / 2).
Proof.
  unfold edge_set_swap. rewrite !edge_index_of, !contains_mem.
  assert (Q : forall x y, x / 2 = y / 2 -> x = y \/ x = neg y).
  { intros x y D. he_case x; he_case y; rewrite ?div2_even, ?div2_odd, ?neg_even, ?neg_odd in *; lia. }
  assert (C : (a / 2 = b / 2 /\ relabeled a b h / 2 = h / 2 /\ (a =? b) || (a =? neg b) = true) \/
              (a / 2 <> b / 2 /\ (a =? b) || (a =? neg b) = false /\ relabeled a b h / 2 = if h / 2 =? a / 2 then b / 2 else if h / 2 =? b / 2 then a / 2 else h / 2)).
  { destruct (Nat.eq_dec (a / 2) (b / 2)) as [E|E]; [left|right]; split; auto.
    - assert (R : forall x, In x [a; b; neg a; neg b] -> x / 2 = a / 2) by (intros x [<-|[<-|[<-|[<-|[]]]]]; rewrite ?neg_div2; auto).
      split; [|destruct (Q _ _ E) as [-> | ->]; rewrite Nat.eqb_refl; auto using orb_true_r].
      unfold relabeled. destruct (Nat.eqb_spec h a) as [->|H1]; auto. destruct (Nat.eqb_spec h b) as [->|H2]; auto.
      destruct (Nat.eqb_spec h (neg a)) as [->|H3]; [now rewrite !neg_div2|]. destruct (Nat.eqb_spec h (neg b)) as [->|H4]; auto. now rewrite !neg_div2.
    - split; [apply orb_false_iff; split; apply Nat.eqb_neq; intros ->; apply E; rewrite ?neg_div2; auto|].
      unfold relabeled. destruct (Nat.eqb_spec h a) as [->|H1]; [now rewrite Nat.eqb_refl|].
      destruct (Nat.eqb_spec h b) as [->|H2]; [destruct (Nat.eqb_spec (b / 2) (a / 2)); [congruence|]; now rewrite Nat.eqb_refl|].
      destruct (Nat.eqb_spec h (neg a)) as [->|H3]; [rewrite !neg_div2; now rewrite Nat.eqb_refl|].
      destruct (Nat.eqb_spec h (neg b)) as [->|H4]; [rewrite !neg_div2; destruct (Nat.eqb_spec (b / 2) (a / 2)); [congruence|]; now rewrite Nat.eqb_refl|].
      destruct (Nat.eqb_spec (h / 2) (a / 2)) as [X|_]; [apply Q in X as [|]; contradiction|].
      destruct (Nat.eqb_spec (h / 2) (b / 2)) as [X|_]; [apply Q in X as [|]; contradiction|]. auto. }
  destruct C as [(_ & -> & ->)|(D & -> & ->)]; auto. set (x := a / 2) in *. set (y := b / 2) in *. set (z := h / 2).
  clearbody x y z.
  destruct (mem s x) eqn:X, (mem s y) eqn:Y; cbn [andb negb]; rewrite ?mem_insert, ?mem_erase;
    repeat match goal with |- context [?x =? ?y] => destruct (Nat.eqb_spec x y); try congruence end; subst; cbn; congruence.
Qed.

(** *** Erasing *)
Lemma removelast_firstn' {T} (l : list T) : removelast l = firstn (length l - 1) l.
Proof.
  destruct l as [|x l]; auto. replace (length (x :: l) - 1) with (length l) by (cbn; lia). apply removelast_firstn_len.
Qed.
Lemma edge_map_erase_ok {T} k : forall l : list T, edge_map_erase l k = firstn (length l - k) l.
Proof.
  induction k as [|k IH]; intros l; cbn; [now rewrite Nat.sub_0_r, firstn_all|].
  rewrite IH, removelast_firstn', firstn_length, firstn_firstn. f_equal. lia.
Qed.
Lemma half_edge_map_erase_ok {T} k : forall l : list T, half_edge_map_erase l k = firstn (length l - 2 * k) l.
Proof.
  induction k as [|k IH]; intros l; cbn [half_edge_map_erase]; [now rewrite Nat.sub_0_r, firstn_all|].
  rewrite IH, !removelast_firstn', !firstn_length, !firstn_firstn. f_equal. lia.
Qed.
Lemma nth_error_firstn {T} (l : list T) k i : i < k -> nth_error (firstn k l) i = nth_error l i.
Proof. revert k i. induction l as [|x l IH]; intros [|k] [|i] H; cbn; auto; try lia. apply IH. lia. Qed.
Lemma edge_set_erase_ok er : forall s x, mem (edge_set_erase s er) x = mem s x && negb (mem_list x er).
Proof.
  induction er as [|e er IH]; intros s x; [cbn; now rewrite andb_true_r|].
  change (edge_set_erase s (e :: er)) with (edge_set_erase (serase s e) er). rewrite IH, mem_erase.
  unfold mem_list. cbn [existsb]. destruct (x =? e), (mem s x), (existsb (Nat.eqb x) er); auto.
Qed.

(** *** The loop that moves the erased edges to the end *)
Lemma mem_list_iff x l : mem_list x l = true <-> In x l.
Proof. unfold mem_list. rewrite existsb_exists. split; [intros (y & I & E); apply Nat.eqb_eq in E; congruence|intros I; exists x; split; auto; apply Nat.eqb_refl]. Qed.

Lemma lower_spec drop m : lower drop m <= m /\ (forall x, lower drop m <= x < m -> In x drop) /\ (forall r, lower drop m = S r -> ~ In r drop).
Proof.
  induction m as [|m (I1 & I2 & I3)]; cbn [lower]; [split; auto; split; [lia|discriminate]|].
  destruct (mem_list m drop) eqn:E.
  - apply mem_list_iff in E. split; [lia|]. split; auto. intros x X. destruct (Nat.eq_dec x m) as [->|]; auto. apply I2. lia.
  - split; auto. split; [lia|]. intros r [= <-] I. apply mem_list_iff in I. congruence.
Qed.

Lemma relabeled_div2 d m h : d <> m -> relabeled (2 * d) (2 * m) h / 2 = if h / 2 =? d then m else if h / 2 =? m then d else h / 2.
Proof.
  intros N. unfold relabeled. rewrite !neg_even. he_case h; rewrite ?div2_even, ?div2_odd;
  repeat match goal with |- context [?x =? ?y] => destruct (Nat.eqb_spec x y) end; rewrite ?div2_even, ?div2_odd; lia.
Qed.

Lemma remove_length d drop : NoDup drop -> In d drop -> S (length (remove Nat.eq_dec d drop)) = length drop.
Proof.
  induction drop as [|x drop IH]; intros N I; [contradiction|]. inv N. cbn. destruct (Nat.eq_dec d x) as [->|E].
  - now rewrite notin_remove by auto.
  - cbn. f_equal. apply IH; auto. destruct I; congruence.
Qed.
Lemma remove_NoDup d (drop : list nat) : NoDup drop -> NoDup (remove Nat.eq_dec d drop).
Proof.
  induction drop as [|x drop IH]; intros N; cbn; auto. inv N. destruct (Nat.eq_dec d x); auto. constructor; auto. intros I. apply in_remove in I as [I _]. auto.
Qed.
Lemma relabeled_all_app l r h : relabeled_all (l ++ r) h = relabeled_all r (relabeled_all l h).
Proof. unfold relabeled_all. apply fold_left_app. Qed.

Definition proper_swaps size (l : list (nat * nat)) : Prop := forall a b, In (a, b) l -> a < 2 * size /\ b < 2 * size /\ a <> b /\ a <> neg b.

Lemma make_last_loop_ok size k : forall ds max drop collapse swaps,
  NoDup drop -> length drop = k -> (forall x, In x drop -> x < size) -> max <= size -> (forall x, max <= x < size -> In x drop) ->
  NoDup ds -> (forall d, In d ds -> In d drop) -> (forall x, In x drop -> x < size - k -> In x ds) -> In (collapse / 2) drop ->
  exists new drop', make_last_loop size ds max drop collapse swaps = Ok (swaps ++ new, drop', relabeled_all new collapse) /\
    proper_swaps size new /\ NoDup drop' /\ length drop' = k /\ (forall x, In x drop' -> size - k <= x < size) /\
    (forall h, In (relabeled_all new h / 2) drop' <-> In (h / 2) drop).
Proof.
  induction ds as [|d ds IH]; intros max drop collapse swaps ND LD LT MS MX NS DS SD CD; cbn [make_last_loop].
  - exists [], drop. rewrite app_nil_r. split; [reflexivity|]. split; [intros ? ? []|]. split; auto. split; auto. split; [|cbn; tauto].
    intros x X. split; auto. destruct (le_lt_dec (size - k) x); auto. destruct (SD x X l).
  - assert (Dd : In d drop) by (apply DS; cbn; auto). destruct (lower_spec drop max) as (L1 & L2 & L3). rewrite LD.
    apply NoDup_cons_iff in NS as [Nd NS].
    destruct (Nat.ltb_spec d (size - k)) as [D|D].
    + destruct (lower drop max) as [|m] eqn:LM.
      * exfalso. assert (Hk : k < size) by lia. assert (I : incl (d :: seq (size - k) k) drop).
        { intros x [<-|X]; auto. apply in_seq in X. destruct (le_lt_dec max x); [apply MX; lia|apply L2; lia]. }
        apply NoDup_incl_length in I; [|constructor; [intros X; apply in_seq in X; lia|apply seq_NoDup]]. cbn in I. rewrite seq_length in I. lia.
      * assert (Hm : size - k <= m).
        { destruct (le_lt_dec (size - k) m); auto. exfalso. assert (I : incl (d :: seq (size - k) k) drop).
          { intros x [<-|X]; auto. apply in_seq in X. destruct (le_lt_dec max x); [apply MX; lia|apply L2; lia]. }
          apply NoDup_incl_length in I; [|constructor; [intros X; apply in_seq in X; lia|apply seq_NoDup]]. cbn in I. rewrite seq_length in I. lia. }
        assert (Nm : ~ In m drop) by (apply L3; auto). assert (ms : m < size) by lia. assert (dm : d <> m) by congruence.
        assert (DR : forall h, In (relabeled (2 * d) (2 * m) h / 2) (m :: remove Nat.eq_dec d drop) <-> In (h / 2) drop).
        { intros h. rewrite relabeled_div2 by auto. destruct (Nat.eqb_spec (h / 2) d) as [->|E1]; [cbn; tauto|].
          destruct (Nat.eqb_spec (h / 2) m) as [->|E2].
          - split; [|contradiction]. intros [X|X]; [congruence|]. apply in_remove in X. tauto.
          - split; [intros [X|X]; [congruence|now apply in_remove in X]|]. intros X. right. now apply in_in_remove. }
        set (collapse' := if 2 * d =? collapse then 2 * m else if neg (2 * d) =? collapse then neg (2 * m) else collapse).
        assert (CC : collapse' = relabeled (2 * d) (2 * m) collapse).
        { unfold collapse', relabeled. rewrite (Nat.eqb_sym collapse (2 * d)), (Nat.eqb_sym collapse (neg (2 * d))).
          assert (X1 : collapse <> 2 * m) by (intros ->; rewrite div2_even in CD; auto).
          assert (X2 : collapse <> neg (2 * m)) by (intros ->; rewrite neg_div2, div2_even in CD; auto).
          destruct (Nat.eqb_spec (2 * d) collapse); auto. destruct (Nat.eqb_spec collapse (2 * m)); [contradiction|].
          destruct (Nat.eqb_spec (neg (2 * d)) collapse); auto. destruct (Nat.eqb_spec collapse (neg (2 * m))); [contradiction|auto]. }
        destruct (IH (S m) (m :: remove Nat.eq_dec d drop) collapse' (swaps ++ [(2 * d, 2 * m)])) as (new & drop' & E & P1 & P2 & P3 & P4 & P5).
        -- constructor; [|now apply remove_NoDup]. intros X. apply in_remove in X. tauto.
        -- cbn. now rewrite remove_length.
        -- intros x [<-|X]; [lia|]. apply in_remove in X as [X _]. auto.
        -- lia.
        -- intros x X. right. apply in_in_remove; [lia|]. destruct (le_lt_dec max x); [apply MX; lia|apply L2; lia].
        -- auto.
        -- intros x X. right. apply in_in_remove; [intros ->; contradiction|]. apply DS. cbn; auto.
        -- intros x [<-|X] Y; [lia|]. apply in_remove in X as [X X']. destruct (SD x X Y); [congruence|auto].
        -- rewrite CC. now apply DR.
        -- exists ((2 * d, 2 * m) :: new), drop'. split; [rewrite E; rewrite <- app_assoc; cbn [app]; rewrite CC; reflexivity|]. split; [|split; auto; split; auto; split; auto].
           ++ intros a b [X|X]; auto. apply pair_equal_spec in X as [<- <-]. assert (d < size) by auto. rewrite neg_even. lia.
           ++ intros h. cbn [relabeled_all fold_left fst snd]. fold (relabeled_all new (relabeled (2 * d) (2 * m) h)). rewrite P5. apply DR.
    + apply (IH (lower drop max) drop collapse swaps); auto; [lia| | |].
      * intros x X. destruct (le_lt_dec max x); [apply MX; lia|apply L2; lia].
      * intros x X. apply DS. cbn; auto.
      * intros x X Y. destruct (SD x X Y); [lia|auto].
Qed.

Lemma make_last_ok size drop collapse : NoDup drop -> (forall x, In x drop -> x < size) -> In (collapse / 2) drop ->
  exists swaps drop', make_last size drop collapse = Ok (swaps, drop', relabeled_all swaps collapse) /\
    proper_swaps size swaps /\ NoDup drop' /\ length drop' = length drop /\ (forall x, In x drop' -> size - length drop <= x < size) /\
    (forall h, In (relabeled_all swaps h / 2) drop' <-> In (h / 2) drop).
Proof.
  intros N L C. unfold make_last.
  assert (F : forall x, In x (filter (fun d => mem_list d drop) (seq 0 size)) <-> In x drop).
  { intros x. rewrite filter_In, mem_list_iff, in_seq. split; [tauto|]. intros X. assert (x < size) by auto. split; auto; lia. }
  apply (make_last_loop_ok size (length drop)); auto.
  - lia.
  - apply NoDup_filter, seq_NoDup.
  - intros d X. now apply F.
  - intros x X _. now apply F.
Qed.

(** *** Sequences of swaps *)
Lemma relabeled_all_lt size l h : proper_swaps size l -> h < 2 * size -> relabeled_all l h < 2 * size.
Proof.
  revert h. induction l as [|[a b] l IH]; intros h P H; auto. apply IH; [intros x y I; apply P; now right|].
  destruct (P a b) as (A & B & _); [now left|]. now apply relabeled_lt.
Qed.
Lemma relabeled_all_neg size l h : proper_swaps size l -> relabeled_all l (neg h) = neg (relabeled_all l h).
Proof.
  revert h. induction l as [|[a b] l IH]; intros h P; auto. unfold relabeled_all in *. cbn [fold_left fst snd].
  destruct (P a b) as (A & B & N & _); [now left|]. rewrite relabeled_neg by auto. apply IH. intros x y I; apply P; now right.
Qed.

Lemma moved_all {T} size (swap : list T -> nat -> nat -> outcome (list T)) (Q : list T -> Prop) :
  (forall l a b, Q l -> length l = 2 * size -> a < 2 * size -> b < 2 * size -> a <> b -> a <> neg b ->
     exists l', swap l a b = Ok l' /\ moved (relabeled a b) l l' /\ Q l') ->
  forall swaps l, proper_swaps size swaps -> Q l -> length l = 2 * size ->
    exists l', swaps_of swap l swaps = Ok l' /\ moved (relabeled_all swaps) l l' /\ Q l'.
Proof.
  intros X. induction swaps as [|[a b] swaps IH]; intros l P Ql L; cbn [swaps_of]; [exists l; repeat split; auto|].
  destruct (P a b) as (A & B & N & N'); [now left|]. destruct (X l a b Ql L A B N N') as (l1 & -> & (M1 & M2) & Q1). cbn [bind].
  destruct (IH l1) as (l2 & E & (M3 & M4) & Q2); auto; [intros x y I; apply P; now right|congruence|].
  exists l2. split; auto. split; auto. split; [congruence|]. intros h H. cbn [relabeled_all fold_left fst snd].
  fold (relabeled_all swaps (relabeled a b h)). rewrite M4; [now apply M2|]. rewrite M1, L. apply relabeled_lt; auto. congruence.
Qed.

Lemma moved_odd {T} (opp : T -> T) l l' size a b : (forall x, opp (opp x) = x) -> length l = 2 * size -> a < 2 * size -> b < 2 * size -> a <> b ->
  odd_map opp l -> moved (relabeled a b) l l' -> odd_map opp l'.
Proof.
  intros OO L A B N O (M1 & M2) h x X. assert (H : h < 2 * size) by (rewrite <- L, <- M1; apply nth_error_Some; congruence).
  assert (R := relabeled_lt size a b h A B H). rewrite <- (relabeled_involutive a b h) in X. rewrite M2 in X by (rewrite L; auto).
  apply O in X. rewrite <- (relabeled_involutive a b (neg h)), M2 by (rewrite L; apply relabeled_lt; auto using neg_lt).
  rewrite relabeled_neg by auto. auto.
Qed.

Lemma triangulation_swaps n size : n = 2 * size -> forall swaps t, proper_swaps size swaps -> well_formed n t ->
  exists t', swaps_of swap t swaps = Ok t' /\ well_formed n t' /\
    forall h, h < n -> nF t' (relabeled_all swaps h) = relabeled_all swaps (nF t h) /\ nV t' (relabeled_all swaps h) = relabeled_all swaps (nV t h).
Proof.
  intros En. induction swaps as [|[a b] swaps IH]; intros t P W; cbn [swaps_of]; [exists t; auto|].
  destruct (P a b) as (A & B & N & N'); [now left|]. destruct (swap_ok n t a b W) as (t1 & -> & W1 & F); [lia..|]. cbn [bind].
  destruct (IH t1) as (t2 & E & W2 & G); auto; [intros x y I; apply P; now right|]. exists t2. split; auto. split; auto.
  intros h H. cbn [relabeled_all fold_left fst snd]. fold (relabeled_all swaps (relabeled a b h)).
  assert (R : relabeled a b h < n) by (subst n; apply relabeled_lt; auto). destruct (G _ R) as [-> ->]. destruct (F _ H) as [-> ->]. split; reflexivity.
Qed.

(** ** Theorems *)

(** Swapping the labels [a] and [b] of a triangulation relabels it: the faces and vertices of the result are the images of the
    faces and vertices. *)
Theorem C44_swap : forall n t a b, well_formed n t -> a < n -> b < n ->
  exists t', swap t a b = Ok t' /\ well_formed n t' /\
    forall h, h < n -> nF t' (relabeled a b h) = relabeled a b (nF t h) /\ nV t' (relabeled a b h) = relabeled a b (nV t h).
Proof. exact swap_ok. Qed.
Print Assumptions C44_swap.

(** An attached half edge keeps denoting the same half edge. *)
Theorem C44_half_edge : forall a b h, half_edge_swap h a b = relabeled a b h.
Proof. intros a b h. apply half_edge_swap_relabeled. Qed.
Print Assumptions C44_half_edge.

(** An attached HalfEdgeMap has at the new labels what it had at the old ones, if the labels are of different edges. *)
Theorem C44_half_edge_map : forall T (l : list T) m a b, length l = 2 * m -> a < 2 * m -> b < 2 * m -> a <> b -> a <> neg b ->
  exists l', half_edge_map_swap l a b = Ok l' /\ moved (relabeled a b) l l'.
Proof. intros T. exact half_edge_map_swap_ok. Qed.
Print Assumptions C44_half_edge_map.

(** This is false when the labels of an edge are exchanged: the triangulation is relabelled but the map does not change. *)
Theorem C44_half_edge_map_refuted : exists (l : list nat) a b, a < length l /\ b < length l /\ a <> b /\
  exists l', half_edge_map_swap l a b = Ok l' /\ ~ moved (relabeled a b) l l'.
Proof.
  exists [10; 11; 12; 13], 2, 3. repeat split; cbn; try lia. exists [10; 11; 12; 13]. split; [reflexivity|].
  intros [_ M]. specialize (M 2 ltac:(cbn; lia)). discriminate M.
Qed.
Print Assumptions C44_half_edge_map_refuted.

(** Attached EdgeMaps, OddHalfEdgeMaps and EdgeSets, also when the two labels are of the same edge. *)
Theorem C44_edge_map : forall T (l : list T) m a b, length l = m -> a < 2 * m -> b < 2 * m -> a <> b ->
  exists l', edge_map_swap l a b = Ok l' /\ length l' = m /\
    forall h, h < 2 * m -> nth_error l' (relabeled a b h / 2) = nth_error l (h / 2).
Proof. intros T. exact edge_map_swap_ok. Qed.
Print Assumptions C44_edge_map.

Theorem C44_odd_half_edge_map : forall T (opp : T -> T) (l : list T) m a b, (forall x, opp (opp x) = x) ->
  odd_map opp l -> length l = 2 * m -> a < 2 * m -> b < 2 * m -> a <> b ->
  exists l', odd_map_swap opp l a b = Ok l' /\ moved (relabeled a b) l l' /\ odd_map opp l'.
Proof.
  intros T opp l m a b OO O L A B N. destruct (odd_map_swap_ok opp l m a b OO O L A B N) as (l' & E & M). exists l'. split; auto. split; auto.
  exact (moved_odd opp l l' m a b OO L A B N O M).
Qed.
Print Assumptions C44_odd_half_edge_map.

Theorem C44_edge_set : forall s a b h, mem (edge_set_swap s a b) (relabeled a b h / 2) = mem s (h / 2).
Proof. exact edge_set_swap_ok. Qed.
Print Assumptions C44_edge_set.

(** Before edges are erased, a collapse makes them the last edges: it finds labels such that the dropped edges are exactly the last
    ones, and keeps track of the half edge that is collapsed. *)
Theorem C44_make_last : forall size drop collapse, NoDup drop -> (forall x, In x drop -> x < size) -> In (collapse / 2) drop ->
  exists swaps drop', make_last size drop collapse = Ok (swaps, drop', relabeled_all swaps collapse) /\
    (forall a b, In (a, b) swaps -> a < 2 * size /\ b < 2 * size /\ a <> b /\ a <> neg b) /\
    length drop' = length drop /\ (forall x, In x drop' <-> size - length drop <= x < size) /\
    forall h, h < 2 * size -> (In (h / 2) drop <-> 2 * (size - length drop) <= relabeled_all swaps h).
Proof.
  intros size drop collapse N L C. destruct (make_last_ok size drop collapse N L C) as (swaps & drop' & E & P & ND & LD & LT & R).
  assert (LS : length drop <= size).
  { rewrite <- (seq_length size 0). apply NoDup_incl_length; auto. intros x X. apply in_seq. split; [lia|]. cbn. auto. }
  assert (D : forall x, In x drop' <-> size - length drop <= x < size).
  { intros x. split; auto. intros X.
    assert (I : incl (seq (size - length drop) (length drop)) drop').
    { apply NoDup_length_incl; auto; [rewrite seq_length; lia|]. intros y Y. apply in_seq. apply LT in Y. lia. }
    apply I, in_seq. lia. }
  exists swaps, drop'. split; auto. split; auto. split; auto. split; auto.
  intros h H. rewrite <- R, D. assert (X := relabeled_all_lt size swaps h P H).
  assert (Y := Nat.div_mod (relabeled_all swaps h) 2 ltac:(lia)). assert (Z := Nat.mod_upper_bound (relabeled_all swaps h) 2 ltac:(lia)). lia.
Qed.
Print Assumptions C44_make_last.

(** After the swaps and the removal of the last edges, every attached map has at the new label of each remaining edge what it had at
    the old label, the triangulation (before the removal) is relabelled in the same way, and nothing else is left. *)
Theorem C44_erase : forall T (opp : T -> T) size drop collapse swaps drop' collapse',
  NoDup drop -> (forall x, In x drop -> x < size) -> In (collapse / 2) drop -> (forall x, opp (opp x) = x) ->
  make_last size drop collapse = Ok (swaps, drop', collapse') ->
  (forall l : list T, length l = 2 * size -> exists l', swaps_of half_edge_map_swap l swaps = Ok l' /\
     length (half_edge_map_erase l' (length drop')) = 2 * (size - length drop) /\
     forall h, h < 2 * size -> ~ In (h / 2) drop -> nth_error (half_edge_map_erase l' (length drop')) (relabeled_all swaps h) = nth_error l h) /\
  (forall l : list T, length l = 2 * size -> odd_map opp l -> exists l', swaps_of (odd_map_swap opp) l swaps = Ok l' /\
     length (half_edge_map_erase l' (length drop')) = 2 * (size - length drop) /\
     forall h, h < 2 * size -> ~ In (h / 2) drop -> nth_error (half_edge_map_erase l' (length drop')) (relabeled_all swaps h) = nth_error l h) /\
  (forall l : list T, length l = size -> exists l', swaps_of edge_map_swap l swaps = Ok l' /\
     length (edge_map_erase l' (length drop')) = size - length drop /\
     forall h, h < 2 * size -> ~ In (h / 2) drop -> nth_error (edge_map_erase l' (length drop')) (relabeled_all swaps h / 2) = nth_error l (h / 2)) /\
  (forall s : list bool, exists s', swaps_of (fun s a b => Ok (edge_set_swap s a b)) s swaps = Ok s' /\
     forall h, h < 2 * size -> mem (edge_set_erase s' drop') (relabeled_all swaps h / 2) = mem s (h / 2) && negb (mem_list (h / 2) drop)) /\
  (forall t, well_formed (2 * size) t -> exists t', swaps_of swap t swaps = Ok t' /\ well_formed (2 * size) t' /\
     forall h, h < 2 * size -> nF t' (relabeled_all swaps h) = relabeled_all swaps (nF t h) /\ nV t' (relabeled_all swaps h) = relabeled_all swaps (nV t h)).
Proof.
  intros T opp size drop collapse swaps drop' collapse' N L C OO M.
  destruct (make_last_ok size drop collapse N L C) as (sw & dr & E & P & ND & LD & LT & R). rewrite M in E. injection E as <- <- _.
  destruct (C44_make_last size drop collapse N L C) as (sw & dr & E & _ & _ & _ & K). rewrite M in E. injection E as <- _ _.
  assert (K' : forall h, h < 2 * size -> ~ In (h / 2) drop -> relabeled_all swaps h < 2 * (size - length drop)).
  { intros h H X. destruct (le_lt_dec (2 * (size - length drop)) (relabeled_all swaps h)) as [Y|Y]; auto. apply K in Y; tauto. }
  split; [|split; [|split; [|split]]].
  - intros l Ll. destruct (@moved_all T size half_edge_map_swap (fun _ => True)) with (swaps := swaps) (l := l) as (l' & -> & (M1 & M2) & _); auto.
    { intros l0 a b _ L0 A B N1 N2. destruct (half_edge_map_swap_ok l0 size a b L0 A B N1 N2) as (l' & E1 & E2). exists l'. auto. }
    exists l'. split; auto. rewrite half_edge_map_erase_ok, LD, M1, Ll. split; [rewrite firstn_length; lia|].
    intros h H D. specialize (K' h H D). rewrite nth_error_firstn by lia. apply M2. lia.
  - intros l Ll O. destruct (moved_all size (odd_map_swap opp) (odd_map opp)) with (swaps := swaps) (l := l) as (l' & -> & (M1 & M2) & _); auto.
    { intros l0 a b O0 L0 A B N1 N2. destruct (C44_odd_half_edge_map T opp l0 size a b OO O0 L0 A B N1) as (l' & E1 & E2 & E3). exists l'. auto. }
    exists l'. split; auto. rewrite half_edge_map_erase_ok, LD, M1, Ll. split; [rewrite firstn_length; lia|].
    intros h H D. specialize (K' h H D). rewrite nth_error_firstn by lia. apply M2. lia.
  - intros l Ll.
    assert (X : exists l', swaps_of edge_map_swap l swaps = Ok l' /\ length l' = size /\
      forall h, h < 2 * size -> nth_error l' (relabeled_all swaps h / 2) = nth_error l (h / 2)).
    { clear - P Ll. revert l Ll. induction swaps as [|[a b] swaps IH]; intros l Ll; cbn [swaps_of]; [exists l; auto|].
      destruct (P a b) as (A & B & N1 & N2); [now left|]. destruct (edge_map_swap_ok l size a b Ll A B N1) as (l1 & -> & L1 & M1). cbn [bind].
      destruct (IH ltac:(intros x y I; apply P; now right) l1 L1) as (l2 & E & L2 & M2). exists l2. split; auto. split; auto.
      intros h H. cbn [relabeled_all fold_left fst snd]. fold (relabeled_all swaps (relabeled a b h)). rewrite M2 by (apply relabeled_lt; auto). auto. }
    destruct X as (l' & -> & M1 & M2). exists l'. split; auto. rewrite edge_map_erase_ok, LD, M1. split; [rewrite firstn_length; lia|].
    intros h H D. specialize (K' h H D). rewrite nth_error_firstn; auto. apply Nat.div_lt_upper_bound; lia.
  - intros s.
    assert (X : exists s', swaps_of (fun s a b => Ok (edge_set_swap s a b)) s swaps = Ok s' /\ forall h, mem s' (relabeled_all swaps h / 2) = mem s (h / 2)).
    { clear. revert s. induction swaps as [|[a b] swaps IH]; intros s; cbn [swaps_of bind]; [exists s; auto|].
      destruct (IH (edge_set_swap s a b)) as (s2 & -> & M2). exists s2. split; auto.
      intros h. cbn [relabeled_all fold_left fst snd]. fold (relabeled_all swaps (relabeled a b h)). rewrite M2. apply edge_set_swap_ok. }
    destruct X as (s' & -> & M'). exists s'. split; auto. intros h _. rewrite edge_set_erase_ok, M'. f_equal. f_equal.
    apply eq_true_iff_eq. rewrite !mem_list_iff. apply R.
  - intros t W. apply (triangulation_swaps _ size eq_refl); auto.
Qed.
Print Assumptions C44_erase.

(** Seven edges of which 1, 4 and 6 are dropped and the second half edge of edge 1 is collapsed: the edges 1 and 5 are exchanged
    and the edges 4 and 6 are already among the last three. *)
Example C44_erase_ex : make_last 7 [4; 1; 6] 3 = Ok ([(2, 10)], [5; 4; 6], 11) /\
  swaps_of half_edge_map_swap (seq 100 14) [(2, 10)] = Ok [100; 101; 110; 111; 104; 105; 106; 107; 108; 109; 102; 103; 112; 113] /\
  half_edge_map_erase [100; 101; 110; 111; 104; 105; 106; 107; 108; 109; 102; 103; 112; 113] 3 = [100; 101; 110; 111; 104; 105; 106; 107].
Proof. repeat split. Qed.

(** A triangulation with faces (0 2 4) and (1 3 5) after 0 and 3 are swapped has the faces (3 1 4) and (2 0 5). *)
Example C44_swap_ex : exists t, make_from_cycles [[0; 5; 2; 1; 4; 3]] [] = Ok t /\
  (do t <- swap t 0 3; Ok (map (nF t) (seq 0 6))) = Ok [5; 4; 0; 1; 3; 2].
Proof. eexists. split; vm_compute; reflexivity. Qed.
Example C44_maps_ex : half_edge_map_swap [10; 11; 12; 13; 14; 15] 0 3 = Ok [13; 12; 11; 10; 14; 15] /\
  edge_map_swap [10; 12; 14] 0 3 = Ok [12; 10; 14] /\ edge_map_swap [10; 12; 14] 2 3 = Ok [10; 12; 14] /\
  odd_map_swap negb [true; false; true; false] 0 3 = Ok [false; true; false; true] /\ odd_map_swap negb [true; false; true; false] 2 3 = Ok [true; false; false; true] /\
  map (mem (edge_set_swap [true; false; true] 0 3)) [0; 1; 2] = [false; true; true] /\ half_edge_swap 1 0 3 = 2.
Proof. repeat split. Qed.
