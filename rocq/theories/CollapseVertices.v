(** * The vertices after an edge has been collapsed *)
From Coq Require Import List Arith Bool Lia.
From Verif Require Import Base HalfEdge HalfEdgeFacts Perm PermSpec PermFacts PermCycles PermLemmas Combinatorial CombinatorialSpec CombinatorialFacts CombinatorialHistory FlatFacts
  CollapseSpec CollapseFacts.
Import ListNotations.

Section vertices.
Variables (n : nat) (t u : tri) (e : nat) (label : nat -> nat).
Hypothesis W : well_formed n t.
Hypothesis Cl : no_boundary n t.
Hypothesis He : e < n.
Hypothesis Fi : collapsible t e.
Hypothesis W' : well_formed (n - 6) u.
Hypothesis Cl' : no_boundary (n - 6) u.
Hypothesis C : collapsed n t e u label.
Local Notation f := (nF t).
Local Notation x := (side_x t e).
Local Notation p := (side_p t e).
Local Notation c := (side_c t e).
Local Notation q := (side_q t e).
Local Notation rep := (rep t e).
Local Notation P := (keep_p t e).
Local Notation P' := (keep_c t e).
Let Hn : neg e < n := neg_ltn n t W e He.
Let Hx : x < n := nF_lt n t W e He.
Let Hp : p < n := nF_lt n t W x Hx.
Let Hc : c < n := nF_lt n t W (neg e) Hn.
Let Hq : q < n := nF_lt n t W c Hc.
Let Hx_ : neg x < n := neg_ltn n t W x Hx.
Let Hq_ : neg q < n := neg_ltn n t W q Hq.
Let Hp_ : neg p < n := neg_ltn n t W p Hp.
Let Hc_ : neg c < n := neg_ltn n t W c Hc.

Lemma V_of h : h < n -> nV t (f h) = neg h.
Proof. intros Hh. rewrite (nV_link n t W); [rewrite (pF_nF n t W); auto|now apply (nF_lt n t W)|]. apply Cl. now apply (nF_lt n t W). Qed.
Lemma V_e : nV t e = neg p. Proof. replace e with (f p) at 1 by (apply W; auto). now apply V_of. Qed.
Lemma V_x : nV t x = neg e. Proof. now apply V_of. Qed.
Lemma V_p : nV t p = neg x. Proof. now apply V_of. Qed.
Lemma V_n : nV t (neg e) = neg q. Proof. replace (neg e) with (f q) at 1 by (apply W; auto). now apply V_of. Qed.
Lemma V_c : nV t c = e. Proof. change c with (f (neg e)). rewrite V_of by auto. apply neg_neg. Qed.
Lemma V_q : nV t q = neg c. Proof. now apply V_of. Qed.

(** The half edge that takes the place of a half edge next to the collapsed triangles. *)
Definition other (h : nat) : nat := if h =? x then neg P else if h =? q then neg P' else h.
(** A half edge that is not dropped at the same vertex. *)
Definition kept (h : nat) : nat :=
  if h =? e then neg P else if h =? x then neg P else if h =? neg e then P' else if h =? neg q then P' else if h =? q then neg P' else if h =? neg x then P else h.

Lemma vanishes_next h : vanishes t e h -> vanishes t e (f h).
Proof.
  assert (E1 : f p = e) by (apply W; auto). assert (E2 : f q = neg e) by (apply W; auto).
  unfold vanishes. intros [<-|[<-|[<-|[<-|[<-|[<-|[]]]]]]]; rewrite ?E1, ?E2; cbn [In]; auto 8.
Qed.
Lemma step h : h < n -> ~ vanishes t e h -> nV u (label (rep h)) = label (other (nV t h)).
Proof.
  intros Hh Nh. destruct C as (C1 & C2 & C3 & C4).
  assert (Hg : pF t h < n) by now apply (pF_lt n t W). assert (Ng : ~ vanishes t e (pF t h)).
  { intros V. apply Nh. rewrite <- (nF_pF n t W h) by auto. now apply vanishes_next. }
  destruct (rep_ok n t e W He Fi h Hh Nh) as (R1 & R2). destruct (rep_ok n t e W He Fi _ Hg Ng) as (R3 & R4).
  destruct (C1 _ R1 R2) as (L1 & L2). destruct (C1 _ R3 R4) as (L3 & L4).
  rewrite (nV_link (n - 6) u W') by auto. replace (pF u (label (rep h))) with (label (rep (pF t h))).
  2:{ rewrite <- (pF_nF (n - 6) u W' (label (rep (pF t h)))) by auto. f_equal. rewrite C4 by auto. now rewrite (nF_pF n t W). }
  rewrite <- L4. f_equal. rewrite (nV_link n t W) by auto. unfold other, CollapseSpec.rep.
  destruct (Nat.eqb_spec (pF t h) (neg x)) as [E|E].
  - rewrite E, neg_neg, Nat.eqb_refl. reflexivity.
  - destruct (Nat.eqb_spec (neg (pF t h)) x) as [Q|_]; [exfalso; apply E; rewrite <- Q; now rewrite neg_neg|].
    destruct (Nat.eqb_spec (pF t h) (neg q)) as [E'|E'].
    + rewrite E', neg_neg, Nat.eqb_refl. reflexivity.
    + destruct (Nat.eqb_spec (neg (pF t h)) q) as [Q|_]; auto. exfalso; apply E'; rewrite <- Q; now rewrite neg_neg.
Qed.

Local Notation same i j := (same_vertex u (label i) (label j)).
Lemma V_inj g h : g < n -> h < n -> nV t g = nV t h -> g = h.
Proof. apply (nV_inj n t W). Qed.

Lemma six : NoDup [e; neg e; x; neg x; q; neg q].
Proof.
  destruct Fi as [N|[(E & N)|(E & N)]]; unfold five_edges in *; distinct N; try (repeat constructor; cbn [In]; intuition congruence).
  assert (nq : neg q = p) by (rewrite E; apply neg_neg). rewrite nq, E. repeat constructor; cbn [In]; intuition congruence.
Qed.
Lemma kept_id i : ~ dropped t e i -> kept i = i.
Proof.
  intros Ni. assert (i <> e /\ i <> neg e /\ i <> x /\ i <> neg x /\ i <> q /\ i <> neg q) as (i1 & i2 & i3 & i4 & i5 & i6) by (repeat split; intros ->; apply Ni; cbn; tauto).
  unfold kept. now rewrite (proj2 (Nat.eqb_neq i e)), (proj2 (Nat.eqb_neq i x)), (proj2 (Nat.eqb_neq i (neg e))), (proj2 (Nat.eqb_neq i (neg q))), (proj2 (Nat.eqb_neq i q)), (proj2 (Nat.eqb_neq i (neg x))).
Qed.
Lemma kept_e : kept e = neg P. Proof. unfold kept. now rewrite Nat.eqb_refl. Qed.
Lemma kept_x : kept x = neg P. Proof. pose proof six as N. distinct N. unfold kept. rewrite (proj2 (Nat.eqb_neq x e)), Nat.eqb_refl by congruence. auto. Qed.
Lemma kept_n : kept (neg e) = P'.
Proof. pose proof six as N. distinct N. unfold kept. rewrite (proj2 (Nat.eqb_neq (neg e) e)), (proj2 (Nat.eqb_neq (neg e) x)), Nat.eqb_refl by congruence. auto. Qed.
Lemma kept_nq : kept (neg q) = P'.
Proof. pose proof six as N. distinct N. unfold kept. rewrite (proj2 (Nat.eqb_neq (neg q) e)), (proj2 (Nat.eqb_neq (neg q) x)), (proj2 (Nat.eqb_neq (neg q) (neg e))), Nat.eqb_refl by congruence. auto. Qed.
Lemma kept_q : kept q = neg P'.
Proof. pose proof six as N. distinct N. unfold kept. rewrite (proj2 (Nat.eqb_neq q e)), (proj2 (Nat.eqb_neq q x)), (proj2 (Nat.eqb_neq q (neg e))), (proj2 (Nat.eqb_neq q (neg q))), Nat.eqb_refl by congruence. auto. Qed.
Lemma kept_nx : kept (neg x) = P.
Proof.
  pose proof six as N. distinct N. unfold kept.
  rewrite (proj2 (Nat.eqb_neq (neg x) e)), (proj2 (Nat.eqb_neq (neg x) x)), (proj2 (Nat.eqb_neq (neg x) (neg e))), (proj2 (Nat.eqb_neq (neg x) (neg q))), (proj2 (Nat.eqb_neq (neg x) q)), Nat.eqb_refl by congruence. auto.
Qed.
Lemma keep_kept : (~ dropped t e P /\ ~ dropped t e (neg P)) /\ ~ dropped t e P' /\ ~ dropped t e (neg P').
Proof.
  destruct (cases t e Fi) as [(N & -> & ->)|[((E & N) & -> & ->)|((E & N) & -> & ->)]]; distinct N; [| |assert (nq : neg q = p) by (rewrite E; apply neg_neg)];
  repeat split; intros [D|[D|[D|[D|[D|[D|[]]]]]]]; congruence.
Qed.
Lemma keep_lt : P < n /\ P' < n.
Proof. destruct (cases t e Fi) as [(N & -> & ->)|[((E & N) & -> & ->)|((E & N) & -> & ->)]]; auto. Qed.
(** What is kept of the sides. *)
Lemma kept_sides : kept p = P /\ kept (neg p) = neg P /\ kept c = P' /\ kept (neg c) = neg P'.
Proof.
  destruct keep_kept as ((K1 & K2) & K3 & K4). pose proof kept_x as Kx. pose proof kept_nx as Kx'. pose proof kept_q as Kq. pose proof kept_nq as Kq'.
  destruct (cases t e Fi) as [(N & E1 & E2)|[((E & N) & E1 & E2)|((E & N) & E1 & E2)]]; rewrite E1, E2 in *; clear N E1 E2.
  - repeat split; now apply kept_id.
  - assert (nc : neg c = x) by (rewrite E; apply neg_neg). rewrite nc, E. repeat split; auto; now apply kept_id.
  - assert (nq : neg q = p) by (rewrite E; apply neg_neg). rewrite <- nq, neg_neg. repeat split; auto; now apply kept_id.
Qed.

(** Turning at a vertex other than from [x] and [c]. *)
Lemma turn h : h < n -> h <> x -> h <> c -> same (kept h) (kept (nV t h)).
Proof.
  intros Hh h1 h2. assert (Refl : forall i j, i = j -> same i j) by (intros i j ->; now exists 0).
  assert (Go : forall g, g < n -> ~ vanishes t e g -> same (rep g) (kept (nV t g))).
  { intros g Hg Ng. exists 1. change (nV u (label (rep g)) = label (kept (nV t g))). rewrite step by auto. f_equal. unfold other, kept.
    assert (g1 : nV t g <> e) by (intros E; rewrite <- V_c in E; apply V_inj in E; auto; apply Ng; rewrite E; cbn; tauto).
    assert (g2 : nV t g <> neg e) by (intros E; rewrite <- V_x in E; apply V_inj in E; auto; apply Ng; rewrite E; cbn; tauto).
    assert (g3 : nV t g <> neg q) by (intros E; rewrite <- V_n in E; apply V_inj in E; auto; apply Ng; rewrite E; cbn; tauto).
    assert (g4 : nV t g <> neg x) by (intros E; rewrite <- V_p in E; apply V_inj in E; auto; apply Ng; rewrite E; cbn; tauto).
    rewrite (proj2 (Nat.eqb_neq _ _) g1), (proj2 (Nat.eqb_neq _ _) g2), (proj2 (Nat.eqb_neq _ _) g3), (proj2 (Nat.eqb_neq _ _) g4). reflexivity. }
  destruct kept_sides as (Kp & Kp' & Kc & Kc').
  destruct (Nat.eq_dec h e) as [->|h3]; [rewrite V_e; apply Refl; rewrite kept_e; congruence|].
  destruct (Nat.eq_dec h (neg e)) as [->|h4]; [rewrite V_n; apply Refl; now rewrite kept_n, kept_nq|].
  destruct (Nat.eq_dec h q) as [->|h5]; [rewrite V_q; apply Refl; rewrite kept_q; congruence|].
  destruct (Nat.eq_dec h p) as [->|h6]; [rewrite V_p; apply Refl; rewrite kept_nx; congruence|].
  assert (Nv : ~ vanishes t e h) by (intros [E|[E|[E|[E|[E|[E|[]]]]]]]; congruence). specialize (Go h Hh Nv). unfold CollapseSpec.rep in Go.
  destruct (Nat.eqb_spec h (neg x)) as [->|h7]; [now rewrite kept_nx|]. destruct (Nat.eqb_spec h (neg q)) as [->|h8]; [now rewrite kept_nq|].
  rewrite (kept_id h); auto. intros [E|[E|[E|[E|[E|[E|[]]]]]]]; congruence.
Qed.
Lemma keptish h : h < n -> kept h < n /\ ~ dropped t e (kept h).
Proof.
  destruct keep_kept as ((K1 & K2) & K3 & K4). destruct keep_lt as (L1 & L2). assert (L3 : neg P < n) by now apply (neg_ltn n t W). assert (L4 : neg P' < n) by now apply (neg_ltn n t W).
  intros Hh. unfold kept. destruct (Nat.eqb_spec h e); auto. destruct (Nat.eqb_spec h x); auto. destruct (Nat.eqb_spec h (neg e)); auto. destruct (Nat.eqb_spec h (neg q)); auto. destruct (Nat.eqb_spec h q); auto. destruct (Nat.eqb_spec h (neg x)); auto.
  split; auto. intros [E|[E|[E|[E|[E|[E|[]]]]]]]; congruence.
Qed.

Lemma iter_lt h k : h < n -> Nat.iter k (nV t) h < n.
Proof. intros Hh. apply (same_vertex_lt n t h); auto. now exists k. Qed.
Lemma walk h k : h < n -> (forall j, j < k -> Nat.iter j (nV t) h <> x /\ Nat.iter j (nV t) h <> c) -> same (kept h) (kept (Nat.iter k (nV t) h)).
Proof.
  intros Hh. induction k as [|k IH]; intros H; [now exists 0|]. eapply same_vertex_trans; [apply IH; intros j Hj; apply H; lia|]. cbn [Nat.iter nat_rect].
  destruct (H k ltac:(lia)). apply turn; auto. now apply iter_lt.
Qed.

(** One step around a vertex of the collapsed triangulation. *)
Lemma merged_refl h : merged t e h h.
Proof. left. now exists 0. Qed.
Lemma merged_trans h g k : h < n -> merged t e h g -> merged t e g k -> merged t e h k.
Proof.
  assert (T : forall a b d, a < n -> same_vertex t a b -> same_vertex t b d -> same_vertex t a d) by (intros a b d _; apply same_vertex_trans).
  intros Hh [A|(A1 & A2)] [B|(B1 & B2)].
  - left. eapply same_vertex_trans; eauto.
  - right. split; auto. assert (A' : same_vertex t g h) by now apply (same_vertex_sym n t h g W). destruct B1; [left|right]; eapply same_vertex_trans; eauto.
  - right. split; auto. destruct A2; [left|right]; eapply same_vertex_trans; eauto.
  - right. split; auto.
Qed.
Lemma keep_merged : merged t e P p /\ merged t e (neg P) (neg p) /\ merged t e P' c /\ merged t e (neg P') (neg c).
Proof.
  assert (S1 : forall g, same_vertex t g (nV t g)) by (intros g; now exists 1).
  assert (Sc : same_vertex t e c) by (apply (same_vertex_sym n t c e W); auto; rewrite <- V_c at 2; apply S1).
  assert (Sx : same_vertex t (neg e) x) by (apply (same_vertex_sym n t x _ W); auto; rewrite <- V_x; apply S1).
  assert (Sp : same_vertex t e (neg p)) by (rewrite <- V_e; apply S1). assert (Sq : same_vertex t (neg e) (neg q)) by (rewrite <- V_n; apply S1).
  assert (Sqc : same_vertex t q (neg c)) by (rewrite <- V_q; apply S1). assert (Spx : same_vertex t p (neg x)) by (rewrite <- V_p; apply S1).
  destruct (cases t e Fi) as [(N & -> & ->)|[((E & N) & -> & ->)|((E & N) & -> & ->)]]; clear N.
  - repeat split; apply merged_refl.
  - assert (nc : neg c = x) by (rewrite E; apply neg_neg). rewrite nc. repeat split; try apply merged_refl; [left; now rewrite E|right; auto].
  - assert (nq : neg q = p) by (rewrite E; apply neg_neg). rewrite <- nq. repeat split; try apply merged_refl; [right; auto|left]. rewrite neg_neg. now apply (same_vertex_sym n t q _ W).
Qed.
Lemma next_merged i : i < n -> ~ dropped t e i -> exists w, w < n /\ ~ dropped t e w /\ nV u (label i) = label w /\ merged t e i w.
Proof.
  destruct keep_kept as ((K1 & K2) & K3 & K4). destruct keep_lt as (L1 & L2). assert (L3 : neg P < n) by now apply (neg_ltn n t W). assert (L4 : neg P' < n) by now apply (neg_ltn n t W).
  destruct keep_merged as (E1 & E2 & E3 & E4).
  intros Hi Ni. destruct (rep_onto n t e W He Fi i Hi Ni) as (h & Hh & Nh & <-). exists (other (nV t h)). rewrite step by auto.
  assert (Hv : nV t h < n) by now apply (nV_lt n t W).
  assert (g1 : nV t h <> e) by (intros E; rewrite <- V_c in E; apply V_inj in E; auto; apply Nh; rewrite E; cbn; tauto).
  assert (g2 : nV t h <> neg e) by (intros E; rewrite <- V_x in E; apply V_inj in E; auto; apply Nh; rewrite E; cbn; tauto).
  assert (g3 : nV t h <> neg q) by (intros E; rewrite <- V_n in E; apply V_inj in E; auto; apply Nh; rewrite E; cbn; tauto).
  assert (g4 : nV t h <> neg x) by (intros E; rewrite <- V_p in E; apply V_inj in E; auto; apply Nh; rewrite E; cbn; tauto).
  assert (S1 : forall g, same_vertex t g (nV t g)) by (intros g; now exists 1).
  assert (Sy : forall a b, a < n -> merged t e a b -> merged t e b a).
  { intros a b Ha [M|(M1 & M2)]; [left; now apply (same_vertex_sym n t a b W)|right; auto]. }
  assert (M1 : merged t e (rep h) h).
  { unfold CollapseSpec.rep. destruct (Nat.eqb_spec h (neg x)) as [->|h7]; [apply (merged_trans _ p); auto; left; rewrite <- V_p; apply S1|]. destruct (Nat.eqb_spec h (neg q)) as [->|h8]; [|apply merged_refl].
    apply (merged_trans _ c); auto. right. split; [left; apply (same_vertex_sym n t c e W); auto; rewrite <- V_c at 2; apply S1|right; rewrite <- V_n; apply S1]. }
  assert (M3 : (other (nV t h) < n /\ ~ dropped t e (other (nV t h))) /\ merged t e (nV t h) (other (nV t h))).
  { unfold other. destruct (Nat.eqb_spec (nV t h) x) as [->|h7]; [|destruct (Nat.eqb_spec (nV t h) q) as [->|h8]].
    - split; auto. apply (merged_trans _ (neg p)); auto. right. split; [right; apply (same_vertex_sym n t x _ W); auto; rewrite <- V_x; apply S1|left; rewrite <- V_e; apply S1].
    - split; auto. apply (merged_trans _ (neg c)); auto. left. rewrite <- V_q. apply S1.
    - split; [split; auto; intros [E|[E|[E|[E|[E|[E|[]]]]]]]; congruence|]. apply merged_refl. }
  destruct M3 as ((M3 & M4) & M5). split; auto. split; auto. split; auto.
  destruct (rep_ok n t e W He Fi h Hh Nh) as (R1 & _). apply (merged_trans _ h); auto. apply (merged_trans _ (nV t h)); auto. left. apply S1.
Qed.
Lemma same_merged h g : h < n -> g < n -> ~ dropped t e h -> ~ dropped t e g -> same h g -> merged t e h g.
Proof.
  intros Hh Hg Nh Ng (k & Ek). assert (G : exists w, w < n /\ ~ dropped t e w /\ Nat.iter k (nV u) (label h) = label w /\ merged t e h w).
  { clear Ek. induction k as [|k (w & Hw & Nw & Ew & Mw)]; [exists h; repeat (split; auto); apply merged_refl|].
    destruct (next_merged w Hw Nw) as (w' & Hw' & Nw' & Ew' & Mw'). exists w'. split; auto. split; auto. split; [|now apply (merged_trans h w)].
    change (nV u (Nat.iter k (nV u) (label h)) = label w'). now rewrite Ew. }
  destruct G as (w & Hw & Nw & Ew & Mw). rewrite Ek in Ew. destruct C as (_ & C2 & _). apply C2 in Ew; auto. now subst.
Qed.

Hypothesis D : ~ same_vertex t e (neg e).
Lemma crossing : same (neg P) P'.
Proof.
  assert (Np : neg p <> e) by (destruct Fi as [N|[(E & N)|(E & N)]]; unfold five_edges in *; distinct N; congruence).
  assert (S1 : same_vertex t (neg p) e). { apply (same_vertex_sym n t e (neg p) W He). exists 1. apply V_e. }
  destruct S1 as (k & Ek). assert (M : exists k, Nat.iter k (nV t) (neg p) = e /\ forall j, j < k -> Nat.iter j (nV t) (neg p) <> e).
  { clear - Ek. induction k as [k IH] using lt_wf_ind. destruct (existsb (fun j => Nat.iter j (nV t) (neg p) =? e) (seq 0 k)) eqn:E.
    - apply existsb_exists in E as (j & Ij & Ej). apply in_seq in Ij. apply Nat.eqb_eq in Ej. apply (IH j); auto; lia.
    - exists k. split; auto. intros j Hj Ej. assert (T : existsb (fun j => Nat.iter j (nV t) (neg p) =? e) (seq 0 k) = true); [|congruence].
      apply existsb_exists. exists j. split; [apply in_seq; lia|]. now apply Nat.eqb_eq. }
  clear k Ek. destruct M as (k & Ek & Mk). destruct k as [|k]; [cbn in Ek; congruence|].
  change (nV t (Nat.iter k (nV t) (neg p)) = e) in Ek. assert (Ec : Nat.iter k (nV t) (neg p) = c) by (apply V_inj; auto; [now apply iter_lt|now rewrite V_c]).
  assert (G : same (kept (neg p)) (kept c)).
  { rewrite <- Ec. apply walk; auto. intros j Hj. split.
    - intros E. apply D. apply (same_vertex_trans t e (neg p)); [exists 1; apply V_e|]. apply (same_vertex_trans t (neg p) x); [now exists j|]. exists 1. apply V_x.
    - intros E. apply (Mk (S j) ltac:(lia)). change (nV t (Nat.iter j (nV t) (neg p)) = e). rewrite E. apply V_c. }
  destruct kept_sides as (_ & Kp' & Kc & _). now rewrite Kp', Kc in G.
Qed.
Lemma turn_all h : h < n -> same (kept h) (kept (nV t h)).
Proof.
  intros Hh. destruct (Nat.eq_dec h x) as [->|h1]; [|destruct (Nat.eq_dec h c) as [->|h2]; [|now apply turn]].
  - rewrite V_x, kept_x, kept_n. apply crossing.
  - rewrite V_c, kept_e. destruct kept_sides as (_ & _ & Kc & _). rewrite Kc. destruct keep_kept as ((K1 & K2) & K3 & K4). destruct keep_lt as (L1 & L2).
    destruct C as (C1 & _). apply (same_vertex_sym (n - 6) u _ _ W'); [apply C1; auto; now apply (neg_ltn n t W)|]. apply crossing.
Qed.
Lemma same_kept h g : h < n -> same_vertex t h g -> same (kept h) (kept g).
Proof.
  intros Hh (k & <-). induction k as [|k IH]; [now exists 0|]. eapply same_vertex_trans; [exact IH|]. cbn [Nat.iter nat_rect]. apply turn_all. now apply iter_lt.
Qed.

Theorem vertices_merge h g : h < n -> g < n -> ~ dropped t e h -> ~ dropped t e g -> (same h g <-> merged t e h g).
Proof.
  intros Hh Hg Nh Ng. split; [now apply same_merged|]. destruct C as (C1 & _).
  assert (K : forall a b, a < n -> b < n -> same (kept a) (kept b) -> same (kept b) (kept a)).
  { intros a b Ha Hb. apply (same_vertex_sym (n - 6) u); auto. apply C1; now apply keptish. }
  assert (X : same (kept e) (kept (neg e))) by (rewrite kept_e, kept_n; apply crossing).
  assert (A : forall a, a < n -> same_vertex t e a \/ same_vertex t (neg e) a -> same (kept e) (kept a)).
  { intros a Ha [S|S]; [now apply same_kept|]. eapply same_vertex_trans; [exact X|]. now apply same_kept. }
  rewrite <- (kept_id h), <- (kept_id g) by auto. intros [M|(M1 & M2)].
  - rewrite !kept_id in M by auto. now apply same_kept.
  - rewrite !kept_id in M1, M2 by auto. eapply same_vertex_trans; [apply K; [| |apply (A h)]; auto|]. now apply A.
Qed.
End vertices.
