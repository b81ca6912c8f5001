(** * Proof that collapsing an edge takes out two triangles *)
From Coq Require Import List Arith Bool Lia Permutation.
From Verif Require Import Base HalfEdge HalfEdgeFacts Perm PermSpec PermFacts PermCycles PermLemmas IndexedSet IndexedSetSpec IndexedSetFacts
  Combinatorial CombinatorialSpec CombinatorialFacts FlatFacts Tracked TrackedProps Collapse CollapseSpec CollapseFacts.
Import ListNotations.

(** ** Relabelling *)
Lemma relabeled_all_rev l h : relabeled_all (rev l) (relabeled_all l h) = h.
Proof.
  revert h. induction l as [|(a, b) l IH]; intros h; auto. cbn [rev]. rewrite relabeled_all_app.
  change (relabeled_all ((a, b) :: l) h) with (relabeled_all l (relabeled a b h)). rewrite IH. apply relabeled_involutive.
Qed.
Lemma relabeled_all_inj l h g : relabeled_all l h = relabeled_all l g -> h = g.
Proof. intros E. rewrite <- (relabeled_all_rev l h), E. apply relabeled_all_rev. Qed.
Lemma proper_rev size l : proper_swaps size l -> proper_swaps size (rev l).
Proof. intros P a b I. apply P. now apply in_rev. Qed.
Lemma relabeled_all_onto size l i : proper_swaps size l -> i < 2 * size -> exists h, h < 2 * size /\ relabeled_all l h = i.
Proof.
  intros P Hi. exists (relabeled_all (rev l) i). split; [apply relabeled_all_lt; auto using proper_rev|].
  rewrite <- (rev_involutive l) at 1. apply relabeled_all_rev.
Qed.

(** Half edges of [t] and of a triangulation [u] that differs in the labels only. *)
Section iso.
Variables (n : nat) (t u : tri) (r : nat -> nat) (e : nat).
Hypothesis W : well_formed n t.
Hypothesis rlt : forall h, h < n -> r h < n.
Hypothesis rneg : forall h, r (neg h) = neg (r h).
Hypothesis rinj : forall h g, r h = r g -> h = g.
Hypothesis ronto : forall i, i < n -> exists h, h < n /\ r h = i.
Hypothesis rF : forall h, h < n -> nF u (r h) = r (nF t h).
Hypothesis He : e < n.
Let Hn : neg e < n := neg_ltn n t W e He.
Lemma iso_x : side_x u (r e) = r (side_x t e). Proof. now apply rF. Qed.
Lemma iso_p : side_p u (r e) = r (side_p t e). Proof. unfold side_p. rewrite !rF; auto. now apply (nF_lt n t W). Qed.
Lemma iso_c : side_c u (r e) = r (side_c t e). Proof. unfold side_c. rewrite <- rneg, !rF; auto. Qed.
Lemma iso_q : side_q u (r e) = r (side_q t e). Proof. unfold side_q. rewrite <- rneg, !rF; auto. now apply (nF_lt n t W). Qed.
Lemma iso_in h l : In (r h) (map r l) <-> In h l.
Proof. split; [|apply in_map]. intros I. apply in_map_iff in I as (g & E & I). apply rinj in E. now subst. Qed.
Lemma iso_five : five_edges t e -> five_edges u (r e).
Proof.
  unfold five_edges. intros N. rewrite iso_x, iso_p, iso_c, iso_q, <- !rneg.
  change (NoDup (map r [e; neg e; side_x t e; neg (side_x t e); side_p t e; neg (side_p t e); side_c t e; neg (side_c t e); side_q t e; neg (side_q t e)])).
  apply FinFun.Injective_map_NoDup; auto.
Qed.
Lemma iso_eqb a b : (r a =? r b) = (a =? b).
Proof. destruct (Nat.eqb_spec a b) as [->|]; [apply Nat.eqb_refl|]; apply Nat.eqb_neq; intros Q; now apply rinj in Q. Qed.
Lemma iso_nodup l : NoDup l -> NoDup (map r l).
Proof. apply FinFun.Injective_map_NoDup. exact rinj. Qed.
Lemma iso_collapsible : collapsible t e -> collapsible u (r e).
Proof.
  intros [F|[(E & N)|(E & N)]]; [left; now apply iso_five|right; left|right; right].
  - rewrite iso_x, iso_p, iso_c, iso_q, <- !rneg. split; [congruence|]. exact (iso_nodup [_; _; _; _; _; _; _; _] N).
  - rewrite iso_x, iso_p, iso_c, iso_q, <- !rneg. split; [congruence|]. exact (iso_nodup [_; _; _; _; _; _; _; _] N).
Qed.
Lemma iso_vanishes h : vanishes u (r e) (r h) <-> vanishes t e h.
Proof. unfold vanishes. rewrite iso_x, iso_p, iso_c, iso_q, <- !rneg. exact (iso_in h [_; _; _; _; _; _]). Qed.
Lemma iso_dropped h : dropped u (r e) (r h) <-> dropped t e h.
Proof. unfold dropped. rewrite iso_x, iso_q, <- !rneg. exact (iso_in h [_; _; _; _; _; _]). Qed.
Lemma iso_rep h : rep u (r e) (r h) = r (rep t e h).
Proof.
  unfold rep, keep_p, keep_c. rewrite iso_x, iso_p, iso_c, iso_q, <- !rneg. rewrite !iso_eqb.
  destruct (h =? _); [destruct (_ =? _); auto|]. destruct (h =? _); [destruct (_ =? _); auto|]. auto.
Qed.
Lemma iso_no_boundary : no_boundary n t -> no_boundary n u.
Proof. intros C i Hi. destruct (ronto i Hi) as (h & Hh & <-). rewrite rF by auto. intros E. apply rinj in E. now apply (C h). Qed.
End iso.

(** ** The edges that are dropped *)
Lemma mem_list_no i l : ~ In i l -> mem_list i l = false.
Proof. intros N. destruct (mem_list i l) eqn:E; auto. now apply mem_list_In in E. Qed.
Lemma half_eq a b : a / 2 = b / 2 <-> (a = b \/ a = neg b).
Proof. rewrite <- edge_of_eq, !edge_of_even. lia. Qed.

Lemma half_eq' a b : a / 2 = b / 2 <-> (a = b \/ neg a = b).
Proof. rewrite half_eq. split; (intros [E|E]; [now left|right]); [rewrite E|rewrite <- E, neg_neg]; auto using neg_neg. Qed.

Lemma edges_dropped n t e : well_formed n t -> e < n -> collapsible t e ->
  exists drop, drop_edges t e = Ok drop /\ NoDup drop /\ length drop = 3 /\ In (e / 2) drop /\ (forall i, In i drop -> i < n / 2) /\ forall h, In (h / 2) drop <-> dropped t e h.
Proof.
  intros W He Fi. assert (Hn := neg_ltn n t W e He). assert (Hx := nF_lt n t W e He). assert (Hc := nF_lt n t W _ Hn). assert (Hq := nF_lt n t W _ Hc).
  set (x := side_x t e) in *. set (p := side_p t e) in *. set (c := side_c t e) in *. set (q := side_q t e) in *.
  assert (Ne : NoDup [e; neg e; x; neg x; q; neg q] /\ x <> neg p /\ (x = neg c /\ neg q = p -> False) /\ neg q <> c).
  { destruct Fi as [N|[(E & N)|(E & N)]]; unfold five_edges in *; fold x p c q in N.
    - distinct N. repeat split; try congruence; [|intros (Q1 & Q2); congruence]. repeat constructor; cbn [In]; intuition congruence.
    - fold x c in E. distinct N. repeat split; try congruence; [|intros (Q1 & Q2); congruence]. repeat constructor; cbn [In]; intuition congruence.
    - fold p q in E. assert (nq : neg q = p) by (rewrite E; apply neg_neg). assert (nx : c <> neg x -> x <> neg c) by (intros Q1 Q2; apply Q1; rewrite Q2; now rewrite neg_neg). distinct N.
      assert (x <> neg c) by congruence. repeat split; try congruence; [|intros (Q1 & Q2); congruence]. rewrite nq, E. repeat constructor; cbn [In]; intuition congruence. }
  destruct Ne as (Ne & n1 & n2 & n3). distinct Ne.
  assert (n2' : (x =? neg c) && (neg q =? p) = false) by (apply andb_false_iff; destruct (Nat.eqb_spec x (neg c)); auto; destruct (Nat.eqb_spec (neg q) p); auto; exfalso; auto).
  assert (d1 : x / 2 <> e / 2) by (rewrite half_eq; intros [E|E]; congruence). assert (d2 : q / 2 <> e / 2) by (rewrite half_eq; intros [E|E]; congruence).
  assert (d3 : q / 2 <> x / 2) by (rewrite half_eq; intros [E|E]; congruence).
  exists [q / 2; x / 2; e / 2]. split; [|split; [|split; [|split; [|split]]]]; auto.
  - unfold drop_edges. rewrite (next_Ok n) by auto. cbn [bind]. change (nF t e) with x. rewrite (prev_Ok n) by auto. cbn [bind]. rewrite (pF_tri n t W) by auto. change (nF t (nF t e)) with p.
    rewrite (proj2 (Nat.eqb_neq _ _) n1). rewrite (mem_list_no (x / 2)) by (intros [E|[]]; auto).
    rewrite (next_Ok n) by auto. cbn [bind]. change (nF t (neg e)) with c. rewrite (prev_Ok n) by auto. cbn [bind]. rewrite (pF_tri n t W) by auto. change (nF t (nF t (neg e))) with q.
    rewrite n2', (proj2 (Nat.eqb_neq _ _) n3). rewrite neg_div2. rewrite (mem_list_no (q / 2)) by (intros [E|[E|[]]]; auto). reflexivity.
  - repeat constructor; cbn; intuition auto.
  - cbn. auto.
  - destruct (wf_even n t W) as (m & Em). rewrite Em in *. rewrite div2_even.
    assert (L : forall h, h < 2 * m -> h / 2 < m) by (intros h Hh; apply Nat.div_lt_upper_bound; lia).
    intros i [<-|[<-|[<-|[]]]]; apply L; auto.
  - intros h. unfold dropped. fold x q. cbn [In].
    rewrite !half_eq'. tauto.
Qed.
Lemma drop_half_edges_ok l : NoDup l -> NoDup (drop_half_edges l) /\ length (drop_half_edges l) = 2 * length l /\ forall i, In i (drop_half_edges l) <-> In (i / 2) l.
Proof.
  assert (S : forall i d, d = i / 2 <-> (2 * d = i \/ neg (2 * d) = i)).
  { intros i d. rewrite neg_even. pose proof (Nat.div_mod i 2 ltac:(lia)). pose proof (Nat.mod_upper_bound i 2 ltac:(lia)). lia. }
  assert (M : forall l i, In i (drop_half_edges l) <-> In (i / 2) l).
  { clear l. induction l as [|d l IH]; intros i; cbn [drop_half_edges flat_map app In]; [tauto|]. change (flat_map _ l) with (drop_half_edges l). rewrite IH. rewrite S. tauto. }
  induction l as [|d l IH]; intros N; [repeat split; auto; constructor|]. apply NoDup_cons_iff in N as (N1 & N2). destruct (IH N2) as (I1 & I2 & _).
  cbn [drop_half_edges flat_map app length]. change (flat_map _ l) with (drop_half_edges l). split; [|split; [lia|intros i; apply (M (d :: l))]].
  constructor; [|constructor; auto].
  - intros [E|I]; [now apply neg_ne in E|]. apply M in I. now rewrite div2_even in I.
  - intros I. apply M in I. now rewrite neg_div2, div2_even in I.
Qed.
Lemma swaps_pure {A} (f : A -> halfedge -> halfedge -> A) l : forall x y, swaps_of (fun x a b => Ok (f x a b)) x l = Ok y -> fold_left (fun x ab => f x (fst ab) (snd ab)) l x = y.
Proof. induction l as [|(a, b) l IH]; intros x y E; cbn in E; [cbn; congruence|]. apply IH in E. exact E. Qed.

Lemma swap_far m l : proper_swaps m l -> forall s i, m <= i -> mem (fold_left (fun s ab => edge_set_swap s (fst ab) (snd ab)) l s) i = mem s i.
Proof.
  induction l as [|(a, b) l IH]; intros P s i Hi; auto. cbn [fold_left fst snd]. rewrite IH by (auto; intros a' b' I; apply P; now right).
  destruct (P a b ltac:(now left)) as (Ha & Hb & _). assert (G : forall h, h < 2 * m -> edge_index (edge_of h) < m).
  { intros h Hh. rewrite edge_index_of. apply Nat.div_lt_upper_bound; lia. }
  pose proof (G a Ha) as Ga. pose proof (G b Hb) as Gb. unfold edge_set_swap. destruct ((a =? b) || (a =? neg b)); auto.
  assert (Q : forall u w, u < m -> w < m -> mem (sinsert (serase s u) w) i = mem s i).
  { intros u w Hu Hw. rewrite mem_insert, mem_erase. destruct (Nat.eqb_spec i w); [lia|]. destruct (Nat.eqb_spec i u); [lia|]. reflexivity. }
  destruct (scontains s _ && negb (scontains s _)); [now apply Q|]. destruct (negb _ && _); [now apply Q|]. reflexivity.
Qed.

(** ** The result of collapsing an edge *)
Theorem collapse_run {T} (opp : T -> T) n t e (vectors : list T) edges : well_formed n t -> no_boundary n t -> e < n -> collapsible t e ->
  (forall v, opp (opp v) = v) -> length vectors = n -> odd_map opp vectors ->
  exists t' vectors' edges' label, collapse opp t e vectors edges = Ok (t', vectors', edges') /\
    well_formed (n - 6) t' /\ no_boundary (n - 6) t' /\ collapsed n t e t' label /\ length vectors' = n - 6 /\
    (forall h, h < n -> ~ dropped t e h -> nth_error vectors' (label h) = nth_error vectors h /\ mem edges' (label h / 2) = mem edges (h / 2)) /\
    ((forall i, mem edges i = true -> i < n / 2) -> forall i, mem edges' i = true -> i < (n - 6) / 2).
Proof.
  intros W Cl He Fi Op Lv Od. destruct (wf_even n t W) as (m & Em).
  assert (Hn := neg_ltn n t W e He). assert (Hx := nF_lt n t W e He). assert (Hp := nF_lt n t W _ Hx). assert (Hc := nF_lt n t W _ Hn). assert (Hq := nF_lt n t W _ Hc).
  destruct (edges_dropped n t e W He Fi) as (drop & Ed & Nd & Ld & Id & Bd & Dd). rewrite Em, div2_even in Bd.
  destruct (make_last_ok m drop e Nd Bd Id) as (swaps & drop' & El & Pr & Nd' & Ld' & Rd' & _).
  destruct (C44_make_last m drop e Nd Bd Id) as (swaps2 & drop2 & El2 & _ & _ & Rd & Sd). rewrite El in El2. inversion El2; subst swaps2 drop2. clear El2.
  destruct (C44_erase T opp m drop e swaps drop' _ Nd Bd Id Op El) as (_ & E2 & _ & E4 & E5).
  destruct (E2 vectors) as (vectors1 & Ev & Lv' & Vv); [congruence|auto|]. destruct (E4 edges) as (edges1 & Ee & Ve). apply swaps_pure in Ee.
  destruct (E5 t) as (u & Eu & Wu & Vu); [congruence|]. clear E2 E4 E5. rewrite Ld in *.
  set (r := relabeled_all swaps) in *.
  assert (rlt : forall h, h < n -> r h < n) by (intros h; rewrite Em; now apply relabeled_all_lt).
  assert (rneg : forall h, r (neg h) = neg (r h)) by (intros h; now apply (relabeled_all_neg m)).
  assert (rinj : forall h g, r h = r g -> h = g) by (intros h g; apply relabeled_all_inj).
  assert (ronto : forall i, i < n -> exists h, h < n /\ r h = i) by (intros i; rewrite Em; now apply relabeled_all_onto).
  assert (rF : forall h, h < n -> nF u (r h) = r (nF t h)) by (intros h Hh; apply Vu; lia).
  assert (Wu' : well_formed n u) by now rewrite Em.
  destruct (drop_half_edges_ok drop' Nd') as (Ni & Li & Ii).
  assert (Hi : forall i, i < n -> (In i (drop_half_edges drop') <-> n - 6 <= i < n)).
  { intros i Hi. rewrite Ii, Rd. rewrite Em in *. clear - Hi. pose proof (Nat.div_mod i 2 ltac:(lia)). pose proof (Nat.mod_upper_bound i 2 ltac:(lia)). lia. }
  assert (Hi' : forall i, In i (drop_half_edges drop') <-> n - 6 <= i < n).
  { intros i. split; intros I; [|apply Hi; [lia|exact I]]. apply Hi; auto. apply Ii, Rd in I. rewrite Em. clear - I. pose proof (Nat.div_mod i 2 ltac:(lia)). pose proof (Nat.mod_upper_bound i 2 ltac:(lia)). lia. }
  assert (Dr : forall h, h < n -> (dropped t e h <-> n - 6 <= r h)).
  { intros h Hh. rewrite <- Dd, Sd by lia. fold r. rewrite Em. clear. lia. }
  destruct (collapse_faces n u (r e) Wu' (iso_no_boundary n t u r rinj ronto rF Cl) (rlt e He) (iso_collapsible n t u r e W rneg rinj rF He Fi) (drop_half_edges drop') Ni ltac:(lia) Hi')
    as (F1 & F2 & F & V & vs & EF1 & EF2 & EF & EV & Evs & Wt' & Ct' & R).
  { intros i. rewrite Hi'. split.
    - intros (I1 & I2). destruct (ronto i I2) as (h & Hh & <-). apply (iso_dropped n t u r e W rneg rinj rF He). apply Dr; auto.
    - intros D. assert (B : i < n).
      { assert (Hn' := neg_ltn n u Wu' _ (rlt e He)). assert (Hx' := nF_lt n u Wu' _ (rlt e He)). assert (Hq' := nF_lt n u Wu' _ (nF_lt n u Wu' _ Hn')).
        destruct D as [<-|[<-|[<-|[<-|[<-|[<-|[]]]]]]]; auto; now apply (neg_ltn n u Wu'). }
      destruct (ronto i B) as (h & Hh & <-). apply (iso_dropped n t u r e W rneg rinj rF He) in D. apply Dr in D; auto. }
  exists (mkTri V F vs), (half_edge_map_erase vectors1 (length drop')), (edge_set_erase edges1 drop'), r.
  split; [|split; [|split; [|split; [|split; [|split]]]]]; auto.
  - unfold collapse. unfold boundary. rewrite !(papp_Ok n) by (auto; apply (wfF n t W)). cbn [bind]. change (fw (tF t)) with (nF t).
    destruct (Nat.eqb_spec (nF t e) e) as [E|_]; [exfalso; now apply (Cl e)|]. destruct (Nat.eqb_spec (nF t (neg e)) (neg e)) as [E|_]; [exfalso; now apply (Cl (neg e))|]. cbn [orb].
    rewrite (next_Ok n) by auto. cbn [bind]. rewrite (next_Ok n) by auto. cbn [bind]. rewrite (next_Ok n) by auto. cbn [bind].
    rewrite (next_Ok n t (neg e)) by auto. cbn [bind]. rewrite (next_Ok n) by auto. cbn [bind]. rewrite (next_Ok n) by auto. cbn [bind].
    rewrite !(wf_triangle n t W) by auto. rewrite !Nat.eqb_refl. cbn [negb orb].
    rewrite Ed. cbn [bind]. replace (tsize t / 2) with m by (unfold tsize, psize; rewrite (fwd_len _ _ (wfV n t W)), Em, div2_even; reflexivity).
    rewrite El. cbn [bind]. rewrite Eu. cbn [bind]. rewrite Ev. cbn [bind]. rewrite Ee. fold r. rewrite EF1. cbn [bind]. rewrite EF2. cbn [bind]. rewrite EF. cbn [bind]. rewrite EV. cbn [bind]. now rewrite Evs.
  - split; [|split; [|split]].
    + intros h Hh Nh. split; auto. rewrite Dr in Nh by auto. lia.
    + intros h g _ _ _ _. apply rinj.
    + intros i Hi0. destruct (ronto i ltac:(lia)) as (h & Hh & <-). exists h. split; auto. split; auto. rewrite Dr by auto. lia.
    + intros h Hh Nh. change (nF (mkTri V F vs)) with (fw F). rewrite <- (iso_rep n t u r e W rneg rinj rF He).
      rewrite R; auto. 2:{ intros Q. now apply (iso_vanishes n t u r e W rneg rinj rF He) in Q. }
      rewrite rF by auto. apply (iso_rep n t u r e W rneg rinj rF He).
  - rewrite Lv'. lia.
  - intros h Hh Nh. split; [apply Vv; [lia|now rewrite Dd]|]. rewrite Ve by lia. rewrite (mem_list_no (h / 2)) by now rewrite Dd. apply andb_true_r.
  - rewrite Em. replace (2 * m - 6) with (2 * (m - 3)) by lia. rewrite !div2_even. intros Be i Mi. destruct (Nat.lt_ge_cases i m) as [Li'|Li'].
    + destruct (ronto (2 * i) ltac:(lia)) as (h & Hh & Eh). pose proof (Ve h ltac:(lia)) as Q. fold r in Q. rewrite Eh, div2_even, Mi in Q. symmetry in Q. apply andb_prop in Q as (_ & Q).
      assert (Nh : ~ dropped t e h). { rewrite <- Dd. intros I. apply mem_list_In in I. rewrite I in Q. discriminate. } rewrite Dr in Nh by auto. rewrite Eh in Nh. lia.
    + exfalso. rewrite edge_set_erase_ok in Mi. apply andb_prop in Mi as (Mi & _). rewrite <- Ee in Mi. rewrite (swap_far m) in Mi by auto. apply Be in Mi. lia.
Qed.
