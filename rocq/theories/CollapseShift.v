(** * Shifting a vertex into another one *)
From Coq Require Import ZArith QArith Reals List Arith Bool Lia Lra.
From Verif Require Import Base HalfEdge HalfEdgeFacts Perm PermSpec PermFacts PermCycles PermLemmas IndexedSet IndexedSetSpec IndexedSetFacts Combinatorial CombinatorialSpec
  CombinatorialFacts CombinatorialOps ExactReal Vector PlaneSpec Plane VectorFacts Arb ArbFacts Quadratic QuadraticSpec QuadraticFacts FlatTri FlatSpec FlatFacts Tracked TrackedProps Collapse Shift ShiftSpec ShiftFacts ShiftRun
  CombinatorialHistory FlatLinear FlatAngle FlatSector CollapseSpec CollapseFacts CollapseRun CollapseVertices.
Import ListNotations.

(** ** Values are only moved around and negated *)
Section natural.
Context {A B : Type}.
Variables (opp : A -> A) (opp' : B -> B) (g : A -> B).
Hypothesis Og : forall a, g (opp a) = opp' (g a).
Definition through (x : outcome (list A)) : outcome (list B) := match x with Ok l => Ok (map g l) | Throw => Throw | UB => UB | OutOfFuel => OutOfFuel end.
Lemma vget_through l i : vget (map g l) i = match vget l i with Ok a => Ok (g a) | Throw => Throw | UB => UB | OutOfFuel => OutOfFuel end.
Proof. unfold vget. rewrite nth_error_map. destruct (nth_error l i); reflexivity. Qed.
Lemma upd_map l i a : upd (map g l) i (g a) = map g (upd l i a).
Proof. revert i. induction l as [|b l IH]; intros [|i]; cbn; auto. now rewrite IH. Qed.
Lemma vset_through l i a : vset (map g l) i (g a) = through (vset l i a).
Proof. unfold vset. rewrite map_length. destruct (i <? length l); cbn; auto. now rewrite upd_map. Qed.
Lemma odd_set_through l i a : odd_set opp' (map g l) i (g a) = through (odd_set opp l i a).
Proof. unfold odd_set. rewrite vset_through. destruct (vset l i a); cbn; auto. rewrite <- Og. apply vset_through. Qed.
Lemma odd_swap_through l a b : odd_map_swap opp' (map g l) a b = through (odd_map_swap opp l a b).
Proof.
  unfold odd_map_swap. destruct (a =? b)%nat; auto. destruct (a =? neg b)%nat.
  - rewrite vget_through. destruct (vget l b); cbn; auto. apply odd_set_through.
  - rewrite vget_through. destruct (vget l a); cbn; auto. rewrite vget_through. destruct (vget l b); cbn; auto. rewrite odd_set_through. destruct (odd_set opp l a a1); cbn; auto. apply odd_set_through.
Qed.
Lemma swaps_through sw : forall l, swaps_of (odd_map_swap opp') (map g l) sw = through (swaps_of (odd_map_swap opp) l sw).
Proof. induction sw as [|(a, b) sw IH]; intros l; auto. cbn [swaps_of]. rewrite odd_swap_through. destruct (odd_map_swap opp l a b); cbn; auto. Qed.
Lemma removelast_map (l : list A) : removelast (map g l) = map g (removelast l).
Proof. induction l as [|a [|b l] IH]; auto. cbn [map removelast] in *. now rewrite IH. Qed.
Lemma erase_through k : forall l, half_edge_map_erase (map g l) k = map g (half_edge_map_erase l k).
Proof. induction k as [|k IH]; intros l; auto. cbn [half_edge_map_erase]. now rewrite !removelast_map, IH. Qed.
Lemma collapse_through t e l es : collapse opp' t e (map g l) es =
  match collapse opp t e l es with Ok (t', l', es') => Ok (t', map g l', es') | Throw => Throw | UB => UB | OutOfFuel => OutOfFuel end.
Proof.
  unfold collapse.
  repeat match goal with
  | |- bind (swaps_of (odd_map_swap _) _ _) _ = _ => rewrite swaps_through; destruct (swaps_of (odd_map_swap opp) _ _); cbn [bind through]; auto; rewrite erase_through
  | |- bind ?x _ = match bind ?x _ with _ => _ end => destruct x as [[[? ?] ?]| | |] || destruct x; cbn [bind]; auto
  | |- (if ?b then _ else _) = _ => destruct b; auto
  end.
Qed.
End natural.

Lemma same_faces n t u e v label : tF u = tF t -> (collapsible u e <-> collapsible t e) /\ (no_boundary n u <-> no_boundary n t) /\
  (collapsed n u e v label <-> collapsed n t e v label) /\ (forall h, dropped u e h <-> dropped t e h).
Proof.
  intros E. unfold collapsible, five_edges, no_boundary, collapsed, rep, keep_p, keep_c, dropped, vanishes, side_x, side_p, side_c, side_q, nF. rewrite E. tauto.
Qed.

(** ** Edges that can be collapsed *)
Local Open Scope R_scope.
Lemma ends_collapsible {K : ExactReal} n (s : flat K) e : flat_surface n s -> closed_surface n s -> (e < n)%nat -> ~ same_vertex (fT s) e (neg e) -> collapsible (fT s) e.
Proof.
  intros S C He D. set (t := fT s) in *. assert (W : well_formed n t) by apply S.
  assert (Hn := neg_ltn n t W e He). assert (Hx := nF_lt n t W e He). assert (Hp := nF_lt n t W _ Hx). assert (Hc := nF_lt n t W _ Hn). assert (Hq := nF_lt n t W _ Hc).
  assert (Ve := V_e n t e W C He). assert (Vx := V_x n t e W C He). assert (Vp := V_p n t e W C He). assert (Vq := V_q n t e W C He). assert (Vc := V_c n t e W C He). assert (Vn := V_n n t e W C He).
  destruct (fs_flat n s S e He (C e He)) as (T1 & D1). destruct (fs_flat n s S (neg e) Hn (C _ Hn)) as (T2 & D2).
  change (fF s (fF s e)) with (side_p t e) in T1. change (fF s e) with (side_x t e) in T1, D1. change (fF s (fF s (neg e))) with (side_q t e) in T2. change (fF s (neg e)) with (side_c t e) in T2, D2.
  change (side_x t e < n)%nat in Hx. change (side_p t e < n)%nat in Hp. change (side_c t e < n)%nat in Hc. change (side_q t e < n)%nat in Hq.
  set (x := side_x t e) in *. set (p := side_p t e) in *. set (c := side_c t e) in *. set (q := side_q t e) in *.
  assert (Ng : forall h, (h < n)%nat -> vv s (neg h) = pneg (vv s h)) by apply S. rewrite Ng in T2, D2 by auto.
  assert (Eq : forall a b, (a < n)%nat -> (b < n)%nat -> a = b -> vv s a = vv s b) by (intros a b _ _ ->; reflexivity).
  assert (En : forall a b, (a < n)%nat -> (b < n)%nat -> a = neg b -> vv s a = pneg (vv s b)) by (intros a b A B ->; now apply Ng).
  destruct (vv s e) as (e1, e2) eqn:Ee, (vv s x) as (x1, x2) eqn:Ex, (vv s p) as (p1, p2) eqn:Ep, (vv s c) as (c1, c2) eqn:Ec, (vv s q) as (q1, q2) eqn:Eq'.
  unfold padd, pneg, pdet in *. cbn [fst snd] in *. injection T1 as T3 T4. injection T2 as T5 T6.
  assert (P1 : p1 = - e1 - x1) by lra. assert (P2 : p2 = - e2 - x2) by lra. assert (Q1 : q1 = e1 - c1) by lra. assert (Q2 : q2 = e2 - c2) by lra. subst p1 p2 q1 q2. clear T3 T4 T5 T6.
  Ltac apart En Eq :=
    match goal with
    | |- ?a <> neg ?b => let Q := fresh "Q" in intros Q; apply En in Q; [|assumption|assumption]
    | |- ?a <> ?b => let Q := fresh "Q" in intros Q; apply Eq in Q; [|assumption|assumption]
    end.
  assert (a1 : e <> x) by (apart En Eq; rewrite Ee, Ex in Q; injection Q as Q1 Q2; rewrite Q1, Q2 in *; lra).
  assert (a2 : e <> neg x) by (apart En Eq; rewrite Ee, Ex in Q; injection Q as Q1 Q2; rewrite Q1, Q2 in *; lra).
  assert (a3 : e <> p) by (apart En Eq; rewrite Ee, Ep in Q; injection Q as Q1 Q2; replace x1 with (- 2 * e1) in * by lra; replace x2 with (- 2 * e2) in * by lra; lra).
  assert (a4 : e <> neg p) by (apart En Eq; rewrite Ee, Ep in Q; injection Q as Q1 Q2; replace x1 with 0 in * by lra; replace x2 with 0 in * by lra; lra).
  assert (a5 : e <> c) by (apart En Eq; rewrite Ee, Ec in Q; injection Q as Q1 Q2; rewrite Q1, Q2 in *; lra).
  assert (a6 : e <> neg c) by (apart En Eq; rewrite Ee, Ec in Q; injection Q as Q1 Q2; rewrite Q1, Q2 in *; lra).
  assert (a7 : e <> q) by (apart En Eq; rewrite Ee, Eq' in Q; injection Q as Q1 Q2; replace c1 with 0 in * by lra; replace c2 with 0 in * by lra; lra).
  assert (a8 : e <> neg q) by (apart En Eq; rewrite Ee, Eq' in Q; injection Q as Q1 Q2; replace c1 with (2 * e1) in * by lra; replace c2 with (2 * e2) in * by lra; lra).
  assert (b1 : x <> p) by (apart En Eq; rewrite Ex, Ep in Q; injection Q as Q1 Q2; replace e1 with (- 2 * x1) in * by lra; replace e2 with (- 2 * x2) in * by lra; lra).
  assert (b2 : x <> neg p) by (apart En Eq; rewrite Ex, Ep in Q; injection Q as Q1 Q2; replace e1 with 0 in * by lra; replace e2 with 0 in * by lra; lra).
  assert (b3 : c <> q) by (apart En Eq; rewrite Ec, Eq' in Q; injection Q as Q1 Q2; replace e1 with (2 * c1) in * by lra; replace e2 with (2 * c2) in * by lra; lra).
  assert (b4 : c <> neg q) by (apart En Eq; rewrite Ec, Eq' in Q; injection Q as Q1 Q2; replace e1 with 0 in * by lra; replace e2 with 0 in * by lra; lra).
  assert (c1' : x <> q -> True) by auto. clear c1'.
  assert (c2' : x <> neg q) by (apart En Eq; rewrite Ex, Eq' in Q; injection Q as Q1 Q2; replace x1 with (c1 - e1) in * by lra; replace x2 with (c2 - e2) in * by lra; lra).
  assert (c3' : p <> neg c) by (apart En Eq; rewrite Ep, Ec in Q; injection Q as Q1 Q2; replace c1 with (e1 + x1) in * by lra; replace c2 with (e2 + x2) in * by lra; lra).
  (* The half edges of the two triangles differ since the next ones do. *)
  assert (Fe : nF t p = e) by (apply W; auto). assert (Fq : nF t q = neg e) by (apply W; auto). assert (Fx : nF t x = p) by reflexivity. assert (Fc : nF t c = q) by reflexivity.
  assert (F1 : nF t e = x) by reflexivity. assert (F2 : nF t (neg e) = c) by reflexivity.
  assert (n0 : e <> neg e) by (intros Q; symmetry in Q; now apply neg_ne in Q).
  assert (Inj : forall a b, (a < n)%nat -> (b < n)%nat -> nF t a = nF t b -> a = b) by (intros a b A B; now apply (nF_inj n t W)).
  assert (d1 : x <> c) by (intros Q; apply n0; apply Inj; auto; congruence).
  assert (d2 : p <> q) by (intros Q; apply d1; apply Inj; auto; congruence).
  assert (d3 : x <> q) by (intros Q; assert (p = neg e) by congruence; apply a4; rewrite H; now rewrite neg_neg).
  assert (d4 : p <> c) by (intros Q; assert (e = q) by congruence; now apply a7).
  assert (sw : forall a b, neg a = b -> a = neg b) by (intros a b <-; now rewrite neg_neg).
  assert (si : forall a b, neg a = neg b -> a = b) by (intros a b; apply neg_inj).
  assert (nn : forall a, a <> neg a) by (intros a Q; symmetry in Q; now apply neg_ne in Q).
  assert (sw' : forall a b, neg a = b -> b = neg a) by auto.
  clear D1 D2 Ee Ex Ep Ec Eq' Ng En Eq.
  assert (xc : {c = neg x} + {c <> neg x}) by apply Nat.eq_dec. assert (pq : {q = neg p} + {q <> neg p}) by apply Nat.eq_dec.
  destruct xc as [xc|xc], pq as [pq|pq].
  - exfalso. apply D. exists 3%nat. change (nV t (nV t (nV t e)) = neg e). rewrite Ve. replace (neg p) with q by auto. rewrite Vq. rewrite xc, neg_neg. apply Vx.
  - right. left. fold x p c q. split; auto. repeat constructor; cbn [In]; intros I; repeat destruct I as [I|I]; auto; try (apply sw in I); try (apply si in I); try congruence; try (now apply nn in I); try (symmetry in I; now apply nn in I).
    all: try (apply pq; congruence).
  - right. right. fold x p c q. split; auto. repeat constructor; cbn [In]; intros I; repeat destruct I as [I|I]; auto; try (apply sw in I); try (apply si in I); try congruence; try (now apply nn in I); try (symmetry in I; now apply nn in I).
  - left. unfold five_edges. fold x p c q. repeat constructor; cbn [In]; intros I; repeat destruct I as [I|I]; auto; try (apply sw in I); try (apply si in I); try congruence; try (now apply nn in I); try (symmetry in I; now apply nn in I).
Qed.

Section finish.
Context {K : ExactReal}.
Variables (n : nat) (s : flat K) (d : list (vec K)) (e : nat).
Hypothesis S : flat_surface n s.
Hypothesis C : closed_surface n s.
Hypothesis Sh : shift_of n s d.
Hypothesis He : (e < n)%nat.
Hypothesis Fi : collapsible (fT s) e.
Hypothesis Even : e = (2 * (e / 2))%nat.
Hypothesis Z : moving s d 1 e = (0, 0).
Hypothesis P : forall h, (h < n)%nat -> ~ vanishes (fT s) e h -> 0 < pdet (moving s d 1 h) (moving s d 1 (fF s h)).
Let t := fT s.
Let W : well_formed n t := fs_wf n s S.

Lemma sides_same : moving s d 1 (side_p t e) = moving s d 1 (neg (side_x t e)) /\ moving s d 1 (side_c t e) = moving s d 1 (neg (side_q t e)).
Proof.
  assert (Hn := neg_ltn n t W e He). assert (T1 := mv_sum n s d S C Sh 1 e He). assert (T2 := mv_sum n s d S C Sh 1 (neg e) Hn).
  change (fF s (fF s e)) with (side_p t e) in T1. change (fF s e) with (side_x t e) in T1. change (fF s (fF s (neg e))) with (side_q t e) in T2. change (fF s (neg e)) with (side_c t e) in T2.
  rewrite Z in T1. rewrite (mv_neg n s d S Sh) in T2 by auto. rewrite Z in T2.
  assert (Hx := nF_lt n t W e He). assert (Hc := nF_lt n t W _ Hn). assert (Hq := nF_lt n t W _ Hc).
  set (x := side_x t e) in *. set (p := side_p t e) in *. set (c := side_c t e) in *. set (q := side_q t e) in *. split.
  - rewrite (mv_neg n s d S Sh 1 x) by auto. destruct (moving s d 1 x), (moving s d 1 p). unfold padd, pneg in *. cbn [fst snd] in *. injection T1 as T3 T4. f_equal; lra.
  - rewrite (mv_neg n s d S Sh 1 q) by auto. destruct (moving s d 1 c), (moving s d 1 q). unfold padd, pneg in *. cbn [fst snd] in *. injection T2 as T3 T4. f_equal; lra.
Qed.
Lemma sides_agree h : (h < n)%nat -> moving s d 1 (rep t e h) = moving s d 1 h.
Proof.
  intros Hh. destruct sides_same as (E1 & E2). unfold rep, keep_p, keep_c.
  destruct (Nat.eqb_spec h (neg (side_x t e))) as [->|_]; [|destruct (Nat.eqb_spec h (neg (side_q t e))) as [->|_]; auto].
  - destruct (Nat.eqb_spec (side_p t e) (neg (side_q t e))) as [E|_]; auto. now rewrite E2, <- E.
  - destruct (Nat.eqb_spec (side_c t e) (neg (side_x t e))) as [E|_]; auto. now rewrite E1, <- E.
Qed.

Lemma finish_collapse coll : (forall i, mem coll i = true <-> i = (e / 2)%nat) ->
  exists u label, finish s d coll = Ok u /\ flat_surface (n - 6) u /\ closed_surface (n - 6) u /\ collapsed n t e (fT u) label /\
    forall h, (h < n)%nat -> ~ dropped t e h -> vv u (label h) = moving s d 1 h.
Proof.
  intros M. destruct (wf_even n t W) as (m & Em). assert (He2 : (e / 2 < m)%nat) by (apply Nat.div_lt_upper_bound; lia).
  unfold finish. fold t. destruct (clone_Ok n t W) as (t1 & -> & W1 & EV1 & EF1). cbn [bind].
  destruct (same_faces n t t1 e t (fun h => h) EF1) as (Fi1 & Nb1 & _ & Dr1).
  rewrite (omap_map _ (fun h => vadd (nth h (fvec s) vzero) (nth h d vzero))).
  2: { intros h I. apply (half_edges_lt n t1 h W1) in I. rewrite (get_v n s S), (get_d n s d Sh) by auto. reflexivity. }
  cbn [bind]. replace (half_edges t1) with (seq 0 n) by (unfold half_edges; now rewrite (wf_size n t1 W1)).
  set (vs := map _ (seq 0 n)). assert (Lv : length vs = n) by (unfold vs; now rewrite map_length, seq_length).
  assert (Vv : forall h, (h < n)%nat -> nth_error (map vden vs) h = Some (moving s d 1 h)).
  { intros h Hh. unfold vs. rewrite map_map, nth_error_map. rewrite (nth_error_nth' (seq 0 n) 0%nat) by now rewrite seq_length. rewrite seq_nth by auto. cbn [option_map Nat.add].
    f_equal. rewrite vden_add. unfold moving, vv, dd. unfold padd, pscale; cbn [fst snd]. f_equal; ring. }
  destruct (collapse_run pneg n t1 e (map vden vs) coll W1) as (t' & vs' & es' & label & Ec & W' & Nb' & Cl & Lv' & Vl & Be); auto.
  { apply Nb1. exact C. } { now apply Fi1. } { intros (a, b). unfold pneg; cbn. f_equal; ring. } { now rewrite map_length. }
  { intros h y Q. assert (Hh : (h < n)%nat) by (rewrite <- Lv, <- (map_length vden); apply nth_error_Some; congruence).
    rewrite Vv in Q by auto. injection Q as <-. rewrite Vv by now apply (neg_ltn n t W). f_equal. now apply (mv_neg n s d S Sh). }
  rewrite (collapse_through vneg pneg vden (fun v => vden_neg v)) in Ec.
  destruct (collapse vneg t1 e vs coll) as [[[t2 vs2] es2]| | |] eqn:Ec'; try discriminate. injection Ec as -> <- ->.
  assert (Em' : sempty es' = true).
  { apply empty_spec. intros i. destruct (mem es' i) eqn:Q; auto. exfalso.
    assert (Li : (i < (n - 6) / 2)%nat). { apply Be; auto. intros j Hj. apply M in Hj. rewrite Em. rewrite div2_even. lia. }
    destruct Cl as (_ & _ & Cl3 & _). destruct (Cl3 (2 * i)%nat) as (h & Hh & Nh & Eh). { rewrite Em in *. replace (2 * m - 6)%nat with (2 * (m - 3))%nat in * by lia. rewrite div2_even in Li. lia. }
    destruct (Vl h Hh Nh) as (_ & Q2). rewrite Eh, div2_even, Q in Q2. symmetry in Q2. apply M in Q2. apply Nh. apply half_eq in Q2. unfold dropped. cbn [In]. destruct Q2 as [->| ->]; auto. }
  assert (Ea : forall k, (0 < k)%nat -> collapse_all k t1 vs coll = Ok (t', vs2)).
  { intros [|k] Hk; [lia|]. cbn [collapse_all]. assert (Mb : mem coll (e / 2) = true) by now apply M.
    destruct (sempty coll) eqn:Q; [apply empty_spec with (x := (e / 2)%nat) in Q; congruence|].
    destruct (sbegin_first coll (e / 2)) as (B & _); [now rewrite contains_mem|]. rewrite contains_mem in B. apply M in B. rewrite B, <- Even, Ec'. cbn [bind].
    destruct k; cbn [collapse_all]; now rewrite Em'. }
  rewrite Ea. 2:{ unfold edges. rewrite map_length, seq_length, (wf_size n t1 W1). rewrite Em, div2_even. lia. } cbn [bind].
  rewrite map_length in Lv'.
  destruct (make_flat_spec (n - 6) t' (vget vs2) (fun h => nth h vs2 vzero) W') as (t3 & W3 & EV3 & EF3 & Mf).
  { intros h Hh. apply vget_nth. lia. }
  cbv zeta in Mf. set (u := mkFlat t3 _) in Mf.
  assert (Vu : forall h, (h < n)%nat -> ~ dropped t e h -> vv u (label h) = moving s d 1 h).
  { intros h Hh Nh. assert (Nh1 : ~ dropped t1 e h) by (rewrite Dr1; auto). destruct (Vl h Hh Nh1) as (Q & _). destruct Cl as (Cl1 & _). destruct (Cl1 h Hh Nh1) as (Lh & _). rewrite Vv in Q by auto.
    unfold u. rewrite vv_map by auto. rewrite nth_error_map in Q. rewrite (nth_error_nth' vs2 vzero) in Q by lia. cbn [option_map] in Q. congruence. }
  assert (Cl' : collapsed n t e (fT u) label).
  { destruct (same_faces n t t1 e t' label EF1) as (_ & _ & Q & _). apply Q in Cl. unfold collapsed in *. destruct Cl as (c1 & c2 & c3 & c4). split; auto. split; auto. split; auto. intros h Hh Nh. unfold u. cbn [fT]. rewrite (same_nF _ _ _ EF3). auto. }
  assert (Cu : closed_surface (n - 6) u). { intros h Hh. unfold fF, u. cbn [fT]. rewrite (same_nF _ _ _ EF3). now apply Nb'. }
  assert (Rp : forall i, (i < n - 6)%nat -> exists h, (h < n)%nat /\ ~ vanishes t e h /\ label (rep t e h) = i /\ vv u i = moving s d 1 h /\ fF u i = label (rep t e (fF s h)) /\ vv u (fF u i) = moving s d 1 (fF s h) /\ ~ vanishes t e (fF s h) /\ (fF s h < n)%nat).
  { intros i Hi. destruct Cl' as (c1 & c2 & c3 & c4). destruct (c3 i Hi) as (g & Hg & Ng & Eg). destruct (rep_onto n t e W He Fi g Hg Ng) as (h & Hh & Nh & Eh). exists h.
    assert (Hf : (fF s h < n)%nat) by now apply (nF_lt n t W). assert (Nf : ~ vanishes t e (fF s h)) by (intros V; now apply Nh, (vanishes_nF n t e W He)).
    destruct (rep_ok n t e W He Fi _ Hf Nf) as (R1 & R2).
    assert (Ef : fF u i = label (rep t e (fF s h))) by (unfold fF at 1; rewrite <- Eg, <- Eh; apply c4; auto).
    split; auto. split; auto. split; [congruence|]. split; [|split; [|split]]; auto.
    - rewrite <- Eg, <- Eh. rewrite Vu by (rewrite Eh; auto). now apply sides_agree.
    - rewrite Ef, Vu by auto. now apply sides_agree. }
  assert (Tf : triangles_flat (n - 6) u).
  { intros i Hi _. destruct (Rp i Hi) as (h & Hh & Nh & Eh & Vh & Fh & Vf & Nf & Hf). rewrite Vh, Vf. split; [|now apply P].
    assert (H2 : (fF u i < n - 6)%nat) by (apply (nF_lt (n - 6) t3 W3); auto).
    destruct Cl' as (c1 & c2 & c3 & c4). assert (H3 : (fF s (fF s h) < n)%nat) by now apply (nF_lt n t W).
    assert (N3 : ~ vanishes t e (fF s (fF s h))) by (intros V; now apply Nf, (vanishes_nF n t e W He)). destruct (rep_ok n t e W He Fi _ H3 N3) as (R1 & R2).
    assert (E2 : fF u (fF u i) = label (rep t e (fF s (fF s h)))) by (rewrite Fh; unfold fF at 1; apply c4; auto). rewrite E2, Vu, sides_agree by auto. now apply (mv_sum n s d S C Sh). }
  exists u, label. destruct Mf as [[Mf _]|[_ Mf]]; [|exfalso; now apply Mf]. split; auto. split; [|split; auto].
  split; auto.
  - unfold u. cbn [fvec]. now rewrite map_length, seq_length.
  - intros i Hi. destruct Cl' as (c1 & c2 & c3 & c4). destruct (c3 i Hi) as (h & Hh & Nh & <-). destruct (c1 h Hh Nh) as (_ & <-).
    assert (Nn : ~ dropped t e (neg h)).
    { intros D. apply Nh. unfold dropped in *. cbn [In] in *. clear - D. repeat match goal with H : _ \/ _ |- _ => destruct H as [H|H] end; try contradiction; apply (f_equal neg) in D; rewrite ?neg_neg in D; rewrite D; auto 8. }
    rewrite !Vu by (auto; now apply (neg_ltn n t W)). now apply (mv_neg n s d S Sh).
Qed.
End finish.

(** ** Looking for edges that need to be flipped *)
Section simple.
Context {K : ExactReal}.
Variable o : solver K.
Variable approx : Z -> K -> ball.
Variable ops : Z -> ArbOps.
Variables (n : nat) (s : flat K) (d : list (vec K)) (e : nat).
Variable Pq : quad K -> Prop.
Hypothesis So : sound o.
Hypothesis Rel : reliable o Pq.
Hypothesis Ap : approximates approx.
Hypothesis S : flat_surface n s.
Hypothesis C : closed_surface n s.
Hypothesis Sh : shift_of n s d.
Hypothesis He : (e < n)%nat.
Hypothesis Fi : collapsible (fT s) e.
Hypothesis Z : moving s d 1 e = (0, 0).
Hypothesis P : forall h, (h < n)%nat -> ~ vanishes (fT s) e h -> 0 < pdet (moving s d 1 h) (moving s d 1 (fF s h)).
Hypothesis Pos : forall t h, 0 <= t < 1 -> (h < n)%nat -> 0 < pdet (moving s d t h) (moving s d t (fF s h)).
Hypothesis HP : forall h, (h < n)%nat -> Pq (corner s d h).
Local Notation mv := (moving s d).
Let t := fT s.
Let W : well_formed n t := fs_wf n s S.

Lemma pdet_nonzero p q : 0 < pdet p q -> p <> (0, 0).
Proof. intros D ->. unfold pdet in D; cbn in D. lra. Qed.
Lemma only_vanishes u h : 0 <= u <= 1 -> (h < n)%nat -> h <> e -> h <> neg e -> mv u h <> (0, 0).
Proof.
  intros Hu Hh h1 h2. destruct (Req_dec u 1) as [->|N]; [|eapply pdet_nonzero, Pos; auto; lra].
  assert (G : forall g, (g < n)%nat -> ~ vanishes t e (neg g) -> mv 1 g <> (0, 0)).
  { intros g Hg Ng Q. assert (Hn := neg_ltn n t W g Hg). apply (pdet_nonzero _ _ (P _ Hn Ng)). rewrite (mv_neg n s d S Sh) by auto. rewrite Q. unfold pneg; cbn. f_equal; ring. }
  destruct (in_dec Nat.eq_dec h [e; side_x t e; side_p t e; neg e; side_c t e; side_q t e]) as [I|I]; [|eapply pdet_nonzero, P; auto].
  destruct (sides_same n s d e S C Sh He Z) as (E1 & E2). fold t in E1, E2.
  assert (Hn := neg_ltn n t W e He). assert (Hx := nF_lt n t W e He). assert (Hp := nF_lt n t W _ Hx). assert (Hc := nF_lt n t W _ Hn). assert (Hq := nF_lt n t W _ Hc).
  change (side_x t e < n)%nat in Hx. change (side_p t e < n)%nat in Hp. change (side_c t e < n)%nat in Hc. change (side_q t e < n)%nat in Hq.
  assert (Ng : forall g, (g < n)%nat -> mv 1 (neg g) <> (0, 0) -> mv 1 g <> (0, 0)).
  { intros g Hg Q Q'. apply Q. rewrite (mv_neg n s d S Sh) by auto. rewrite Q'. unfold pneg; cbn. f_equal; ring. }
  set (x := side_x t e) in *. set (p := side_p t e) in *. set (c := side_c t e) in *. set (q := side_q t e) in *.
  assert (V : forall g, vanishes t e g <-> In g [e; x; p; neg e; c; q]) by (intros g; reflexivity).
  assert (A : mv 1 p <> (0, 0) /\ mv 1 c <> (0, 0)).
  { destruct (cases t e Fi) as [(N & _)|[((E & N) & _)|((E & N) & _)]]; fold x p c q in N.
    - distinct N. split; apply G; auto; rewrite V; intros [D|[D|[D|[D|[D|[D|[]]]]]]]; congruence.
    - fold c x in E. distinct N. assert (mv 1 p <> (0, 0)) by (apply G; auto; rewrite V; intros [D|[D|[D|[D|[D|[D|[]]]]]]]; congruence). split; auto. now rewrite E, <- E1.
    - fold q p in E. assert (nq : neg q = p) by (rewrite E; apply neg_neg). distinct N.
      assert (mv 1 c <> (0, 0)) by (apply G; auto; rewrite V; intros [D|[D|[D|[D|[D|[D|[]]]]]]]; congruence). split; auto. rewrite <- nq, <- E2. auto. }
  destruct A as (A1 & A2). assert (A3 : mv 1 x <> (0, 0)) by (apply Ng; auto; congruence). assert (A4 : mv 1 q <> (0, 0)) by (apply Ng; auto; congruence).
  destruct I as [I|[I|[I|[I|[I|[I|[]]]]]]]; congruence.
Qed.

Definition found_edge (coll : bits) (here : bool) (i : nat) : bool := mem coll i || ((i =? e / 2)%nat && here).
Definition at_e (hes : list nat) : bool := existsb (fun h => (h / 2 =? e / 2)%nat) hes.

Lemma collapsing_one hes : (forall h, In h hes -> (h < n)%nat) -> forall coll, exists coll', find_collapsing s d hes coll = Ok coll' /\ forall i, mem coll' i = found_edge coll (at_e hes) i.
Proof.
  induction hes as [|h r IH]; intros H coll.
  { exists coll. split; auto. intros i. unfold found_edge. cbn. now rewrite andb_false_r, orb_false_r. }
  assert (Hh : (h < n)%nat) by auto with datatypes. cbn [find_collapsing]. rewrite (get_d n s d Sh), (get_v n s S) by auto. cbn [bind].
  set (v := nth h (fvec s) vzero) in *. set (x := nth h d vzero) in *.
  assert (Nv : vden v <> (0, 0)). { destruct (fs_flat n s S h Hh (C h Hh)) as [_ Q]. exact (pdet_nonzero _ _ Q). }
  unfold at_e. cbn [existsb]. fold (at_e r). destruct (Nat.eqb_spec (h / 2) (e / 2)) as [E|E].
  - assert (Zh : padd (vden v) (vden x) = (0, 0)).
    { assert (Q : mv 1 h = (0, 0)). { apply half_eq in E as [->| ->]; auto. rewrite (mv_neg n s d S Sh) by auto. rewrite Z. unfold pneg; cbn. f_equal; ring. }
      unfold moving in Q. change (vv s h) with (vden v) in Q. change (dd d h) with (vden x) in Q. destruct (vden v), (vden x). unfold padd, pscale in *. cbn [fst snd] in *. injection Q as Q1 Q2. f_equal; lra. }
    assert (Y : vnonzero x = true). { apply vnonzero_spec. intros Q. rewrite Q in Zh. apply Nv. destruct (vden v). unfold padd in Zh. cbn in Zh. injection Zh as Z1 Z2. f_equal; lra. }
    rewrite Y. destruct (ccw_spec v x) as (_ & Cl & _). rewrite (proj2 Cl). 2: { destruct (vden v), (vden x). unfold padd, pdet in *. cbn [fst snd] in *. injection Zh as Z1 Z2. replace r2 with (- r0) by lra. replace r3 with (- r1) by lra. ring. }
    cbn [andb ccw_eqb]. destruct (orientation_spec v (vadd v x)) as (_ & Or & _). rewrite (proj2 Or). 2: { rewrite vden_add, Zh. unfold pdot; cbn. ring. }
    destruct (IH ltac:(auto with datatypes) (sinsert coll (h / 2))) as (c' & E' & M). exists c'. split; auto. intros i. rewrite M. unfold found_edge. rewrite mem_insert, E. cbn [orb]. rewrite andb_true_r. destruct (i =? e / 2)%nat, (mem coll i), (at_e r); reflexivity.
  - destruct (IH ltac:(auto with datatypes) coll) as (c' & E' & M). exists c'. split; auto. rewrite E'.
    destruct (vnonzero _ && _) eqn:Q; auto. apply andb_true_iff in Q as [_ Q].
    destruct (ccw_spec v x) as (_ & Cl & _). assert (X : pdet (vden v) (vden x) = 0) by (apply Cl; destruct (ccw v x); auto; discriminate).
    destruct (orientation_spec v (vadd v x)) as (_ & O1 & O2). rewrite vden_add in O1, O2.
    assert (F : ~ pdot (vden v) (padd (vden v) (vden x)) <= 0).
    { intros Q'. destruct (parallel_vanishes _ _ Nv X Q') as (u & U & Zu). assert (U' : 0 <= u <= 1) by lra. assert (N1 : h <> e) by (intros ->; now apply E). assert (N2 : h <> neg e) by (intros ->; apply E, neg_div2). now apply (only_vanishes u h U' Hh N1 N2). }
    destruct (orientation v (vadd v x)); try reflexivity; exfalso; apply F; try (rewrite (proj1 O1 eq_refl); lra); assert (Q2 := proj1 O2 eq_refl); lra.
Qed.

Lemma corner_same fuel : forall prec h, (h < n)%nat -> mv 1 h = mv 1 (fV s h) -> mv 1 h <> (0, 0) ->
  safe (fun b => b = false)
    (vertex_hits_interior o approx ops fuel prec (corner s d h) (nth h (fvec s) vzero) (nth (fV s h) (fvec s) vzero) (nth h d vzero) (nth (fV s h) d vzero)).
Proof.
  intros prec h H Eq Nz. revert prec.
  assert (Ct : critical (corner s d h) 1).
  { split; [lra|]. split; [rewrite (at_corner n s d S C Sh) by auto|intros u Hu; rewrite (at_corner n s d S C Sh) by auto; apply Rgt_not_eq, Pos; auto].
    unfold area_at. assert (Q := mv_V n s d S C Sh 1 h H). rewrite <- Eq in Q. assert (T := mv_sum n s d S C Sh 1 h H).
    destruct (mv 1 h), (mv 1 (fF s h)), (mv 1 (fF s (fF s h))). unfold padd, pneg, pdet in *. cbn [fst snd] in *. injection Q as Q1 Q2. injection T as T1 T2. assert (X1 : r1 = 0) by lra. assert (X2 : r2 = 0) by lra. rewrite X1, X2. ring. }
  assert (Pd : 0 < pdot (mv 1 h) (mv 1 (fV s h))) by (rewrite <- Eq; now apply pdot_pos).
  induction fuel as [|k IH]; intros prec; [exact I|].
  assert (A := root_critical o So (Datatypes.S k) (corner s d h) prec 1 Ct). assert (E := proj1 Rel (Datatypes.S k) (corner s d h) prec).
  cbn [vertex_hits_interior].
  change (match k with
          | O => root o 1 (corner s d h) prec
          | Datatypes.S _ => root o (Datatypes.S k) (corner s d h) prec end) with (root o (Datatypes.S k) (corner s d h) prec).
  destruct (root o (Datatypes.S k) (corner s d h) prec) as [[[b|]|]| | |]; cbn [bind]; cbn in A; auto; [|now contradiction A].
  assert (B : within 1 b) by (apply (E (Some b) 1); auto).
  assert (X := aorientation_sound (ops arb_precision_fast)).
  specialize (X (at_time approx ops prec b (nth h (fvec s) vzero) (nth h d vzero)) (at_time approx ops prec b (nth (fV s h) (fvec s) vzero) (nth (fV s h) d vzero)) (mv 1 h) (mv 1 (fV s h))).
  destruct (aorientation _ _ _) as [r|]; [|now apply IH].
  specialize (X r (at_time_within approx ops Ap prec 1 b _ _ B) (at_time_within approx ops Ap prec 1 b _ _ B) eq_refl).
  destruct r; cbn; auto; lra.
Qed.

Lemma corner_none fuel coll h : (h < n)%nat -> (h / 2 = e / 2 \/ fV s h / 2 = e / 2 -> mem coll (e / 2) = true)%nat ->
  safe (fun f => f = None) (find_flip_step o approx ops fuel s d coll h (fV s h) None).
Proof.
  intros H Mc. assert (HV := fV_lt n s h S H). unfold find_flip_step. rewrite !(get_v n s S), !(get_d n s d Sh) by auto. cbn [bind]. fold (ShiftFacts.corner s d h).
  destruct (qpositive (corner s d h)) eqn:E; [reflexivity|]. destruct (_ || _)%bool eqn:B; [reflexivity|].
  assert (Hn := neg_ltn n t W e He). assert (Hx := nF_lt n t W e He). assert (Hp := nF_lt n t W _ Hx). assert (Hc := nF_lt n t W _ Hn). assert (Hq := nF_lt n t W _ Hc).
  rewrite !contains_mem in B. apply orb_false_iff in B as (B1 & B2).
  assert (h1 : (h / 2 <> e / 2)%nat) by (intros Q; rewrite Q, Mc in B1 by auto; discriminate).
  assert (h2 : (fV s h / 2 <> e / 2)%nat) by (intros Q; rewrite Q, Mc in B2 by auto; discriminate).
  assert (V : vanishes t e h).
  { destruct (in_dec Nat.eq_dec h [e; side_x t e; side_p t e; neg e; side_c t e; side_q t e]) as [I|I]; auto. exfalso. rewrite (proj2 (qpositive_spec _)) in E; [discriminate|].
    intros u Hu. rewrite (at_corner n s d S C Sh) by auto. destruct (Req_dec u 1) as [->|N]; [now apply P|apply Pos; auto; lra]. }
  assert (Cl : no_boundary n t) by exact C.
  assert (X1 := V_x n t e W Cl He). assert (X2 := V_p n t e W Cl He). assert (X3 := V_c n t e W Cl He). assert (X4 := V_q n t e W Cl He).
  assert (T1 := mv_sum n s d S C Sh 1 e He). assert (T2 := mv_sum n s d S C Sh 1 (neg e) Hn).
  change (fF s (fF s e)) with (side_p t e) in T1. change (fF s e) with (side_x t e) in T1. change (fF s (fF s (neg e))) with (side_q t e) in T2. change (fF s (neg e)) with (side_c t e) in T2.
  rewrite Z in T1. rewrite (mv_neg n s d S Sh) in T2 by auto. rewrite Z in T2.
  assert (G : mv 1 h = mv 1 (fV s h) /\ mv 1 h <> (0, 0)).
  { assert (N : h <> e /\ h <> neg e) by (split; intros ->; apply h1; auto; apply neg_div2). split; [|apply only_vanishes; try apply N; auto; lra].
    destruct V as [V|[V|[V|[V|[V|[V|[]]]]]]].
    - now symmetry in V.
    - exfalso. apply h2. rewrite <- V. change (fV s (side_x t e)) with (nV t (side_x t e)). rewrite X1. apply neg_div2.
    - rewrite <- V. change (fV s (side_p t e)) with (nV t (side_p t e)). rewrite X2. rewrite (mv_neg n s d S Sh) by auto.
      destruct (mv 1 (side_x t e)), (mv 1 (side_p t e)). unfold padd, pneg in *. cbn [fst snd] in *. injection T1 as T3 T4. f_equal; lra.
    - now symmetry in V.
    - exfalso. apply h2. rewrite <- V. change (fV s (side_c t e)) with (nV t (side_c t e)). now rewrite X3.
    - rewrite <- V. change (fV s (side_q t e)) with (nV t (side_q t e)). rewrite X4. rewrite (mv_neg n s d S Sh) by auto.
      destruct (mv 1 (side_c t e)), (mv 1 (side_q t e)). unfold padd, pneg in *. cbn [fst snd] in *. injection T2 as T3 T4. f_equal; lra. }
  destruct G as (G1 & G2). eapply safe_bind; [apply (corner_same fuel arb_precision_fast h H G1 G2)|]. intros b Eb. cbv beta in Eb. subst b. reflexivity.
Qed.

Lemma flips_none fuel coll l : (forall h, In h l -> (h < n)%nat) -> (forall h, In h l -> (h / 2 = e / 2 \/ fV s h / 2 = e / 2 -> mem coll (e / 2) = true)%nat) ->
  safe (fun f => f = None) (find_flip o approx ops fuel s d coll (map (fun h => (h, fV s h)) l) None).
Proof.
  induction l as [|h l IH]; intros H M; [reflexivity|]. cbn [map find_flip]. eapply safe_bind; [apply (corner_none fuel coll h); [auto with datatypes|apply M; now left]|]. intros f Ef. cbv beta in Ef. subst f. apply IH; [auto with datatypes|]. intros g I. apply M. now right.
Qed.

Lemma scan_one fuel vs : (forall v, In v vs -> In v (tverts (fT s))) -> forall coll, (forall i, mem coll i = true -> i = e / 2)%nat ->
  safe (fun r => snd r = None /\ (forall i, mem (fst r) i = true -> i = e / 2)%nat /\ (forall v, In v vs -> scontains v e = true -> mem (fst r) (e / 2) = true) /\ (mem coll (e / 2) = true -> mem (fst r) (e / 2) = true))
    (scan o approx ops fuel s d vs coll None).
Proof.
  induction vs as [|v r IH]; intros H coll Mc; cbn [scan].
  { cbn. repeat (split; auto); intros v []. }
  destruct (vertex_orbit n s S v) as (k & -> & Pk & Ik); auto with datatypes. cbn [bind].
  assert (Hk : forall h, In h (orbit_list (fV s) (sbegin v) k) -> (h < n)%nat) by (intros h Q; now apply Ik).
  destruct (collapsing_one _ Hk coll) as (coll' & -> & Mc'). cbn [bind]. rewrite consecutive_orbit by auto.
  assert (At : forall h, In h (orbit_list (fV s) (sbegin v) k) -> (h / 2 = e / 2)%nat -> mem coll' (e / 2) = true).
  { intros h I E. rewrite Mc'. unfold found_edge. rewrite Nat.eqb_refl. assert (Q : at_e (orbit_list (fV s) (sbegin v) k) = true) by (apply existsb_exists; exists h; split; auto; now apply Nat.eqb_eq). rewrite Q. apply orb_true_r. }
  eapply safe_bind.
  - apply (flips_none fuel coll' _ Hk). intros h I [E|E]; [now apply (At h)|]. apply (At (fV s h)); auto.
    assert (Iv : In v (tverts (fT s))) by auto with datatypes. apply Ik in I as (Hh & Cv). apply Ik. split; [now apply (fV_lt n s h S)|]. rewrite (vertex_next n s v h S Iv Hh). exact Cv.
  - intros f Ef. cbv beta in Ef. subst f. eapply safe_weaken; [apply IH; auto with datatypes|].
    + intros i Mi. rewrite Mc' in Mi. unfold found_edge in Mi. apply orb_true_iff in Mi as [Mi|Mi]; [now apply Mc|]. apply andb_prop in Mi as (Mi & _). now apply Nat.eqb_eq.
    + intros (c & f) (A1 & A2 & A3 & A4). cbn [fst snd] in *. split; auto. split; auto. split.
      * intros v' [<-|I'] Ce; [|now apply (A3 v')]. apply A4. apply (At e); auto. apply Ik. auto.
      * intros Q. apply A4. rewrite Mc'. unfold found_edge. now rewrite Q.
Qed.

Lemma shift_collapse quot fuel : (e = 2 * (e / 2))%nat ->
  safe (fun u => exists label, flat_surface (n - 6) u /\ closed_surface (n - 6) u /\ collapsed n t e (fT u) label /\
    forall h, (h < n)%nat -> ~ dropped t e h -> vv u (label h) = mv 1 h) (shift_add o approx ops quot fuel s d).
Proof.
  intros Ev. destruct fuel as [|k]; [exact I|]. cbn [shift_add].
  eapply safe_bind; [apply (scan_one k (tverts (fT s)))|]; auto; [intros i Q; unfold mem, sempty_set in Q; destruct i; discriminate|].
  intros (coll & f) (A1 & A2 & A3 & _). cbn [fst snd] in *. subst f.
  destruct (finish_collapse n s d e S C Sh He Fi Ev Z P coll) as (u & label & -> & R).
  - intros i. split; [apply A2|]. intros ->. destruct (vertex_of n s e S He) as (v & Iv & Cv). now apply (A3 v).
  - exists label. exact R.
Qed.
End simple.
