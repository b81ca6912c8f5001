(** * Facts about collapsing an edge *)
From Coq Require Import List Arith Bool Lia Permutation.
From Verif Require Import Base HalfEdge HalfEdgeFacts Perm PermSpec PermFacts PermCycles PermLemmas IndexedSet IndexedSetSpec IndexedSetFacts
  Combinatorial CombinatorialSpec CombinatorialFacts FlatFacts Tracked TrackedProps Collapse CollapseSpec.
Import ListNotations.

Lemma ten (e e_ x x_ p p_ c c_ q q_ : nat) : NoDup [e; e_; x; x_; p; p_; c; c_; q; q_] ->
  e <> e_ /\ e <> x /\ e <> x_ /\ e <> p /\ e <> p_ /\ e <> c /\ e <> c_ /\ e <> q /\ e <> q_ /\ e_ <> x /\ e_ <> x_ /\ e_ <> p /\ e_ <> p_ /\ e_ <> c /\ e_ <> c_ /\ e_ <> q /\ e_ <> q_ /\ x <> x_ /\ x <> p /\ x <> p_ /\ x <> c /\ x <> c_ /\ x <> q /\ x <> q_ /\ x_ <> p /\ x_ <> p_ /\ x_ <> c /\ x_ <> c_ /\ x_ <> q /\ x_ <> q_ /\ p <> p_ /\ p <> c /\ p <> c_ /\ p <> q /\ p <> q_ /\ p_ <> c /\ p_ <> c_ /\ p_ <> q /\ p_ <> q_ /\ c <> c_ /\ c <> q /\ c <> q_ /\ c_ <> q /\ c_ <> q_ /\ q <> q_.
Proof.
  intros N. assert (G : forall i j, i < j < 10 -> nth i [e; e_; x; x_; p; p_; c; c_; q; q_] 0 <> nth j [e; e_; x; x_; p; p_; c; c_; q; q_] 0).
  { intros i j H E. assert (i = j); [|lia]. apply (proj1 (NoDup_nth [e; e_; x; x_; p; p_; c; c_; q; q_] 0) N); cbn [length]; auto; lia. }
  repeat split; match goal with |- ?a <> ?b => idtac end.
  - exact (G 0 1 ltac:(lia)).
  - exact (G 0 2 ltac:(lia)).
  - exact (G 0 3 ltac:(lia)).
  - exact (G 0 4 ltac:(lia)).
  - exact (G 0 5 ltac:(lia)).
  - exact (G 0 6 ltac:(lia)).
  - exact (G 0 7 ltac:(lia)).
  - exact (G 0 8 ltac:(lia)).
  - exact (G 0 9 ltac:(lia)).
  - exact (G 1 2 ltac:(lia)).
  - exact (G 1 3 ltac:(lia)).
  - exact (G 1 4 ltac:(lia)).
  - exact (G 1 5 ltac:(lia)).
  - exact (G 1 6 ltac:(lia)).
  - exact (G 1 7 ltac:(lia)).
  - exact (G 1 8 ltac:(lia)).
  - exact (G 1 9 ltac:(lia)).
  - exact (G 2 3 ltac:(lia)).
  - exact (G 2 4 ltac:(lia)).
  - exact (G 2 5 ltac:(lia)).
  - exact (G 2 6 ltac:(lia)).
  - exact (G 2 7 ltac:(lia)).
  - exact (G 2 8 ltac:(lia)).
  - exact (G 2 9 ltac:(lia)).
  - exact (G 3 4 ltac:(lia)).
  - exact (G 3 5 ltac:(lia)).
  - exact (G 3 6 ltac:(lia)).
  - exact (G 3 7 ltac:(lia)).
  - exact (G 3 8 ltac:(lia)).
  - exact (G 3 9 ltac:(lia)).
  - exact (G 4 5 ltac:(lia)).
  - exact (G 4 6 ltac:(lia)).
  - exact (G 4 7 ltac:(lia)).
  - exact (G 4 8 ltac:(lia)).
  - exact (G 4 9 ltac:(lia)).
  - exact (G 5 6 ltac:(lia)).
  - exact (G 5 7 ltac:(lia)).
  - exact (G 5 8 ltac:(lia)).
  - exact (G 5 9 ltac:(lia)).
  - exact (G 6 7 ltac:(lia)).
  - exact (G 6 8 ltac:(lia)).
  - exact (G 6 9 ltac:(lia)).
  - exact (G 7 8 ltac:(lia)).
  - exact (G 7 9 ltac:(lia)).
  - exact (G 8 9 ltac:(lia)).
Qed.

(** All elements of a list of pairwise different elements differ. *)
Ltac distinct N := repeat (let M := fresh "M" in apply NoDup_cons_iff in N as (M & N); cbn [In] in M); clear N;
  repeat match goal with M : ~ (_ \/ _) |- _ => let M1 := fresh "M" in let M2 := fresh "M" in apply Decidable.not_or in M as (M1 & M2) end;
  repeat match goal with M : ~ False |- _ => clear M end.

(** ** Multiplication with transpositions *)
Lemma rmul2 n F a b : wfp n F -> a < n -> b < n -> a <> b ->
  exists G, rmul_cycle F [a; b] = Ok G /\ wfp n G /\ fw G a = fw F b /\ fw G b = fw F a /\ forall i, i < n -> i <> a -> i <> b -> fw G i = fw F i.
Proof.
  intros W A B N. destruct (rmul_cycle_Ok n F [a; b] W) as (G & E & WG & H).
  - intros x [<-|[<-|[]]]; auto.
  - left. repeat constructor; cbn; intuition.
  - exists G. split; auto. split; auto. split; [|split].
    + rewrite H by auto. f_equal. unfold cyclic; cbn. now rewrite Nat.eqb_refl.
    + rewrite H by auto. f_equal. unfold cyclic; cbn. destruct (Nat.eqb_spec b a); [congruence|]. now rewrite Nat.eqb_refl.
    + intros i Hi N1 N2. rewrite H by auto. f_equal. unfold cyclic; cbn. destruct (Nat.eqb_spec i a); [congruence|]. destruct (Nat.eqb_spec i b); [congruence|]. reflexivity.
Qed.
Lemma bw_of n F a b : wfp n F -> a < n -> fw F a = b -> bw F b = a.
Proof. intros W A <-. now apply (bw_fw n). Qed.

(** ** Removing the two triangles from the faces *)
Section remove.
Variables (n : nat) (t : tri) (e : nat).
Hypothesis W : well_formed n t.
Hypothesis Cl : no_boundary n t.
Hypothesis He : e < n.
Hypothesis Fi : five_edges t e.
Local Notation f := (nF t).
Local Notation x := (side_x t e).
Local Notation p := (side_p t e).
Local Notation c := (side_c t e).
Local Notation q := (side_q t e).
Let Hn : neg e < n := neg_ltn n t W e He.
Let Hx : x < n := nF_lt n t W e He.
Let Hp : p < n := nF_lt n t W x Hx.
Let Hc : c < n := nF_lt n t W (neg e) Hn.
Let Hq : q < n := nF_lt n t W c Hc.
Let Hx_ : neg x < n := neg_ltn n t W x Hx.
Let Hq_ : neg q < n := neg_ltn n t W q Hq.
Let fe : f e = x. Proof. reflexivity. Qed.
Let fx : f x = p. Proof. reflexivity. Qed.
Let fp : f p = e. Proof. apply (wf_triangle n t W); auto. Qed.
Let fn : f (neg e) = c. Proof. reflexivity. Qed.
Let fc : f c = q. Proof. reflexivity. Qed.
Let fq : f q = neg e. Proof. apply (wf_triangle n t W); auto. Qed.

Lemma remove_first : exists F Z, remove_face (tF t) e = Ok F /\ wfp n F /\ Z < n /\ f Z = neg x /\ fw F Z = p /\ fw F p = f (neg x) /\ fw F x = neg x /\ fw F (neg x) = x /\ fw F e = e /\
  forall i, i < n -> i <> Z -> i <> p -> i <> x -> i <> neg x -> i <> e -> fw F i = f i.
Proof.
  destruct (ten _ _ _ _ _ _ _ _ _ _ Fi) as (N01 & N02 & N03 & N04 & N05 & N06 & N07 & N08 & N09 & N12 & N13 & N14 & N15 & N16 & N17 & N18 & N19 & N23 & N24 & N25 & N26 & N27 & N28 & N29 & N34 & N35 & N36 & N37 & N38 & N39 & N45 & N46 & N47 & N48 & N49 & N56 & N57 & N58 & N59 & N67 & N68 & N69 & N78 & N79 & N89).
  set (Z := pF t (neg x)). assert (HZ : Z < n) by (apply (pF_lt n t W); auto). assert (fZ : f Z = neg x) by (apply (nF_pF n t W); auto).
  assert (Z1 : Z <> e) by (intros E; rewrite E in fZ; congruence). assert (Z2 : Z <> x) by (intros E; rewrite E in fZ; congruence).
  assert (Z3 : Z <> p) by (intros E; rewrite E in fZ; congruence). assert (Z4 : Z <> neg x) by (intros E; rewrite E in fZ; now apply (Cl (neg x))).
  unfold remove_face. assert (WF := wfF n t W).
  rewrite (ppre_Ok n _ e) by (auto; apply WF). cbn [bind]. replace (bw (tF t) e) with p by (symmetry; apply (bw_of n (tF t) p e WF Hp fp)).
  rewrite (papp_Ok n _ e) by (auto; apply WF). cbn [bind]. change (fw (tF t) e) with x.
  rewrite (ppre_Ok n) by (auto; apply WF). cbn [bind]. change (bw (tF t) (neg x)) with Z.
  destruct (rmul2 n (tF t) p (neg x) WF Hp Hx_ ltac:(congruence)) as (F1 & -> & W1 & A1 & A2 & A3). cbn [bind].
  change (fw (tF t)) with f in A1, A2, A3.
  destruct (rmul2 n F1 Z x W1 HZ Hx Z2) as (F2 & -> & W2 & B1 & B2 & B3). cbn [bind].
  assert (B4 : fw F2 (neg x) = e) by (rewrite B3 by congruence; congruence).
  rewrite (ppre_Ok n) by (auto; apply W2). cbn [bind]. rewrite (bw_of n F2 (neg x) e W2 Hx_ B4).
  destruct (rmul2 n F2 (neg x) e W2 Hx_ He ltac:(congruence)) as (F3 & -> & W3 & C1 & C2 & C3).
  exists F3, Z. split; auto. split; auto. split; auto. split; auto. split; [|split; [|split; [|split; [|split]]]].
  - rewrite C3, B1, A3 by congruence. reflexivity.
  - rewrite C3, B3, A1 by congruence. reflexivity.
  - rewrite C3, B2, A3 by congruence. auto.
  - rewrite C1, B3, A3 by congruence. reflexivity.
  - congruence.
  - intros i Hi I1 I2 I3 I4 I5. rewrite C3, B3, A3 by congruence. reflexivity.
Qed.

Lemma five_p : keep_p t e = p.
Proof. unfold keep_p. destruct (Nat.eqb_spec p (neg q)); auto. exfalso. unfold five_edges in Fi. distinct Fi. congruence. Qed.
Lemma five_c : keep_c t e = c.
Proof. unfold keep_c. destruct (Nat.eqb_spec c (neg x)); auto. exfalso. unfold five_edges in Fi. distinct Fi. congruence. Qed.

Lemma remove_five : exists F1 F, remove_face (tF t) e = Ok F1 /\ remove_face' F1 (neg e) = Ok F /\ wfp n F /\
  fw F e = e /\ fw F (neg e) = neg e /\ fw F x = neg x /\ fw F (neg x) = x /\ fw F q = neg q /\ fw F (neg q) = q /\
  forall h, h < n -> ~ vanishes t e h -> fw F (rep t e h) = rep t e (f h).
Proof.
  destruct (ten _ _ _ _ _ _ _ _ _ _ Fi) as (N01 & N02 & N03 & N04 & N05 & N06 & N07 & N08 & N09 & N12 & N13 & N14 & N15 & N16 & N17 & N18 & N19 & N23 & N24 & N25 & N26 & N27 & N28 & N29 & N34 & N35 & N36 & N37 & N38 & N39 & N45 & N46 & N47 & N48 & N49 & N56 & N57 & N58 & N59 & N67 & N68 & N69 & N78 & N79 & N89).
  destruct remove_first as (F3 & Z & E3 & W3 & HZ & fZ & D1 & D2 & D3 & D4 & D5 & D6). exists F3. rewrite E3.
  assert (Z1 : Z <> e) by (intros E; rewrite E in fZ; congruence). assert (Z2 : Z <> x) by (intros E; rewrite E in fZ; congruence).
  assert (Z3 : Z <> p) by (intros E; rewrite E in fZ; congruence). assert (Z4 : Z <> neg x) by (intros E; rewrite E in fZ; now apply (Cl (neg x))).
  assert (Z5 : Z <> neg e) by (intros E; rewrite E in fZ; congruence). assert (Z6 : Z <> c) by (intros E; rewrite E in fZ; congruence). assert (Z7 : Z <> q) by (intros E; rewrite E in fZ; congruence).
  assert (G1 : fw F3 (neg e) = c) by (rewrite D6 by congruence; auto). assert (G2 : fw F3 q = neg e) by (rewrite D6 by congruence; auto). assert (G3 : fw F3 c = q) by (rewrite D6 by congruence; auto).
  assert (Gy : fw F3 (neg q) <> neg q). { destruct (Nat.eq_dec (neg q) Z) as [->|N]; [congruence|]. rewrite D6 by congruence. now apply Cl. }
  set (V := bw F3 (neg q)). assert (HV : V < n) by (apply (bw_lt n); auto). assert (fV : fw F3 V = neg q) by (apply (fw_bw n); auto).
  assert (V1 : V <> c) by (intros E; rewrite E in fV; congruence). assert (V2 : V <> neg q) by (intros E; rewrite E in fV; congruence).
  assert (V3 : V <> neg e) by (intros E; rewrite E in fV; congruence). assert (V4 : V <> q) by (intros E; rewrite E in fV; congruence).
  assert (V5 : V <> e) by (intros E; rewrite E in fV; congruence). assert (V6 : V <> x) by (intros E; rewrite E in fV; congruence). assert (V7 : V <> neg x) by (intros E; rewrite E in fV; congruence).
  unfold remove_face'. rewrite (papp_Ok n) by (auto; apply W3). cbn [bind]. rewrite G1. rewrite (ppre_Ok n) by (auto; apply W3). cbn [bind]. rewrite (bw_of n F3 q (neg e) W3 Hq G2).
  rewrite (ppre_Ok n) by (auto; apply W3). cbn [bind]. fold V.
  destruct (rmul2 n F3 c (neg q) W3 Hc Hq_ ltac:(congruence)) as (F4 & -> & W4 & A1 & A2 & A3). cbn [bind].
  destruct (rmul2 n F4 V (neg e) W4 HV Hn V3) as (F5 & -> & W5 & B1 & B2 & B3). cbn [bind].
  assert (B4 : fw F5 q = neg e) by (rewrite B3, A3 by congruence; auto).
  rewrite (ppre_Ok n) by (auto; apply W5). cbn [bind]. rewrite (bw_of n F5 q (neg e) W5 Hq B4).
  destruct (rmul2 n F5 q (neg e) W5 Hq Hn ltac:(congruence)) as (F6 & -> & W6 & C1 & C2 & C3).
  assert (K1 : fw F6 V = c) by (rewrite C3, B1, A3 by congruence; auto). assert (K2 : fw F6 c = fw F3 (neg q)) by (rewrite C3, B3, A1 by congruence; auto).
  assert (K3 : fw F6 (neg q) = q) by (rewrite C3, B3, A2 by congruence; auto). assert (K4 : fw F6 q = neg q) by (rewrite C1, B2, A3 by congruence; auto). assert (K5 : fw F6 (neg e) = neg e) by congruence.
  assert (K6 : forall i, i < n -> i <> V -> i <> c -> i <> neg q -> i <> q -> i <> neg e -> fw F6 i = fw F3 i) by (intros i Hi I1 I2 I3 I4 I5; rewrite C3, B3, A3 by congruence; reflexivity).
  exists F6. split; auto. split; auto. split; auto. split; [rewrite K6 by congruence; auto|]. split; auto. split; [rewrite K6 by congruence; auto|]. split; [rewrite K6 by congruence; auto|]. split; auto. split; auto.
  intros h Hh Nh. assert (h <> e /\ h <> x /\ h <> p /\ h <> neg e /\ h <> c /\ h <> q) as (h1 & h2 & h3 & h4 & h5 & h6) by (repeat split; intros ->; apply Nh; cbn; tauto).
  clear A1 A2 A3 B1 B2 B3 B4 C1 C2 C3 E3. unfold rep. rewrite five_p, five_c.
  destruct (Nat.eqb_spec h (neg x)) as [->|h7]; [|destruct (Nat.eqb_spec h (neg q)) as [->|h8]].
  - destruct (Nat.eq_dec p V) as [E|N].
    + rewrite <- E in fV. rewrite D2 in fV. rewrite fV. destruct (Nat.eqb_spec (neg q) (neg x)); [congruence|]. rewrite Nat.eqb_refl. congruence.
    + rewrite K6, D2 by congruence. destruct (Nat.eqb_spec (f (neg x)) (neg x)) as [E|_]; [exfalso; now apply (Cl (neg x))|].
      destruct (Nat.eqb_spec (f (neg x)) (neg q)) as [E|_]; auto. exfalso. apply N. apply (fw_inj n F3 W3); congruence.
  - rewrite K2. destruct (Nat.eq_dec (neg q) Z) as [E|N].
    + rewrite E, D1, fZ, Nat.eqb_refl. reflexivity.
    + rewrite D6 by congruence. destruct (Nat.eqb_spec (f (neg q)) (neg x)) as [E|_]; [exfalso; apply N, (nF_inj n t W); congruence|].
      destruct (Nat.eqb_spec (f (neg q)) (neg q)) as [E|_]; auto. exfalso. now apply (Cl (neg q)).
  - destruct (Nat.eq_dec h V) as [E|N].
    + rewrite E in *. rewrite K1. destruct (Nat.eq_dec V Z) as [E'|N']; [rewrite E' in fV; congruence|]. rewrite D6 in fV by congruence. rewrite fV.
      destruct (Nat.eqb_spec (neg q) (neg x)); [congruence|]. now rewrite Nat.eqb_refl.
    + rewrite K6 by congruence. destruct (Nat.eq_dec h Z) as [E|N'].
      * rewrite E, D1, fZ, Nat.eqb_refl. reflexivity.
      * rewrite D6 by congruence. destruct (Nat.eqb_spec (f h) (neg x)) as [E|_]; [exfalso; apply N', (nF_inj n t W); congruence|].
        destruct (Nat.eqb_spec (f h) (neg q)) as [E|_]; auto. exfalso. apply N, (fw_inj n F3 W3); auto. rewrite D6 by congruence. congruence.
Qed.
End remove.

(** The same when the triangles form a cylinder. *)
Section cylinder.
Variables (n : nat) (t : tri) (e : nat).
Hypothesis W : well_formed n t.
Hypothesis Cl : no_boundary n t.
Hypothesis He : e < n.
Local Notation f := (nF t).
Local Notation x := (side_x t e).
Local Notation p := (side_p t e).
Local Notation c := (side_c t e).
Local Notation q := (side_q t e).
Let Hn : neg e < n := neg_ltn n t W e He.
Let Hx : x < n := nF_lt n t W e He.
Let Hp : p < n := nF_lt n t W x Hx.
Let Hc : c < n := nF_lt n t W (neg e) Hn.
Let Hq : q < n := nF_lt n t W c Hc.
Let Hx_ : neg x < n := neg_ltn n t W x Hx.
Let Hq_ : neg q < n := neg_ltn n t W q Hq.
Let fe : f e = x. Proof. reflexivity. Qed.
Let fx : f x = p. Proof. reflexivity. Qed.
Let fp : f p = e. Proof. apply (wf_triangle n t W); auto. Qed.
Let fn : f (neg e) = c. Proof. reflexivity. Qed.
Let fc : f c = q. Proof. reflexivity. Qed.
Let fq : f q = neg e. Proof. apply (wf_triangle n t W); auto. Qed.

Lemma remove_cx : c = neg x -> NoDup [e; neg e; x; neg x; p; neg p; q; neg q] -> exists F1 F, remove_face (tF t) e = Ok F1 /\ remove_face' F1 (neg e) = Ok F /\ wfp n F /\
  fw F e = e /\ fw F (neg e) = neg e /\ fw F x = neg x /\ fw F (neg x) = x /\ fw F q = neg q /\ fw F (neg q) = q /\
  forall h, h < n -> ~ vanishes t e h -> fw F (rep t e h) = rep t e (f h).
Proof.
  intros Ec N. distinct N. assert (WF := wfF n t W). assert (fn' : f (neg e) = neg x) by congruence. assert (fc' : f (neg x) = q) by (rewrite <- Ec; auto).
  unfold remove_face. rewrite (ppre_Ok n _ e) by (auto; apply WF). cbn [bind]. replace (bw (tF t) e) with p by (symmetry; apply (bw_of n (tF t) p e WF Hp fp)).
  rewrite (papp_Ok n _ e) by (auto; apply WF). cbn [bind]. change (fw (tF t) e) with x.
  rewrite (ppre_Ok n) by (auto; apply WF). cbn [bind]. rewrite (bw_of n (tF t) (neg e) (neg x) WF Hn fn').
  destruct (rmul2 n (tF t) p (neg x) WF Hp Hx_ ltac:(congruence)) as (F1 & -> & W1 & A1 & A2 & A3). cbn [bind]. change (fw (tF t)) with f in A1, A2, A3.
  destruct (rmul2 n F1 (neg e) x W1 Hn Hx ltac:(congruence)) as (F2 & -> & W2 & B1 & B2 & B3). cbn [bind].
  assert (B4 : fw F2 (neg x) = e) by (rewrite B3 by congruence; congruence).
  rewrite (ppre_Ok n) by (auto; apply W2). cbn [bind]. rewrite (bw_of n F2 (neg x) e W2 Hx_ B4).
  destruct (rmul2 n F2 (neg x) e W2 Hx_ He ltac:(congruence)) as (F3 & -> & W3 & C1 & C2 & C3).
  assert (D1 : fw F3 (neg e) = p) by (rewrite C3, B1, A3 by congruence; auto). assert (D2 : fw F3 p = q) by (rewrite C3, B3, A1 by congruence; auto).
  assert (D3 : fw F3 x = neg x) by (rewrite C3, B2, A3 by congruence; auto). assert (D4 : fw F3 (neg x) = x) by (rewrite C1, B3, A3 by congruence; auto). assert (D5 : fw F3 e = e) by congruence.
  assert (D6 : forall i, i < n -> i <> neg e -> i <> p -> i <> x -> i <> neg x -> i <> e -> fw F3 i = f i) by (intros i Hi I1 I2 I3 I4 I5; rewrite C3, B3, A3 by congruence; reflexivity).
  clear A1 A2 A3 B1 B2 B3 B4 C1 C2 C3. assert (G2 : fw F3 q = neg e) by (rewrite D6 by congruence; auto).
  set (V := pF t (neg q)). assert (HV : V < n) by (apply (pF_lt n t W); auto). assert (fV : f V = neg q) by (apply (nF_pF n t W); auto).
  assert (V1 : V <> neg e) by (intros E; rewrite E in fV; congruence). assert (V2 : V <> p) by (intros E; rewrite E in fV; congruence). assert (V3 : V <> x) by (intros E; rewrite E in fV; congruence).
  assert (V4 : V <> neg x) by (intros E; rewrite E in fV; congruence). assert (V5 : V <> e) by (intros E; rewrite E in fV; congruence). assert (V6 : V <> q) by (intros E; rewrite E in fV; congruence). assert (V7 : V <> neg q) by (intros E; rewrite E in fV; now apply (Cl (neg q))).
  assert (GV : fw F3 V = neg q) by (rewrite D6 by congruence; auto). assert (Gq : fw F3 (neg q) = f (neg q)) by (rewrite D6 by congruence; auto).
  exists F3. unfold remove_face'. rewrite (papp_Ok n) by (auto; apply W3). cbn [bind]. rewrite D1. rewrite (ppre_Ok n) by (auto; apply W3). cbn [bind]. rewrite (bw_of n F3 q (neg e) W3 Hq G2).
  rewrite (ppre_Ok n) by (auto; apply W3). cbn [bind]. rewrite (bw_of n F3 V (neg q) W3 HV GV).
  destruct (rmul2 n F3 p (neg q) W3 Hp Hq_ ltac:(congruence)) as (F4 & -> & W4 & A1 & A2 & A3). cbn [bind].
  destruct (rmul2 n F4 V (neg e) W4 HV Hn V1) as (F5 & -> & W5 & B1 & B2 & B3). cbn [bind].
  assert (B4 : fw F5 q = neg e) by (rewrite B3, A3 by congruence; auto).
  rewrite (ppre_Ok n) by (auto; apply W5). cbn [bind]. rewrite (bw_of n F5 q (neg e) W5 Hq B4).
  destruct (rmul2 n F5 q (neg e) W5 Hq Hn ltac:(congruence)) as (F6 & -> & W6 & C1 & C2 & C3).
  assert (K1 : fw F6 V = p) by (rewrite C3, B1, A3 by congruence; auto). assert (K2 : fw F6 p = f (neg q)) by (rewrite C3, B3, A1 by congruence; auto).
  assert (K3 : fw F6 (neg q) = q) by (rewrite C3, B3, A2 by congruence; auto). assert (K4 : fw F6 q = neg q) by (rewrite C1, B2, A3 by congruence; auto). assert (K5 : fw F6 (neg e) = neg e) by congruence.
  assert (K6 : forall i, i < n -> i <> V -> i <> p -> i <> neg q -> i <> q -> i <> neg e -> fw F6 i = fw F3 i) by (intros i Hi I1 I2 I3 I4 I5; rewrite C3, B3, A3 by congruence; reflexivity).
  clear A1 A2 A3 B1 B2 B3 B4 C1 C2 C3.
  exists F6. split; auto. split; auto. split; auto. split; [rewrite K6 by congruence; auto|]. split; auto. split; [rewrite K6 by congruence; auto|]. split; [rewrite K6 by congruence; auto|]. split; auto. split; auto.
  intros h Hh Nh. assert (h <> e /\ h <> x /\ h <> p /\ h <> neg e /\ h <> neg x /\ h <> q) as (h1 & h2 & h3 & h4 & h5 & h6) by (rewrite <- Ec; repeat split; intros ->; apply Nh; cbn; tauto).
  assert (fh : f h <> neg x) by (intros E; apply h4; apply (nF_inj n t W); congruence).
  unfold rep, keep_c. rewrite Ec, Nat.eqb_refl. rewrite (proj2 (Nat.eqb_neq h (neg x))), (proj2 (Nat.eqb_neq (f h) (neg x))) by auto.
  destruct (Nat.eqb_spec h (neg q)) as [->|h8].
  - rewrite K2. destruct (Nat.eqb_spec (f (neg q)) (neg q)) as [E|_]; auto. exfalso. now apply (Cl (neg q)).
  - destruct (Nat.eqb_spec (f h) (neg q)) as [E|E]; [replace h with V; auto; apply (nF_inj n t W); congruence|].
    rewrite K6, D6; auto. intros Q. apply E. congruence.
Qed.

Lemma remove_qp : q = neg p -> NoDup [e; neg e; x; neg x; p; neg p; c; neg c] -> exists F1 F, remove_face (tF t) e = Ok F1 /\ remove_face' F1 (neg e) = Ok F /\ wfp n F /\
  fw F e = e /\ fw F (neg e) = neg e /\ fw F x = neg x /\ fw F (neg x) = x /\ fw F q = neg q /\ fw F (neg q) = q /\
  forall h, h < n -> ~ vanishes t e h -> fw F (rep t e h) = rep t e (f h).
Proof.
  intros Eq N. distinct N. assert (WF := wfF n t W). assert (nq : neg q = p) by (rewrite Eq; apply neg_neg).
  set (Z := pF t (neg x)). assert (HZ : Z < n) by (apply (pF_lt n t W); auto). assert (fZ : f Z = neg x) by (apply (nF_pF n t W); auto).
  assert (Z1 : Z <> e) by (intros E; rewrite E in fZ; congruence). assert (Z2 : Z <> x) by (intros E; rewrite E in fZ; congruence). assert (Z3 : Z <> p) by (intros E; rewrite E in fZ; congruence). assert (Z4 : Z <> neg x) by (intros E; rewrite E in fZ; now apply (Cl (neg x))).
  assert (Z5 : Z <> neg e) by (intros E; rewrite E in fZ; congruence). assert (Z6 : Z <> c) by (intros E; rewrite E in fZ; congruence). assert (Z7 : Z <> q) by (intros E; rewrite E in fZ; congruence).
  unfold remove_face. rewrite (ppre_Ok n _ e) by (auto; apply WF). cbn [bind]. replace (bw (tF t) e) with p by (symmetry; apply (bw_of n (tF t) p e WF Hp fp)).
  rewrite (papp_Ok n _ e) by (auto; apply WF). cbn [bind]. change (fw (tF t) e) with x.
  rewrite (ppre_Ok n) by (auto; apply WF). cbn [bind]. change (bw (tF t) (neg x)) with Z.
  destruct (rmul2 n (tF t) p (neg x) WF Hp Hx_ ltac:(congruence)) as (F1 & -> & W1 & A1 & A2 & A3). cbn [bind]. change (fw (tF t)) with f in A1, A2, A3.
  destruct (rmul2 n F1 Z x W1 HZ Hx Z2) as (F2 & -> & W2 & B1 & B2 & B3). cbn [bind].
  assert (B4 : fw F2 (neg x) = e) by (rewrite B3 by congruence; congruence).
  rewrite (ppre_Ok n) by (auto; apply W2). cbn [bind]. rewrite (bw_of n F2 (neg x) e W2 Hx_ B4).
  destruct (rmul2 n F2 (neg x) e W2 Hx_ He ltac:(congruence)) as (F3 & -> & W3 & C1 & C2 & C3).
  assert (D1 : fw F3 Z = p) by (rewrite C3, B1, A3 by congruence; auto). assert (D2 : fw F3 p = f (neg x)) by (rewrite C3, B3, A1 by congruence; auto).
  assert (D3 : fw F3 x = neg x) by (rewrite C3, B2, A3 by congruence; auto). assert (D4 : fw F3 (neg x) = x) by (rewrite C1, B3, A3 by congruence; auto). assert (D5 : fw F3 e = e) by congruence.
  assert (D6 : forall i, i < n -> i <> Z -> i <> p -> i <> x -> i <> neg x -> i <> e -> fw F3 i = f i) by (intros i Hi I1 I2 I3 I4 I5; rewrite C3, B3, A3 by congruence; reflexivity).
  clear A1 A2 A3 B1 B2 B3 B4 C1 C2 C3.
  assert (G1 : fw F3 (neg e) = c) by (rewrite D6 by congruence; auto). assert (G2 : fw F3 q = neg e) by (rewrite D6 by congruence; auto). assert (G3 : fw F3 c = q) by (rewrite D6 by congruence; auto).
  exists F3. unfold remove_face'. rewrite (papp_Ok n) by (auto; apply W3). cbn [bind]. rewrite G1. rewrite (ppre_Ok n) by (auto; apply W3). cbn [bind]. rewrite (bw_of n F3 q (neg e) W3 Hq G2).
  rewrite (ppre_Ok n) by (auto; apply W3). cbn [bind]. rewrite nq. rewrite (bw_of n F3 Z p W3 HZ D1).
  destruct (rmul2 n F3 c p W3 Hc Hp ltac:(congruence)) as (F4 & -> & W4 & A1 & A2 & A3). cbn [bind].
  destruct (rmul2 n F4 Z (neg e) W4 HZ Hn Z5) as (F5 & -> & W5 & B1 & B2 & B3). cbn [bind].
  assert (B4 : fw F5 q = neg e) by (rewrite B3, A3 by congruence; auto).
  rewrite (ppre_Ok n) by (auto; apply W5). cbn [bind]. rewrite (bw_of n F5 q (neg e) W5 Hq B4).
  destruct (rmul2 n F5 q (neg e) W5 Hq Hn ltac:(congruence)) as (F6 & -> & W6 & C1 & C2 & C3).
  assert (K1 : fw F6 Z = c) by (rewrite C3, B1, A3 by congruence; auto). assert (K2 : fw F6 c = f (neg x)) by (rewrite C3, B3, A1 by congruence; auto).
  assert (K3 : fw F6 p = q) by (rewrite C3, B3, A2 by congruence; auto). assert (K4 : fw F6 q = p) by (rewrite C1, B2, A3 by congruence; auto). assert (K5 : fw F6 (neg e) = neg e) by congruence.
  assert (K6 : forall i, i < n -> i <> Z -> i <> c -> i <> p -> i <> q -> i <> neg e -> fw F6 i = fw F3 i) by (intros i Hi I1 I2 I3 I4 I5; rewrite C3, B3, A3 by congruence; reflexivity).
  clear A1 A2 A3 B1 B2 B3 B4 C1 C2 C3.
  exists F6. split; auto. split; auto. split; auto. split; [rewrite K6 by congruence; auto|]. split; auto. split; [rewrite K6 by congruence; auto|]. split; [rewrite K6 by congruence; auto|]. split; auto. split; auto.
  intros h Hh Nh. assert (h <> e /\ h <> x /\ h <> p /\ h <> neg e /\ h <> c /\ h <> q) as (h1 & h2 & h3 & h4 & h5 & h6) by (repeat split; intros ->; apply Nh; cbn; tauto).
  assert (fh : f h <> p) by (intros E; apply h2; apply (nF_inj n t W); congruence).
  unfold rep, keep_p. rewrite nq, Nat.eqb_refl. rewrite (proj2 (Nat.eqb_neq h p)), (proj2 (Nat.eqb_neq (f h) p)) by auto.
  destruct (Nat.eqb_spec h (neg x)) as [->|h8].
  - rewrite K2. destruct (Nat.eqb_spec (f (neg x)) (neg x)) as [E|_]; auto. exfalso. now apply (Cl (neg x)).
  - destruct (Nat.eqb_spec (f h) (neg x)) as [E|E]; [replace h with Z; auto; apply (nF_inj n t W); congruence|].
    assert (h <> Z) by (intros Q; apply E; congruence). rewrite K6, D6; auto.
Qed.
Lemma remove_both : collapsible t e -> exists F1 F, remove_face (tF t) e = Ok F1 /\ remove_face' F1 (neg e) = Ok F /\ wfp n F /\
  fw F e = e /\ fw F (neg e) = neg e /\ fw F x = neg x /\ fw F (neg x) = x /\ fw F q = neg q /\ fw F (neg q) = q /\
  forall h, h < n -> ~ vanishes t e h -> fw F (rep t e h) = rep t e (f h).
Proof. intros [Fi|[(E & N)|(E & N)]]; [now apply (remove_five n)|now apply remove_cx|now apply remove_qp]. Qed.
End cylinder.

(** ** The vertices of a triangulation without boundary *)
Lemma reset_triangles m F : wfp (2 * m) F -> (forall i, i < 2 * m -> fw F i <> i) -> (forall i, i < 2 * m -> fw F (fw F (fw F i)) = i) ->
  exists V, reset_vertices F = Ok V /\ wfp (2 * m) V /\ forall i, i < 2 * m -> fw V i = neg (bw F i).
Proof.
  intros W N T. set (n := 2 * m) in *.
  assert (B : bijection n (fun i => neg (bw F i)) (fun i => fw F (neg i))).
  { split; intros i Hi.
    - split; [apply neg_lt, (bw_lt n F); auto|]. rewrite neg_neg. now apply (fw_bw n F).
    - assert (neg i < n) by now apply neg_lt. split; [now apply (fw_lt n F)|]. rewrite (bw_fw n F) by auto. apply neg_neg. }
  unfold reset_vertices. rewrite (omap_map _ (fun i => (i, neg (bw F i)))).
  2:{ intros i Hi. apply (fwd_In _ _ W) in Hi. pose proof (fw_lt n F W i Hi) as H1. rewrite (papp_Ok n) by (auto; apply W). cbn [bind].
      destruct (Nat.eqb_spec (fw F i) i) as [E|_]; [now apply N in E|].
      rewrite (papp_Ok n) by (auto; apply W). cbn [bind]. destruct (Nat.eqb_spec (fw F (fw F i)) i) as [E|_].
      - exfalso. pose proof (T i Hi) as E'. rewrite E in E'. now apply N in E'.
      - rewrite andb_false_r. now rewrite (ppre_Ok n) by (auto; apply W). }
  cbn [bind]. set (ps := map _ _). assert (L : length ps = n) by (unfold ps, pdomain; rewrite map_length; apply W).
  assert (C : exists V, perm_of_pairs ps = Ok V).
  { apply perm_of_pairs_complete; rewrite L; unfold ps, pdomain; rewrite map_map; cbn.
    - apply (map_perm_seq n (fun i => i) (fun i => i)); auto. split; auto.
    - eapply (map_perm_seq n); eauto. }
  destruct C as (V & EV). exists V. split; auto. apply perm_of_pairs_Ok in EV as (WV & _ & _ & VV). rewrite L in WV. split; auto.
  intros i Hi. apply VV. unfold ps. apply in_map_iff. exists i. split; auto. now apply (fwd_In _ _ W).
Qed.

Lemma well_formed_of_faces m F : wfp (2 * m) F -> (forall i, i < 2 * m -> fw F i <> i) -> (forall i, i < 2 * m -> fw F (fw F (fw F i)) = i) ->
  exists V vs, reset_vertices F = Ok V /\ reset_vertexes V = Ok vs /\ well_formed (2 * m) (mkTri V F vs).
Proof.
  intros W N T. destruct (reset_triangles m F W N T) as (V & E & WV & A). destruct (reset_vertexes_Ok (2 * m) V F WV) as (vs & E' & C).
  exists V, vs. split; auto. split; auto. split.
  - now exists m.
  - now apply wfp_is_perm.
  - now apply wfp_is_perm.
  - intros i Hi. now apply T.
  - intros i Hi _. change (fw F (neg (fw V i)) = i). rewrite A, neg_neg by auto. now apply (fw_bw (2 * m)).
  - exact C.
Qed.

(** ** Dropping *)
Lemma pdrop_complete n p items : wfp n p -> length items <= n -> (forall i, In i items <-> n - length items <= i < n) -> (forall i, In i items -> In (fw p i) items) -> exists q, pdrop p items = Ok q.
Proof.
  intros W L I C. unfold pdrop. rewrite (omap_map _ (fw p)) by (intros i Hi; apply I in Hi; apply (papp_Ok n); [apply W|lia]). cbn [bind].
  replace (forallb _ (map (fw p) items)) with true.
  2:{ symmetry. apply forallb_forall. intros w Hw. apply in_map_iff in Hw as (i & <- & Hi). apply existsb_exists. exists (fw p i). split; auto. apply Nat.eqb_refl. }
  unfold psize. replace (length (fwd p)) with n by (symmetry; apply W). rewrite (proj2 (Nat.leb_le _ _) L). cbn [andb].
  replace (forallb _ items) with true by (symmetry; apply forallb_forall; intros i Hi; apply Nat.leb_le, I, Hi). eauto.
Qed.

Section collapse.
Variables (n : nat) (t : tri) (e : nat).
Hypothesis W : well_formed n t.
Hypothesis Cl : no_boundary n t.
Hypothesis He : e < n.
Hypothesis Fi : collapsible t e.
Local Notation f := (nF t).
Local Notation x := (side_x t e).
Local Notation p := (side_p t e).
Local Notation c := (side_c t e).
Local Notation q := (side_q t e).
Local Notation rep := (rep t e).

Lemma vanishes_nF h : h < n -> vanishes t e (f h) -> vanishes t e h.
Proof.
  intros Hh V. assert (Hn := neg_ltn n t W e He). assert (E : h = f (f (f h))) by (symmetry; apply W; auto).
  assert (E1 : f p = e) by (apply W; auto). assert (E2 : f q = neg e) by (apply W; auto).
  unfold vanishes. rewrite E. destruct V as [V|[V|[V|[V|[V|[V|[]]]]]]]; rewrite <- V; cbn [In].
  - right. right. now left.
  - left. symmetry. exact E1.
  - right. left. rewrite E1. reflexivity.
  - do 5 right. now left.
  - do 3 right. left. symmetry. exact E2.
  - do 4 right. left. rewrite E2. reflexivity.
Qed.

(** The cases, with what is kept. *)
Lemma cases : NoDup [e; neg e; x; neg x; p; neg p; c; neg c; q; neg q] /\ keep_p t e = p /\ keep_c t e = c \/
  (c = neg x /\ NoDup [e; neg e; x; neg x; p; neg p; q; neg q]) /\ keep_p t e = p /\ keep_c t e = p \/
  (q = neg p /\ NoDup [e; neg e; x; neg x; p; neg p; c; neg c]) /\ keep_p t e = c /\ keep_c t e = c.
Proof.
  destruct Fi as [N|[(E & N)|(E & N)]].
  - left. split; auto. split; [now apply (five_p t e)|now apply (five_c t e)].
  - right. left. split; auto. unfold keep_p, keep_c. rewrite E, Nat.eqb_refl. split; auto. destruct (Nat.eqb_spec p (neg q)); auto. exfalso. distinct N. congruence.
  - right. right. split; auto. unfold keep_p, keep_c. rewrite E, neg_neg, Nat.eqb_refl. split; auto. destruct (Nat.eqb_spec c (neg x)); auto. exfalso. distinct N. congruence.
Qed.
Lemma rep_ok h : h < n -> ~ vanishes t e h -> rep h < n /\ ~ dropped t e (rep h).
Proof.
  intros Hh Nh. pose proof (neg_ltn n t W e He) as Hn. assert (Hx := nF_lt n t W e He). assert (Hp := nF_lt n t W x Hx). assert (Hc := nF_lt n t W _ Hn).
  assert (h <> e /\ h <> x /\ h <> p /\ h <> neg e /\ h <> c /\ h <> q) as (h1 & h2 & h3 & h4 & h5 & h6) by (repeat split; intros ->; apply Nh; cbn; tauto).
  unfold CollapseSpec.rep. destruct cases as [(N & -> & ->)|[((E & N) & -> & ->)|((E & N) & -> & ->)]]; distinct N; [| |assert (nq : neg q = p) by (rewrite E; apply neg_neg)];
  (destruct (Nat.eqb_spec h (neg x)) as [->|h7]; [|destruct (Nat.eqb_spec h (neg q)) as [->|h8]]); split; auto; intros [D|[D|[D|[D|[D|[D|[]]]]]]]; congruence.
Qed.
Lemma rep_inj h g : h < n -> g < n -> ~ vanishes t e h -> ~ vanishes t e g -> rep h = rep g -> h = g.
Proof.
  intros Hh Hg Nh Ng E.
  assert (h <> p /\ h <> c /\ h <> q) as (a1 & a2 & a3) by (repeat split; intros ->; apply Nh; cbn; tauto). assert (g <> p /\ g <> c /\ g <> q) as (b1 & b2 & b3) by (repeat split; intros ->; apply Ng; cbn; tauto).
  unfold CollapseSpec.rep in E. destruct cases as [(N & K1 & K2)|[((Q & N) & K1 & K2)|((Q & N) & K1 & K2)]]; rewrite K1, K2 in E; clear K1 K2;
  [|destruct (Nat.eqb_spec h (neg x)); [congruence|]; destruct (Nat.eqb_spec g (neg x)); [congruence|]|assert (nq : neg q = p) by (rewrite Q; apply neg_neg); destruct (Nat.eqb_spec h (neg q)); [congruence|]; destruct (Nat.eqb_spec g (neg q)); [congruence|]].
  - assert (c <> p) by (distinct N; congruence). clear N.
    destruct (Nat.eqb_spec h (neg x)), (Nat.eqb_spec g (neg x)), (Nat.eqb_spec h (neg q)), (Nat.eqb_spec g (neg q)); congruence.
  - destruct (Nat.eqb_spec h (neg q)), (Nat.eqb_spec g (neg q)); congruence.
  - destruct (Nat.eqb_spec h (neg x)), (Nat.eqb_spec g (neg x)); congruence.
Qed.
Lemma rep_onto i : i < n -> ~ dropped t e i -> exists h, h < n /\ ~ vanishes t e h /\ rep h = i.
Proof.
  intros Hi Ni.
  pose proof (neg_ltn n t W e He) as Hn. assert (Hx := nF_lt n t W e He). assert (Hc := nF_lt n t W _ Hn). assert (Hq := nF_lt n t W _ Hc).
  assert (i <> e /\ i <> neg e /\ i <> x /\ i <> neg x /\ i <> q /\ i <> neg q) as (h1 & h2 & h3 & h4 & h5 & h6) by (repeat split; intros ->; apply Ni; cbn; tauto).
  assert (Hx_ : neg x < n) by now apply (neg_ltn n t W). assert (Hq_ : neg q < n) by now apply (neg_ltn n t W).
  unfold CollapseSpec.rep. destruct cases as [(N & -> & ->)|[((E & N) & -> & ->)|((E & N) & -> & ->)]]; distinct N.
  - destruct (Nat.eq_dec i p) as [E|E]; [|destruct (Nat.eq_dec i c) as [E'|E']].
    + exists (neg x). split; auto. split; [intros [D|[D|[D|[D|[D|[D|[]]]]]]]; congruence|]. now rewrite Nat.eqb_refl.
    + exists (neg q). split; auto. split; [intros [D|[D|[D|[D|[D|[D|[]]]]]]]; congruence|]. rewrite Nat.eqb_refl. destruct (Nat.eqb_spec (neg q) (neg x)); congruence.
    + exists i. split; auto. split; [intros [D|[D|[D|[D|[D|[D|[]]]]]]]; congruence|]. destruct (Nat.eqb_spec i (neg x)); [contradiction|]. destruct (Nat.eqb_spec i (neg q)); [contradiction|]. reflexivity.
  - destruct (Nat.eq_dec i p) as [E'|E'].
    + exists (neg q). split; auto. split; [intros [D|[D|[D|[D|[D|[D|[]]]]]]]; congruence|]. rewrite Nat.eqb_refl. destruct (Nat.eqb_spec (neg q) (neg x)); congruence.
    + exists i. split; auto. split; [intros [D|[D|[D|[D|[D|[D|[]]]]]]]; congruence|]. destruct (Nat.eqb_spec i (neg x)); [contradiction|]. destruct (Nat.eqb_spec i (neg q)); [contradiction|]. reflexivity.
  - assert (nq : neg q = p) by (rewrite E; apply neg_neg). destruct (Nat.eq_dec i c) as [E'|E'].
    + exists (neg x). split; auto. split; [intros [D|[D|[D|[D|[D|[D|[]]]]]]]; congruence|]. now rewrite Nat.eqb_refl.
    + exists i. split; auto. split; [intros [D|[D|[D|[D|[D|[D|[]]]]]]]; congruence|]. destruct (Nat.eqb_spec i (neg x)); [contradiction|]. destruct (Nat.eqb_spec i (neg q)); [contradiction|]. reflexivity.
Qed.

Lemma collapse_faces items : NoDup items -> length items = 6 -> (forall i, In i items <-> n - 6 <= i < n) -> (forall i, In i items <-> dropped t e i) ->
  exists F1 F2 F V vs, remove_face (tF t) e = Ok F1 /\ remove_face' F1 (neg e) = Ok F2 /\ pdrop F2 items = Ok F /\ reset_vertices F = Ok V /\ reset_vertexes V = Ok vs /\
    well_formed (n - 6) (mkTri V F vs) /\ no_boundary (n - 6) (mkTri V F vs) /\
    forall h, h < n -> ~ vanishes t e h -> fw F (rep h) = rep (f h).
Proof.
  intros ND L I D. destruct (remove_both n t e W Cl He Fi) as (F1 & F2 & E1 & E2 & W2 & A1 & A2 & A3 & A4 & A5 & A6 & A7).
  assert (L6 : length items <= n). { rewrite <- (seq_length n 0). apply NoDup_incl_length; auto. intros i Hi. apply in_seq. apply I in Hi. lia. }
  destruct (pdrop_complete n F2 items W2 L6) as (F & EF).
  { intros i. rewrite L. apply I. }
  { intros i Hi. apply D in Hi. apply D. destruct Hi as [<-|[<-|[<-|[<-|[<-|[<-|[]]]]]]]; cbn; rewrite ?A1, ?A2, ?A3, ?A4, ?A5, ?A6; tauto. }
  pose proof (pdrop_Ok n F2 items F W2 ND EF) as (WF & _ & VF & _). rewrite L in WF, VF.
  assert (R : forall h, h < n -> ~ vanishes t e h -> fw F (rep h) = rep (f h)).
  { intros h Hh Nh. destruct (rep_ok h Hh Nh) as (R1 & R2). rewrite VF; auto. rewrite <- D, I in R2. lia. }
  assert (Onto : forall i, i < n - 6 -> exists h, h < n /\ ~ vanishes t e h /\ rep h = i).
  { intros i Hi. apply rep_onto; [lia|]. rewrite <- D, I. lia. }
  assert (Nf : forall h, h < n -> ~ vanishes t e h -> f h < n /\ ~ vanishes t e (f h)).
  { intros h Hh Nh. split; [now apply (nF_lt n t W)|]. intros V. now apply Nh, vanishes_nF. }
  assert (N : forall i, i < n - 6 -> fw F i <> i).
  { intros i Hi. destruct (Onto i Hi) as (h & Hh & Nh & <-). rewrite R by auto. intros Q. destruct (Nf h Hh Nh). apply rep_inj in Q; auto. now apply (Cl h). }
  assert (T3 : forall i, i < n - 6 -> fw F (fw F (fw F i)) = i).
  { intros i Hi. destruct (Onto i Hi) as (h & Hh & Nh & <-). destruct (Nf h Hh Nh) as (H1 & N1). destruct (Nf _ H1 N1) as (H2 & N2).
    rewrite !R by auto. f_equal. now apply W. }
  destruct (wf_even n t W) as (m & Em). assert (Q : n - 6 = 2 * (m - 3)) by lia. rewrite Q in *.
  destruct (well_formed_of_faces (m - 3) F WF N T3) as (V & vs & EV & Evs & WFt).
  exists F1, F2, F, V, vs. repeat (split; auto).
Qed.
End collapse.
