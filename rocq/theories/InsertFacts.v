(** * Facts on the insertion of marked points *)
From Coq Require Import ZArith Reals List Arith Bool Lia Lra Psatz Permutation.
From Verif Require Import Base HalfEdge HalfEdgeFacts Perm PermSpec PermFacts PermCycles PermLemmas
  IndexedSet Combinatorial CombinatorialSpec CombinatorialFacts CombinatorialFlip
  CombinatorialHistory CombinatorialOps CombinatorialInsert ExactReal Vector PlaneSpec Plane VectorFacts FlatTri FlatSpec FlatFacts FlatSum FlatLinear FlatOps
  Point PointSpec Insert InsertSpec.
Import ListNotations.
Local Open Scope nat_scope.

Section insert.
Context {K : ExactReal}.
Implicit Types (s u : flat K) (n e h : nat).

(** The constructor succeeds when the vectors fit. *)
Lemma make_flat_from n t (f : nat -> outcome (vec K)) g : well_formed n t -> (forall e, e < n -> f e = Ok (g e)) ->
  (forall e, e < n -> vden (g (neg e)) = pneg (vden (g e))) ->
  (forall e, e < n -> nF t e <> e -> padd (padd (vden (g e)) (vden (g (nF t e)))) (vden (g (nF t (nF t e)))) = (0, 0)%R /\
     (0 < pdet (vden (g e)) (vden (g (nF t e))))%R) ->
  exists u, make_flat t f = Ok u /\ flat_surface n u /\ (forall e, nF (fT u) e = nF t e) /\ (forall e, nV (fT u) e = nV t e) /\
    forall e, e < n -> vv u e = vden (g e).
Proof.
  intros W Hf Ho Ht. destruct (make_flat_spec n t f g W Hf) as (t' & W' & EV & EF & M). cbv zeta in M.
  remember (mkFlat t' _) as u eqn:Eu.
  assert (Ev : forall e, e < n -> vv u e = vden (g e)) by (intros e He; subst u; now rewrite vv_map).
  assert (EF' : forall e, nF (fT u) e = nF t e) by (intros e; subst u; cbn [fT]; now apply same_nF).
  assert (Su : flat_surface n u).
  { constructor.
    - now subst u.
    - subst u; cbn [fvec]. now rewrite map_length, seq_length.
    - intros e He. assert (H' := neg_ltn n t W e He). rewrite !Ev by auto. auto.
    - intros e He B. unfold fF in *. rewrite !EF' in *. assert (H1 := nF_lt n t W e He). assert (H2 := nF_lt n t W _ H1).
      rewrite !Ev by auto. auto. }
  exists u. destruct M as [[M _]|[_ M]]; [|exfalso; apply M, Su]. split; auto. split; auto. split; auto. split; auto.
  intros e. subst u. cbn [fT]. now apply same_nV.
Qed.

(** insertAt on a clone. *)
Lemma insert_clone n s e : flat_surface n s -> e < n -> fF s e <> e ->
  exists u t, fclone s = Ok u /\ insert_at (fT u) e = Ok t /\ well_formed (n + 6) t /\ inserted_faces n (fT s) t e /\
    nV t e = n + 1 /\ nV t n = n + 2 /\ nV t (n + 2) = n + 4 /\ nV t (n + 4) = n.
Proof.
  intros S0 He NB. destruct (fclone_Ok n s S0) as (u & E & U & Fu & _). exists u.
  assert (W := fs_wf n u U). assert (NB' : nF (fT u) e <> e) by (change (fF u e <> e); destruct (Fu e He) as [-> _]; auto).
  destruct (insert_at_Ok n (fT u) e W He NB') as (t & Et & Wt & EF & EV). exists t. split; auto. split; auto. split; auto.
  destruct (six_names (fT u) e) as (f & g & Fe & Ff).
  assert (Hf : f < n) by (rewrite <- Fe; apply (nF_lt n _ W); auto).
  assert (Hg : g < n) by (rewrite <- Ff; apply (nF_lt n _ W); auto).
  assert (Fg : nF (fT u) g = e) by (rewrite <- Ff, <- Fe; apply (wf_triangle _ _ W); auto).
  assert (ef : e <> f) by congruence.
  assert (fg : f <> g) by (intros X; apply ef; apply (nF_inj n _ W); auto; congruence).
  assert (eg : e <> g) by (intros X; rewrite <- X in Fg; congruence).
  assert (Ef : nF (fT s) e = f) by (destruct (Fu e He) as [X _]; unfold fF in X; congruence).
  assert (Eg : nF (fT s) f = g) by (destruct (Fu f Hf) as [X _]; unfold fF in X; congruence).
  unfold insert_F, insert_V in *. rewrite Fe, Ff in *.
  destruct (insF_spec (nF (fT u)) e f g n He Hf Hg ef eg fg) as (F1 & F2 & F3 & F4 & F5 & F6 & F7 & F8 & F9 & F10).
  destruct (insV_spec (nV (fT u)) e f g n He Hf Hg ef eg fg) as (V1 & V2 & V3 & V4 & _).
  assert (Nn : neg n = n + 1 /\ neg (n + 2) = n + 3 /\ neg (n + 4) = n + 5).
  { destruct (wf_even _ _ W) as (m & ->). rewrite neg_even. replace (2 * m + 2) with (2 * (m + 1)) by lia.
    replace (2 * m + 4) with (2 * (m + 2)) by lia. rewrite !neg_even. lia. }
  destruct Nn as (N0 & N2 & N4). split.
  - unfold inserted_faces. rewrite Ef, Eg, N0, N2, N4. rewrite !EF by lia.
    repeat (split; [assumption|]). intros i Hi Ni. rewrite EF by lia. cbn in Ni. rewrite F10 by intuition congruence.
    destruct (Fu i Hi) as [X _]. auto.
  - rewrite !EV by lia. auto.
Qed.

Definition tri_ok (a b c : pt) : Prop := padd (padd a b) c = (0, 0)%R /\ (0 < pdet a b)%R.
Lemma tri_ok_rotate a b c : tri_ok a b c -> tri_ok b c a.
Proof.
  destruct a as [a1 a2], b as [b1 b2], c as [c1 c2]. unfold tri_ok, padd, pdet. cbn [fst snd]. intros [E D].
  assert (X := f_equal fst E). assert (Y := f_equal snd E). cbn [fst snd] in X, Y. clear E.
  split; [apply pt_eq; cbn [fst snd]; lra|]. replace c1 with (- a1 - b1)%R by lra. replace c2 with (- a2 - b2)%R by lra. lra.
Qed.

Lemma symmetric_neg (x y : nat) (v : vec K) : x = y \/ x = neg y -> vden (symmetric (neg x) y v) = pneg (vden (symmetric x y v)).
Proof.
  unfold symmetric. intros [->| ->].
  - rewrite Nat.eqb_refl. destruct (Nat.eqb_spec (neg y) y) as [E|]; [now apply neg_ne in E|]. apply vden_neg.
  - rewrite neg_neg, Nat.eqb_refl. destruct (Nat.eqb_spec (neg y) y) as [E|]; [now apply neg_ne in E|]. now rewrite vden_neg, pneg_pneg.
Qed.

Lemma edge_of_neg x : edge_of (neg x) = edge_of x.
Proof. apply edge_of_eq. auto. Qed.
Lemma edge_case x y : (edge_of x =? edge_of y) = true <-> x = y \/ x = neg y.
Proof. rewrite Nat.eqb_eq. apply edge_of_eq. Qed.
Lemma symmetric_at (x : nat) (v : vec K) : symmetric x x v = v.
Proof. unfold symmetric. now rewrite Nat.eqb_refl. Qed.
Lemma symmetric_opp (x : nat) (v : vec K) : symmetric (neg x) x v = vneg v.
Proof. unfold symmetric. destruct (Nat.eqb_spec (neg x) x) as [E|]; auto. now apply neg_ne in E. Qed.

(** ** Inside of a face *)
Lemma insert_in_face_Ok n s e (vector : vec K) : flat_surface n s -> e < n -> fF s e <> e -> inside s e (vden vector) ->
  exists u v, insert_in_face s e vector = Ok (u, InFace v) /\ face_inserted n s u e (vden vector) /\
    vertex_source (fT u) n = Ok v /\ nV (fT u) e = n + 1 /\ nV (fT u) n = n + 2 /\ nV (fT u) (n + 2) = n + 4 /\ nV (fT u) (n + 4) = n.
Proof.
  intros S0 He NB (I1 & I2 & I3). unfold insert_in_face.
  destruct (insert_clone n s e S0 He NB) as (u0 & t & -> & Et & Wt & IF & V1 & V2 & V3 & V4). cbn [bind]. rewrite Et. cbn [bind].
  assert (W := fs_wf n s S0).
  assert (Nn : neg n = n + 1 /\ neg (n + 2) = n + 3 /\ neg (n + 4) = n + 5 /\ neg (n + 1) = n /\ neg (n + 3) = n + 2 /\ neg (n + 5) = n + 4).
  { destruct (wf_even _ _ W) as (m & ->). rewrite neg_even. replace (2 * m + 2) with (2 * (m + 1)) by lia.
    replace (2 * m + 4) with (2 * (m + 2)) by lia. rewrite !neg_even.
    replace (2 * m + 1) with (S (2 * m)) by lia. replace (2 * m + 3) with (S (2 * (m + 1))) by lia. replace (2 * m + 5) with (S (2 * (m + 2))) by lia.
    rewrite !neg_odd. lia. }
  destruct Nn as (N0 & N2 & N4 & N1 & N3 & N5).
  rewrite (nextV_Ok (n + 6)) by (auto; lia). cbn [bind]. rewrite V1, N1.
  rewrite (nextV_Ok (n + 6)) by (auto; lia). cbn [bind]. rewrite V2.
  rewrite (nextV_Ok (n + 6)) by (auto; lia). cbn [bind]. rewrite V3.
  destruct (clone_Ok (n + 6) t Wt) as (t' & -> & Wt' & EV' & EF'). cbn [bind].
  destruct (six_names (fT s) e) as (f & g & Fe & Ff).
  assert (Hf : f < n) by (rewrite <- Fe; apply (nF_lt n _ W); auto).
  assert (Hg : g < n) by (rewrite <- Ff; apply (nF_lt n _ W); auto).
  assert (Fg : nF (fT s) g = e) by (rewrite <- Ff, <- Fe; apply (wf_triangle _ _ W); auto).
  assert (Ve : nV (fT s) e = neg g) by (rewrite (nV_link' n _ W) by auto; congruence).
  set (gv := fun h => if edge_of h =? edge_of n then symmetric h n (vneg vector)
    else if edge_of h =? edge_of (n + 2) then symmetric h (n + 2) (vsub (vat' s e) vector)
    else if edge_of h =? edge_of (n + 4) then symmetric h (n + 4) (vsub (vat' s (neg g)) vector) else vat' s h).
  assert (L := fs_length n s S0). assert (Hng := neg_ltn n _ W g Hg).
  assert (G0 : vden (gv n) = pneg (vden vector)) by (unfold gv; now rewrite Nat.eqb_refl, symmetric_at, vden_neg).
  assert (G1 : vden (gv (n + 1)) = vden vector).
  { unfold gv. rewrite <- N0, edge_of_neg, Nat.eqb_refl, symmetric_opp, !vden_neg. apply pneg_pneg. }
  assert (X2 : (edge_of (n + 2) =? edge_of n) = false).
  { destruct (edge_of (n + 2) =? edge_of n) eqn:X; auto. apply edge_case in X. lia. }
  assert (X4 : (edge_of (n + 4) =? edge_of n) = false).
  { destruct (edge_of (n + 4) =? edge_of n) eqn:X; auto. apply edge_case in X. lia. }
  assert (X42 : (edge_of (n + 4) =? edge_of (n + 2)) = false).
  { destruct (edge_of (n + 4) =? edge_of (n + 2)) eqn:X; auto. apply edge_case in X. lia. }
  assert (G2 : vden (gv (n + 2)) = padd (vv s e) (pneg (vden vector))) by (unfold gv; now rewrite X2, Nat.eqb_refl, symmetric_at, vden_sub).
  assert (G4 : vden (gv (n + 4)) = padd (pneg (vv s g)) (pneg (vden vector))).
  { unfold gv. rewrite X4, X42, Nat.eqb_refl, symmetric_at, vden_sub. change (vden (vat' s (neg g))) with (vv s (neg g)). now rewrite (fs_odd n s S0) by auto. }
  assert (Go : forall h, h < n -> vden (gv h) = vv s h).
  { intros h Hh. unfold gv. destruct (edge_of h =? edge_of n) eqn:Y0. { apply edge_case in Y0. lia. }
    destruct (edge_of h =? edge_of (n + 2)) eqn:Y2. { apply edge_case in Y2. lia. }
    destruct (edge_of h =? edge_of (n + 4)) eqn:Y4. { apply edge_case in Y4. lia. } reflexivity. }
  assert (Godd : forall h, h < n + 6 -> vden (gv (neg h)) = pneg (vden (gv h))).
  { intros h Hh. unfold gv. rewrite edge_of_neg.
    destruct (edge_of h =? edge_of n) eqn:Y0. { apply edge_case in Y0. now apply symmetric_neg. }
    destruct (edge_of h =? edge_of (n + 2)) eqn:Y2. { apply edge_case in Y2. now apply symmetric_neg. }
    destruct (edge_of h =? edge_of (n + 4)) eqn:Y4. { apply edge_case in Y4. now apply symmetric_neg. }
    assert (h < n).
    { destruct (lt_dec h n); auto. exfalso. assert (h = n \/ h = n + 1 \/ h = n + 2 \/ h = n + 3 \/ h = n + 4 \/ h = n + 5) as Q by lia.
      destruct Q as [->|[->|[->|[->|[->| ->]]]]]; rewrite ?Nat.eqb_refl in *; try discriminate.
      - rewrite <- N0, edge_of_neg, Nat.eqb_refl in Y0. discriminate.
      - rewrite <- N2, edge_of_neg, Nat.eqb_refl in Y2. discriminate.
      - rewrite <- N4, edge_of_neg, Nat.eqb_refl in Y4. discriminate. }
    apply (fs_odd n s S0). auto. }
  assert (G3 : vden (gv (n + 3)) = pneg (padd (vv s e) (pneg (vden vector)))) by (rewrite <- G2, <- Godd, N2 by lia; auto).
  assert (G5 : vden (gv (n + 5)) = pneg (padd (pneg (vv s g)) (pneg (vden vector)))) by (rewrite <- G4, <- Godd, N4 by lia; auto).
  pose proof IF as IF'. unfold inserted_faces in IF'. rewrite Fe, Ff, N0, N2, N4 in IF'.
  destruct IF' as (F1 & F2 & F3 & F4 & F5 & F6 & F7 & F8 & F9 & F10).
  unfold fF in I2, I3. rewrite Fe in I2. rewrite Fe, Ff in I3.
  destruct (fs_flat n s S0 e He NB) as [Cl _]. unfold fF in Cl. rewrite Fe, Ff in Cl.
  assert (T1 : tri_ok (vden (gv n)) (vden (gv e)) (vden (gv (n + 3))) /\ tri_ok (vden (gv (n + 2))) (vden (gv f)) (vden (gv (n + 5))) /\
               tri_ok (vden (gv (n + 4))) (vden (gv g)) (vden (gv (n + 1)))).
  { rewrite G0, G1, G2, G3, G4, G5, !Go by auto. clear - Cl I1 I2 I3. destruct (vv s e) as [e1 e2], (vv s f) as [f1 f2], (vv s g) as [g1 g2], (vden vector) as [v1 v2].
    unfold tri_ok, padd, pneg, pdet in *. cbn [fst snd] in *. assert (X := f_equal fst Cl). assert (Y := f_equal snd Cl). cbn [fst snd] in X, Y. clear Cl.
    assert (g1 = - e1 - f1)%R by lra. assert (g2 = - e2 - f2)%R by lra. subst g1 g2.
    split; [|split]; (split; [apply pt_eq; cbn [fst snd]; ring|]); lra. }
  destruct T1 as (T1 & T2 & T3).
  destruct (make_flat_from (n + 6) t'
    (fun e0 => if edge_of e0 =? edge_of n then Ok (symmetric e0 n (vneg vector))
      else if edge_of e0 =? edge_of (n + 2) then do v <- from_he s e; Ok (symmetric e0 (n + 2) (vsub v vector))
      else if edge_of e0 =? edge_of (n + 4) then do m <- nextAtVertex (fT s) e; do v <- from_he s m; Ok (symmetric e0 (n + 4) (vsub v vector))
      else from_he s e0) gv Wt') as (u & Eu & Su & EFu & EVu & Evu); auto.
  - intros h Hh. unfold gv. destruct (edge_of h =? edge_of n) eqn:Y0; auto.
    destruct (edge_of h =? edge_of (n + 2)) eqn:Y2; [now rewrite from_he_Ok by lia|].
    destruct (edge_of h =? edge_of (n + 4)) eqn:Y4.
    + rewrite (nextV_Ok n) by auto. cbn [bind]. rewrite Ve, from_he_Ok by lia. reflexivity.
    + apply from_he_Ok. rewrite L. destruct (lt_dec h n); auto. exfalso.
      assert (h = n \/ h = n + 1 \/ h = n + 2 \/ h = n + 3 \/ h = n + 4 \/ h = n + 5) as Q by lia.
      destruct Q as [->|[->|[->|[->|[->| ->]]]]]; rewrite ?Nat.eqb_refl in *; try discriminate.
      * rewrite <- N0, edge_of_neg, Nat.eqb_refl in Y0. discriminate.
      * rewrite <- N2, edge_of_neg, Nat.eqb_refl in Y2. discriminate.
      * rewrite <- N4, edge_of_neg, Nat.eqb_refl in Y4. discriminate.
  - intros h Hh NBh. rewrite !(same_nF _ _ _ EF') in *. change (tri_ok (vden (gv h)) (vden (gv (nF t h))) (vden (gv (nF t (nF t h))))).
    assert (C := ins_cases n e f g h Hh). destruct C as [(C & C1 & C2 & C3)|[->|[->|[->|[->|[->|[->|[->|[->| ->]]]]]]]]].
    2-10: rewrite ?F1, ?F2, ?F3, ?F4, ?F5, ?F6, ?F7, ?F8, ?F9, ?F1, ?F2, ?F3, ?F4, ?F5, ?F6, ?F7, ?F8, ?F9; auto using tri_ok_rotate.
    assert (Ah := F10 h C ltac:(cbn; intuition congruence)). rewrite Ah in *.
    assert (H1 := nF_lt n _ W h C). assert (H2 := nF_lt n _ W _ H1). assert (T3' := wf_triangle _ _ W h C).
    rewrite F10.
    + rewrite !Go by auto. apply (fs_flat n s S0 h C NBh).
    + auto.
    + cbn. intros [X|[X|[X|[]]]]; rewrite <- X in T3'; congruence.
  - assert (EFt : forall h, nF (fT u) h = nF t h) by (intros h; rewrite EFu; now apply same_nF).
    assert (EVt : forall h, nV (fT u) h = nV t h) by (intros h; rewrite EVu; now apply same_nV).
    rewrite Eu. cbn [bind]. destruct (vertex_source_Ok (n + 6) (fT u) n (fs_wf _ _ Su)) as (v & Ev & _); [lia|]. rewrite Ev. cbn [bind].
    exists u, v. split; auto. split; [|rewrite !EVt; auto].
    constructor; auto.
    + unfold inserted_faces in *. rewrite !EFt. destruct IF as (A1 & A2 & A3 & A4 & A5 & A6 & A7 & A8 & A9 & A10).
      repeat (split; [assumption|]). intros i Hi Ni. rewrite EFt. auto.
    + intros h Hh. rewrite Evu by lia. auto.
    + rewrite N0, Evu by lia. auto.
Qed.

(** ** On an edge *)
Lemma new_negs n : (exists m, n = 2 * m) ->
  neg n = n + 1 /\ neg (n + 2) = n + 3 /\ neg (n + 4) = n + 5 /\ neg (n + 1) = n /\ neg (n + 3) = n + 2 /\ neg (n + 5) = n + 4.
Proof.
  intros (m & ->). rewrite neg_even. replace (2 * m + 2) with (2 * (m + 1)) by lia.
  replace (2 * m + 4) with (2 * (m + 2)) by lia. rewrite !neg_even.
  replace (2 * m + 1) with (S (2 * m)) by lia. replace (2 * m + 3) with (S (2 * (m + 1))) by lia. replace (2 * m + 5) with (S (2 * (m + 2))) by lia.
  rewrite !neg_odd. lia.
Qed.

Lemma not_in6 (i a b c d e f : nat) : ~ In i [a; b; c; d; e; f] -> i <> a /\ i <> b /\ i <> c /\ i <> d /\ i <> e /\ i <> f.
Proof. cbn. intros N. repeat split; intros ->; apply N; auto 10. Qed.
Lemma not_in3 (i a b c : nat) : i <> a -> i <> b -> i <> c -> ~ In i [a; b; c].
Proof. cbn. intros A B C [X|[X|[X|[]]]]; congruence. Qed.

(** [lia] without the inequalities. *)
Ltac nlia := repeat match goal with H : _ <> _ |- _ => clear H end; lia.
Lemma split_clone n s e : flat_surface n s -> e < n -> fF s e <> e -> fF s (neg e) <> neg e ->
  exists u t t1, fclone s = Ok u /\ insert_at (fT u) e = Ok t /\ nV t e = n + 1 /\ well_formed (n + 6) t /\ flip t e = (t1, Ok tt) /\ well_formed (n + 6) t1 /\
    edge_inserted_faces n (fT s) t1 e.
Proof.
  intros S0 He NB NB'. assert (W := fs_wf n s S0).
  destruct (insert_clone n s e S0 He NB) as (u & t & Eu & Et & Wt & IF & V1 & _).
  assert (F := nonboundary_flippable n s e S0 He NB NB').
  destruct (flip_six n (fT s) e W F) as (D6 & Hf & Hg & Hx & Hy & Hne & Fg & Fy).
  destruct (new_negs n (wf_even _ _ W)) as (N0 & N2 & N4 & N1 & N3 & N5).
  unfold edge_inserted_faces. unfold inserted_faces in IF.
  remember (nF (fT s) e) as f eqn:Ff. remember (nF (fT s) f) as g eqn:Eg. remember (nF (fT s) (neg e)) as x eqn:Ex. remember (nF (fT s) x) as y eqn:Ey.
  rewrite N0, N2, N4 in *. destruct IF as (F1 & F2 & F3 & F4 & F5 & F6 & F7 & F8 & F9 & F10).
  apply nodup6 in D6. destruct D6 as ((D1 & D2 & D3 & D4 & D5) & (D6 & D7 & D8 & D9) & (D10 & D11 & D12) & (D13 & D14) & D15).
  assert (Tn : nF t (neg e) = x) by (rewrite F10; auto; apply not_in3; congruence).
  assert (Tx : nF t x = y) by (rewrite F10; auto; apply not_in3; congruence).
  assert (Ty : nF t y = neg e) by (rewrite F10; auto; apply not_in3; congruence).
  assert (Fl : flippable (n + 6) t e).
  { split; [nlia|]. rewrite Tn, F2, F3. repeat split; try nlia; congruence. }
  destruct (flip_Ok (n + 6) t e Wt Fl) as (t1 & E1 & W1 & EF & _). exists u, t, t1.
  do 6 (split; [solve [auto]|]).
  destruct (flip_F_six (n + 6) t e Wt Fl) as (U1 & U2 & U3 & U4 & U5 & U6).
  assert (O : forall i, i < n + 6 -> i <> e -> i <> n + 3 -> i <> n -> i <> neg e -> i <> x -> i <> y -> nF t1 i = nF t i).
  { intros i Hi O1 O2 O3 O4 O5 O6. rewrite EF by auto. apply (flip_F_other (n + 6) t e Wt Fl). unfold in_six. rewrite Tn, Tx, F2, F3. clear - O1 O2 O3 O4 O5 O6. intros [X|[X|[X|[X|[X|X]]]]]; auto. }
  rewrite F2 in U1. rewrite Tn, Tx in U2. rewrite Tn, Tx, F2 in U3. rewrite Tn in U4. rewrite F2, F3 in U5. rewrite F2, F3, Tn in U6.
  rewrite <- EF in U1, U2, U3, U4, U5, U6 by nlia. repeat (split; [first [assumption | rewrite O by (congruence || nlia); assumption]|]).
  intros i Hi Ni. apply not_in6 in Ni as (M1 & M2 & M3 & M4 & M5 & M6). rewrite O by (auto; nlia). apply F10; auto. now apply not_in3.
Qed.

Lemma new_old n h : (exists m, n = 2 * m) -> h < n + 6 ->
  (edge_of h =? edge_of n) = false -> (edge_of h =? edge_of (n + 2)) = false -> (edge_of h =? edge_of (n + 4)) = false -> h < n.
Proof.
  intros Ev Hh Y0 Y2 Y4. destruct (new_negs n Ev) as (N0 & N2 & N4 & _).
  destruct (lt_dec h n); auto. exfalso. assert (h = n \/ h = n + 1 \/ h = n + 2 \/ h = n + 3 \/ h = n + 4 \/ h = n + 5) as Q by nlia.
  destruct Q as [->|[->|[->|[->|[->| ->]]]]]; rewrite ?Nat.eqb_refl in *; try discriminate.
  - rewrite <- N0, edge_of_neg, Nat.eqb_refl in Y0. discriminate.
  - rewrite <- N2, edge_of_neg, Nat.eqb_refl in Y2. discriminate.
  - rewrite <- N4, edge_of_neg, Nat.eqb_refl in Y4. discriminate.
Qed.

Lemma edge_differs n x y : (exists m, n = 2 * m) -> x < n -> n <= y -> (edge_of x =? edge_of y) = false.
Proof.
  intros Ev Hx Hy. destruct (edge_of x =? edge_of y) eqn:E; auto. apply edge_case in E. destruct Ev as (m & ->).
  assert (X := neg_lt x m Hx). destruct E as [->|E]; [nlia|]. rewrite E, neg_neg in X. nlia.
Qed.

Lemma insert_on_edge_Ok n s e (vector : vec K) : flat_surface n s -> e < n -> fF s e <> e -> fF s (neg e) <> neg e -> inside_edge s e (vden vector) ->
  exists u v, insert_on_edge s e vector = Ok (u, fF s (neg e), OnEdge v e (n + 1) (n + 2)) /\ edge_inserted n s u e (vden vector) /\
    vertex_source (fT u) n = Ok v /\ nV (fT u) n = neg e /\ nV (fT u) (neg e) = n + 2 /\ nV (fT u) (n + 2) = n + 4 /\ nV (fT u) (n + 4) = n.
Proof.
  intros S0 He NB NB' (r & Hr & Er). unfold insert_on_edge.
  destruct (split_clone n s e S0 He NB NB') as (u0 & t & t1 & -> & Et & V1 & Wt & E1 & W1 & IF). cbn [bind]. rewrite Et. cbn [bind].
  assert (W := fs_wf n s S0). destruct (new_negs n (wf_even _ _ W)) as (N0 & N2 & N4 & N1 & N3 & N5).
  assert (Fl := nonboundary_flippable n s e S0 He NB NB').
  destruct (flip_six n (fT s) e W Fl) as (D6 & Hf & Hg & Hx & Hy & Hne & Fg & Fy).
  pose proof IF as IF'. unfold edge_inserted_faces in IF'. unfold fF in NB, NB' |- *.
  remember (nF (fT s) e) as f eqn:Ff. remember (nF (fT s) f) as g eqn:Eg. remember (nF (fT s) (neg e)) as x eqn:Ex. remember (nF (fT s) x) as y eqn:Ey.
  rewrite N0, N2, N4 in IF'. destruct IF' as (F1 & F2 & F3 & F4 & F5 & F6 & F7 & F8 & F9 & F10 & F11 & F12 & F13).
  apply nodup6 in D6. destruct D6 as ((D1 & D2 & D3 & D4 & D5) & (D6 & D7 & D8 & D9) & (D10 & D11 & D12) & (D13 & D14) & D15).
  rewrite (nextV_Ok (n + 6)) by (auto; nlia). cbn [bind]. rewrite V1, N1, E1. cbn [bind].
  assert (A1 : nV t1 n = neg e) by (rewrite (nV_link' (n + 6) _ W1) by nlia; congruence).
  assert (A2 : nV t1 (neg e) = n + 2) by (rewrite (nV_link' (n + 6) _ W1) by (try nlia; congruence); congruence).
  assert (A3 : nV t1 (n + 2) = n + 4) by (rewrite (nV_link' (n + 6) _ W1) by (try nlia; congruence); congruence).
  assert (A4 : nV t1 (n + 4) = n) by (rewrite (nV_link' (n + 6) _ W1) by (try nlia; congruence); congruence).
  rewrite (nextV_Ok (n + 6)) by (auto; nlia). cbn [bind]. rewrite A1.
  rewrite (nextV_Ok (n + 6)) by (auto; nlia). cbn [bind]. rewrite A2.
  rewrite (nextV_Ok (n + 6)) by (auto; nlia). cbn [bind]. rewrite A3.
  destruct (clone_Ok (n + 6) t1 W1) as (t' & -> & Wt' & EV' & EF'). cbn [bind].
  assert (Ve : nV (fT s) e = neg g) by (rewrite (nV_link' n _ W) by congruence; congruence).
  assert (Px : pV (fT s) e = x).
  { apply (nV_inj n _ W); auto using (pV_lt n _ W). rewrite (nV_pV n _ W) by auto. rewrite (nV_link' n _ W); auto; try congruence.
    rewrite <- Ey, Fy. now rewrite neg_neg. }
  set (gv := fun h => if edge_of h =? edge_of n then symmetric h (n + 1) vector
    else if edge_of h =? edge_of (neg e) then symmetric h (neg e) (vsub (vat' s x) vector)
    else if edge_of h =? edge_of (n + 2) then symmetric h (n + 2) (vsub (vat' s e) vector)
    else if edge_of h =? edge_of (n + 4) then symmetric h (n + 4) (vsub (vat' s (neg g)) vector) else vat' s h).
  assert (L := fs_length n s S0). assert (Hng := neg_ltn n _ W g Hg). assert (Ev := wf_even _ _ W).
  assert (Xn : forall y', n <= y' -> (edge_of y' =? edge_of (neg e)) = false).
  { intros y' Hy'. rewrite Nat.eqb_sym. apply (edge_differs n); auto. }
  assert (G1 : vden (gv (n + 1)) = vden vector).
  { unfold gv. rewrite <- N0, edge_of_neg, Nat.eqb_refl. now rewrite symmetric_at. }
  assert (X2 : (edge_of (n + 2) =? edge_of n) = false).
  { destruct (edge_of (n + 2) =? edge_of n) eqn:X; auto. apply edge_case in X. nlia. }
  assert (X4 : (edge_of (n + 4) =? edge_of n) = false).
  { destruct (edge_of (n + 4) =? edge_of n) eqn:X; auto. apply edge_case in X. nlia. }
  assert (X42 : (edge_of (n + 4) =? edge_of (n + 2)) = false).
  { destruct (edge_of (n + 4) =? edge_of (n + 2)) eqn:X; auto. apply edge_case in X. nlia. }
  assert (G2 : vden (gv (n + 2)) = padd (vv s e) (pneg (vden vector))).
  { unfold gv. now rewrite X2, Xn, Nat.eqb_refl, symmetric_at, vden_sub by nlia. }
  assert (G4 : vden (gv (n + 4)) = padd (pneg (vv s g)) (pneg (vden vector))).
  { unfold gv. rewrite X4, Xn, X42, Nat.eqb_refl, symmetric_at, vden_sub by nlia. change (vden (vat' s (neg g))) with (vv s (neg g)). now rewrite (fs_odd n s S0) by auto. }
  assert (Gb : vden (gv (neg e)) = padd (vv s x) (pneg (vden vector))).
  { unfold gv. now rewrite (edge_differs n (neg e) n), Nat.eqb_refl, symmetric_at, vden_sub by auto. }
  assert (Go : forall h, h < n -> h <> e -> h <> neg e -> vden (gv h) = vv s h).
  { intros h Hh Z1 Z2. unfold gv. rewrite (edge_differs n h n), (edge_differs n h (n + 2)), (edge_differs n h (n + 4)) by (auto; nlia).
    destruct (edge_of h =? edge_of (neg e)) eqn:Y0; auto. apply edge_case in Y0. rewrite neg_neg in Y0. tauto. }
  assert (Godd : forall h, h < n + 6 -> vden (gv (neg h)) = pneg (vden (gv h))).
  { intros h Hh. unfold gv. rewrite edge_of_neg.
    destruct (edge_of h =? edge_of n) eqn:Y0. { apply edge_case in Y0. apply symmetric_neg. rewrite N1. rewrite N0 in Y0. tauto. }
    destruct (edge_of h =? edge_of (neg e)) eqn:Yb. { apply edge_case in Yb. now apply symmetric_neg. }
    destruct (edge_of h =? edge_of (n + 2)) eqn:Y2. { apply edge_case in Y2. now apply symmetric_neg. }
    destruct (edge_of h =? edge_of (n + 4)) eqn:Y4. { apply edge_case in Y4. now apply symmetric_neg. }
    apply (fs_odd n s S0). eapply new_old; eauto. }
  assert (G0 : vden (gv n) = pneg (vden vector)) by (rewrite <- G1, <- Godd, N1 by nlia; auto).
  assert (G3 : vden (gv (n + 3)) = pneg (padd (vv s e) (pneg (vden vector)))) by (rewrite <- G2, <- Godd, N2 by nlia; auto).
  assert (G5 : vden (gv (n + 5)) = pneg (padd (pneg (vv s g)) (pneg (vden vector)))) by (rewrite <- G4, <- Godd, N4 by nlia; auto).
  assert (Ge : vden (gv e) = pneg (padd (vv s x) (pneg (vden vector)))) by (rewrite <- Gb, <- Godd, neg_neg by nlia; auto).
  destruct (fs_flat n s S0 e He) as [Cl Dl]; [unfold fF; congruence|]. unfold fF in Cl, Dl. rewrite <- Ff in Cl, Dl. rewrite <- Eg in Cl.
  destruct (fs_flat n s S0 (neg e) Hne) as [Cr Dr]; [unfold fF; congruence|]. unfold fF in Cr, Dr. rewrite <- Ex in Cr, Dr. rewrite <- Ey in Cr.
  rewrite (fs_odd n s S0) in Cr, Dr by auto.
  assert (T : tri_ok (vden (gv (n + 2))) (vden (gv f)) (vden (gv (n + 5))) /\ tri_ok (vden (gv (n + 4))) (vden (gv g)) (vden (gv (n + 1))) /\
    tri_ok (vden (gv n)) (vden (gv x)) (vden (gv e)) /\ tri_ok (vden (gv (n + 3))) (vden (gv (neg e))) (vden (gv y))).
  { rewrite G0, G1, G2, G3, G4, G5, Ge, Gb, (Go f), (Go g), (Go x), (Go y) by auto. rewrite Er. clear - Cl Cr Dl Dr Hr. revert Cl Cr Dl Dr.
    destruct (vv s e) as [e1 e2], (vv s f) as [f1 f2], (vv s g) as [g1 g2], (vv s x) as [x1 x2], (vv s y) as [y1 y2].
    unfold tri_ok, padd, pneg, pdet, pscale in *. cbn [fst snd] in *. intros Cl Cr Dl Dr.
    assert (X := f_equal fst Cl). assert (Y := f_equal snd Cl). cbn [fst snd] in X, Y. clear Cl.
    assert (X' := f_equal fst Cr). assert (Y' := f_equal snd Cr). cbn [fst snd] in X', Y'. clear Cr.
    assert (g1 = - e1 - f1)%R by lra. assert (g2 = - e2 - f2)%R by lra. assert (y1 = e1 - x1)%R by lra. assert (y2 = e2 - x2)%R by lra. subst g1 g2 y1 y2.
    clear X Y X' Y'. assert (P1 := Rmult_lt_0_compat _ _ (proj1 Hr) Dl). assert (P2 := Rmult_lt_0_compat _ _ (proj1 Hr) Dr).
    assert (Hr' : (0 < 1 - r)%R) by lra. assert (Q1 := Rmult_lt_0_compat _ _ Hr' Dl). assert (Q2 := Rmult_lt_0_compat _ _ Hr' Dr).
    split; [|split; [|split]]; (split; [apply pt_eq; cbn [fst snd]; ring|]); lra. }
  destruct T as (T1 & T2 & T3 & T4).
  destruct (make_flat_from (n + 6) t'
    (fun e0 => if edge_of e0 =? edge_of n then Ok (symmetric e0 (neg n) vector)
      else if edge_of e0 =? edge_of (neg e) then do m <- previousAtVertex (fT s) e; do v <- from_he s m; Ok (symmetric e0 (neg e) (vsub v vector))
      else if edge_of e0 =? edge_of (n + 2) then do v <- from_he s e; Ok (symmetric e0 (n + 2) (vsub v vector))
      else if edge_of e0 =? edge_of (n + 4) then do m <- nextAtVertex (fT s) e; do v <- from_he s m; Ok (symmetric e0 (n + 4) (vsub v vector))
      else from_he s e0) gv Wt') as (u & Eu & Su & EFu & EVu & Evu); auto.
  - intros h Hh. unfold gv. destruct (edge_of h =? edge_of n) eqn:Y0; [now rewrite N0|].
    destruct (edge_of h =? edge_of (neg e)) eqn:Yb.
    { rewrite (prevV_Ok n) by auto. cbn [bind]. rewrite Px, from_he_Ok by nlia. reflexivity. }
    destruct (edge_of h =? edge_of (n + 2)) eqn:Y2; [now rewrite from_he_Ok by nlia|].
    destruct (edge_of h =? edge_of (n + 4)) eqn:Y4.
    + rewrite (nextV_Ok n) by auto. cbn [bind]. rewrite Ve, from_he_Ok by nlia. reflexivity.
    + apply from_he_Ok. rewrite L. eapply new_old; eauto.
  - intros h Hh NBh. rewrite !(same_nF _ _ _ EF') in *. change (tri_ok (vden (gv h)) (vden (gv (nF t1 h))) (vden (gv (nF t1 (nF t1 h))))).
    assert (C : (h < n /\ ~ In h [e; f; g; neg e; x; y]) \/ In h [e; f; g; neg e; x; y] \/ h = n \/ h = n + 1 \/ h = n + 2 \/ h = n + 3 \/ h = n + 4 \/ h = n + 5).
    { destruct (in_dec Nat.eq_dec h [e; f; g; neg e; x; y]); auto. destruct (lt_dec h n); auto. nlia. }
    destruct C as [[C C']|[C|[->|[->|[->|[->|[->| ->]]]]]]]. 3-8: rewrite ?F1, ?F2, ?F3, ?F4, ?F5, ?F6, ?F7, ?F8, ?F9, ?F10, ?F11, ?F12, ?F1, ?F2, ?F3, ?F4, ?F5, ?F6, ?F7, ?F8, ?F9, ?F10, ?F11, ?F12; auto using tri_ok_rotate.
    2: { destruct C as [<-|[<-|[<-|[<-|[<-|[<-|[]]]]]]]; rewrite ?F1, ?F2, ?F3, ?F4, ?F5, ?F6, ?F7, ?F8, ?F9, ?F10, ?F11, ?F12, ?F1, ?F2, ?F3, ?F4, ?F5, ?F6, ?F7, ?F8, ?F9, ?F10, ?F11, ?F12; auto using tri_ok_rotate. }
    assert (Ah := F13 h C C'). rewrite Ah in *.
    assert (H1 := nF_lt n _ W h C). assert (H2 := nF_lt n _ W _ H1). assert (T3' := wf_triangle _ _ W h C).
    assert (C1 : ~ In (nF (fT s) h) [e; f; g; neg e; x; y]).
    { intros X. apply C'. rewrite <- T3'. destruct X as [X|[X|[X|[X|[X|[X|[]]]]]]]; rewrite <- X in *; cbn; rewrite <- ?Ff, <- ?Eg, <- ?Ex, <- ?Ey; rewrite ?Fg, ?Fy; rewrite <- ?Ff, <- ?Eg, <- ?Ex, <- ?Ey; auto 10. }
    assert (C2 : ~ In (nF (fT s) (nF (fT s) h)) [e; f; g; neg e; x; y]).
    { intros X. apply C'. rewrite <- T3'. destruct X as [X|[X|[X|[X|[X|[X|[]]]]]]]; rewrite <- X in *; cbn; rewrite <- ?Ff, <- ?Eg, <- ?Ex, <- ?Ey; rewrite ?Fg, ?Fy; auto 10. }
    rewrite F13 by auto. apply not_in6 in C' as (? & ? & ? & ? & ? & ?), C1 as (? & ? & ? & ? & ? & ?), C2 as (? & ? & ? & ? & ? & ?). rewrite !Go by auto. apply (fs_flat n s S0 h C NBh).
  - assert (EFt : forall h, nF (fT u) h = nF t1 h) by (intros h; rewrite EFu; now apply same_nF).
    assert (EVt : forall h, nV (fT u) h = nV t1 h) by (intros h; rewrite EVu; now apply same_nV).
    rewrite Eu. cbn [bind]. rewrite (prevV_Ok n) by auto. cbn [bind]. rewrite Px.
    destruct (vertex_source_Ok (n + 6) (fT u) n (fs_wf _ _ Su)) as (v & Ev' & _); [nlia|]. rewrite Ev'. cbn [bind].
    exists u, v. rewrite N0. split; auto. split; [|rewrite !EVt; auto].
    constructor; auto.
    + unfold edge_inserted_faces in *. rewrite !EFt. destruct IF as (B1 & B2 & B3 & B4 & B5 & B6 & B7 & B8 & B9 & B10 & B11 & B12 & B13).
      repeat (split; [assumption|]). intros i Hi Ni. rewrite EFt. auto.
    + intros h Hh Z1 Z2. rewrite Evu by nlia. auto.
    + rewrite N0, Evu by nlia. auto.
    + rewrite Evu, G2 by nlia. apply pt_eq; unfold padd, pneg; cbn [fst snd]; ring.
Qed.
End insert.
