(** * The flips before a marked point is inserted *)
From Coq Require Import ZArith Reals List Arith Bool Lia Lra Psatz Permutation.
From Verif Require Import Base HalfEdge HalfEdgeFacts Perm PermSpec PermFacts PermCycles PermLemmas
  IndexedSet Combinatorial CombinatorialSpec CombinatorialFacts CombinatorialFlip
  CombinatorialHistory CombinatorialOps CombinatorialInsert ExactReal Vector PlaneSpec Plane VectorFacts FlatTri FlatSpec FlatFacts FlatSum FlatLinear FlatOps FlatAngle FlatDelaunay FlatSector
  Point PointSpec Insert InsertSpec InsertFacts InsertKept.
Import ListNotations.
Local Open Scope nat_scope.

Section loop.
Context {K : ExactReal}.
Implicit Types (s u : flat K) (n e h : nat).

Lemma carried_app v l1 s h s1 h1 : carried (K:=K) v l1 s h s1 h1 -> forall l2 s2 h2, carried v l2 s1 h1 s2 h2 -> carried v (l1 ++ l2) s h s2 h2.
Proof. induction 1; cbn [app]; intros; eauto using ca_same, ca_flip, ca_turn. Qed.

Lemma flipped_clone_ok n s e : flat_surface n s -> closed_surface n s -> e < n -> can_flip n s e ->
  exists s0 s', fclone s = Ok s0 /\ fflip s0 e = (s', Ok tt) /\ flipped_clone s e = Ok s' /\ flat_surface n s' /\ closed_surface n s' /\
    forall i, i < n -> i <> e -> i <> neg e -> vv s' i = vv s i.
Proof.
  intros S0 Cl He CF. destruct (fclone_Ok n s S0) as (u & Eu & Su & Fu & Vu). assert (W := fs_wf n s S0).
  assert (CF' : can_flip n u e).
  { destruct CF as (_ & N1 & N2 & C1 & C2). assert (Hn := neg_ltn n _ W e He). unfold can_flip.
    assert (Ha := fF_lt n s e S0 He). assert (Hb := fF_lt n s _ S0 Ha). assert (Hc := fF_lt n s _ S0 Hn). assert (Hd := fF_lt n s _ S0 Hc).
    rewrite (proj1 (Fu e He)), (proj1 (Fu _ Hn)), (proj1 (Fu _ Ha)), (proj1 (Fu _ Hc)), !Vu by auto. auto. }
  assert (Clu : closed_surface n u). { intros x Hx. rewrite (proj1 (Fu x Hx)). now apply Cl. }
  destruct (fflip_Ok n u e Su He CF') as (s' & E & S' & _ & V & _). exists u, s'. unfold flipped_clone. rewrite Eu. cbn [bind]. rewrite E.
  split; auto. split; auto. split; auto. split; auto. split; [now apply (closed_flip n u e)|]. intros i Hi N1 N2. rewrite <- Vu by auto. unfold vv. now rewrite V.
Qed.

Lemma insert_flip_ok n h (vector : vec K) fuel : forall s e, flat_surface n s -> closed_surface n s -> h < n -> e < n ->
  match insert_flip fuel s h vector e with
  | Ok (s', l) => flat_surface n s' /\ closed_surface n s' /\ vv s' h = vv s h /\ carried (vden vector) l s h s' h
  | OutOfFuel => True
  | _ => False
  end.
Proof.
  induction fuel as [|k IH]; intros s e S0 Cl Hh He; cbn [insert_flip]; [exact I|].
  assert (W := fs_wf n s S0). unfold may_flip. rewrite (nextV_Ok n) by auto. cbn [bind].
  assert (R : match (do p <- previousAtVertex (fT s) e; do v <- from_he s p;
      do (s, l) <- (if negb (ccw_eqb (ccw vector v) COUNTERCLOCKWISE) then do q <- nextAtVertex (fT s) (neg e); insert_flip k s h vector (neg q) else insert_flip k s h vector p);
      do (s, l') <- insert_flip k s h vector e; Ok (s, l ++ l')) with
    | Ok (s', l) => flat_surface n s' /\ closed_surface n s' /\ vv s' h = vv s h /\ carried (vden vector) l s h s' h
    | OutOfFuel => True | _ => False end).
  { rewrite (prevV_Ok n) by auto. cbn [bind]. assert (Hp := pV_lt n _ W e He). rewrite from_he_Ok by (now rewrite (fs_length n s S0)). cbn [bind].
    assert (Hne := neg_ltn n _ W e He). assert (Hq := nV_lt n _ W _ Hne). assert (Hnq := neg_ltn n _ W _ Hq).
    assert (X : exists e', e' < n /\ (if negb (ccw_eqb (ccw vector (vat' s (pV (fT s) e))) COUNTERCLOCKWISE) then do q <- nextAtVertex (fT s) (neg e); insert_flip k s h vector (neg q)
      else insert_flip k s h vector (pV (fT s) e)) = insert_flip k s h vector e').
    { destruct (negb _); [|eauto]. rewrite (nextV_Ok n) by auto. cbn [bind]. eauto. }
    destruct X as (e' & He' & ->). assert (X := IH s e' S0 Cl Hh He'). destruct (insert_flip k s h vector e') as [[s1 l1]| | |]; auto. cbn [bind].
    destruct X as (S1 & Cl1 & V1 & C1). assert (X := IH s1 e S1 Cl1 Hh He). destruct (insert_flip k s1 h vector e) as [[s2 l2]| | |]; auto. cbn [bind].
    destruct X as (S2 & Cl2 & V2 & C2). split; auto. split; auto. split; [congruence|]. eapply carried_app; eauto. }
  destruct (Nat.eqb_spec e h) as [E1|E1]; [exact R|]. destruct (Nat.eqb_spec e (neg h)) as [E2|E2]; [exact R|].
  destruct (Nat.eqb_spec e (nV (fT s) h)) as [E3|E3]; [exact R|]. destruct (Nat.eqb_spec e (neg (nV (fT s) h))) as [E4|E4]; [exact R|]. cbn [Datatypes.orb].
  destruct (convex_strict n s e S0 He) as (b & Eb & B). rewrite Eb. cbn [bind]. destruct b; [|exact R].
  assert (Hne := neg_ltn n _ W e He).
  assert (CF : can_flip n s e). { apply can_flip_iff; auto. split; [|now apply B]. apply (nonboundary_flippable n s); auto; now apply Cl. }
  destruct (flipped_clone_ok n s e S0 Cl He CF) as (s0 & s' & Ec & Ef & -> & S' & Cl' & V). cbn [bind]. split; auto. split; auto. split; [|].
  - apply V; auto. intros X. apply E2. now rewrite X, neg_neg.
  - eapply ca_flip; eauto. apply ca_same.
Qed.

Lemma contains_iff n s h (v : pt) : flat_surface n s -> closed_surface n s -> h < n -> v <> (0, 0)%R ->
  (sector_contains s h v <-> (0 <= pdet (vv s h) v)%R /\ (pdet (vv s (fV s h)) v < 0)%R).
Proof.
  intros S0 Cl Hh Nv. unfold sector_contains. rewrite <- hits_spec; auto; [|now apply (corner_det n); auto]. unfold hits.
  destruct (Rle_dec 0 (pdet (vv s h) v)), (Rlt_dec (pdet (vv s (fV s h)) v) 0); split; try tauto; try discriminate; intros [? ?]; lra.
Qed.

Lemma insert_turn_ok n s (vector : vec K) fuel : flat_surface n s -> closed_surface n s -> vden vector <> (0, 0)%R ->
  forall h, h < n -> (0 <= pdet (vv s h) (vden vector))%R ->
  match insert_turn fuel s h vector with
  | Ok h' => h' < n /\ sector_contains s h' (vden vector) /\ first_ccw s h (vden vector) h'
  | OutOfFuel => True
  | _ => False
  end.
Proof.
  intros S0 Cl Nv. assert (W := fs_wf n s S0). induction fuel as [|k IH]; intros h Hh D; cbn [insert_turn]; [exact I|].
  rewrite (nextV_Ok n) by auto. cbn [bind]. assert (Hv := nV_lt n _ W h Hh). rewrite from_he_Ok by (now rewrite (fs_length n s S0)). cbn [bind].
  assert (C := ccw_cases (vat' s (nV (fT s) h)) vector). change (vden (vat' s (nV (fT s) h))) with (vv s (fV s h)) in C.
  assert (Q : ccw (vat' s (nV (fT s) h)) vector = CLOCKWISE \/ (ccw (vat' s (nV (fT s) h)) vector <> CLOCKWISE /\ (0 <= pdet (vv s (fV s h)) (vden vector))%R)).
  { destruct (ccw (vat' s (nV (fT s) h)) vector); [right|right|left; auto]; split; try discriminate; lra. }
  destruct Q as [Q|[Q D']].
  - rewrite Q in *. cbn [ccw_eqb negb]. assert (Sc : sector_contains s h (vden vector)) by (apply (contains_iff n); auto).
    split; auto. split; auto. exists 0. split; auto. split; auto. intros; lia.
  - destruct (ccw_eqb _ CLOCKWISE) eqn:E; [apply ccw_eqb_spec in E; congruence|]. cbn [negb].
    assert (X := IH (nV (fT s) h) Hv D'). destruct (insert_turn k s (nV (fT s) h) vector) as [h'| | |]; auto. destruct X as (H' & Sc & (j & E1 & _ & F)). split; auto. split; auto.
    exists (S j). split; [now rewrite iter_S'|]. split; auto. intros i Hi. destruct i as [|i].
    + cbn. rewrite (contains_iff n) by auto. lra.
    + rewrite iter_S'. apply F. lia.
Qed.

(** The vector is in the sector of [h]. *)
Definition aims n s h (v : pt) : Prop := flat_surface n s /\ closed_surface n s /\ h < n /\ v <> (0, 0)%R /\ sector_contains s h v.

Lemma aims_collinear n s h v : aims n s h v -> pdet (vv s h) v = 0%R -> exists c, (0 < c)%R /\ v = pscale c (vv s h).
Proof.
  intros (S0 & Cl & Hh & Nv & Sc) E. apply (contains_iff n) in Sc as [_ D]; auto. assert (D' := corner_det n s h S0 Hh (Cl h Hh)).
  set (w := vv s (fV s h)) in *. set (b := vv s h) in *. clearbody w b.
  exists (- pdet w v / pdet b w)%R. split.
  - apply Rdiv_lt_0_compat; lra.
  - destruct b as [b1 b2], v as [v1 v2], w as [w1 w2]. unfold pdet, pscale in *. cbn [fst snd] in *.
    assert (E1 := f_equal (Rmult w1) E). assert (E2 := f_equal (Rmult w2) E).
    apply pt_eq; cbn [fst snd]; apply (Rmult_eq_reg_r (b1 * w2 - b2 * w1)); try lra.
    + replace (- (w1 * v2 - w2 * v1) / (b1 * w2 - b2 * w1) * b1 * (b1 * w2 - b2 * w1))%R with (- (w1 * v2 - w2 * v1) * b1)%R by (field; lra). lra.
    + replace (- (w1 * v2 - w2 * v1) / (b1 * w2 - b2 * w1) * b2 * (b1 * w2 - b2 * w1))%R with (- (w1 * v2 - w2 * v1) * b2)%R by (field; lra). lra.
Qed.

Lemma insert_loop_ok n (vector : vec K) fuel : forall s h, aims n s h (vden vector) ->
  match insert_loop fuel s h vector with
  | Ok (s', h', l) => aims n s' h' (vden vector) /\ carried (vden vector) l s h s' h' /\
      ((ccw (vat' s' h') vector = COLLINEAR /\ inside_edge s' h' (vden vector)) \/ (ccw (vat' s' h') vector <> COLLINEAR /\ inside s' h' (vden vector)))
  | Throw => exists l s' h' c, aims n s' h' (vden vector) /\ carried (vden vector) l s h s' h' /\ (1 <= c)%R /\ vden vector = pscale c (vv s' h')
  | OutOfFuel => True
  | UB => False
  end.
Proof.
  induction fuel as [|k IH]; intros s h A; cbn [insert_loop]; [exact I|].
  pose proof A as (S0 & Cl & Hh & Nv & Sc). assert (W := fs_wf n s S0). assert (L := fs_length n s S0).
  rewrite from_he_Ok by now rewrite L. cbn [bind]. assert (C := ccw_cases (vat' s h) vector). change (vden (vat' s h)) with (vv s h) in C.
  pose proof Sc as Sc'. apply (contains_iff n) in Sc' as [D1 D2]; auto.
  destruct (ccw_eqb (ccw (vat' s h) vector) COLLINEAR) eqn:Ec.
  - apply ccw_eqb_spec in Ec. rewrite Ec in C. destruct (aims_collinear n s h _ A C) as (c & Pc & Evc).
    unfold check_orientation. assert (O := orientation_cases (vsub (vat' s h) vector) vector). rewrite vden_sub in O. change (vden (vat' s h)) with (vv s h) in O.
    assert (Pb : (0 < pdot (vv s h) (vv s h))%R). { apply pdot_pos. intros X. apply Nv. rewrite Evc, X. apply pt_eq; cbn; ring. }
    assert (Ed : pdot (padd (vv s h) (pneg (vden vector))) (vden vector) = ((1 - c) * c * pdot (vv s h) (vv s h))%R).
    { rewrite Evc. unfold pdot, padd, pneg, pscale. cbn [fst snd]. ring. }
    rewrite Ed in O. destruct (orientation (vsub (vat' s h) vector) vector); cbn [bind].
    + split; auto. split; [apply ca_same|]. left. split; auto. exists c. split; auto. split; auto.
      destruct (Rlt_le_dec c 1); auto. exfalso. assert (0 <= c * pdot (vv s h) (vv s h))%R by (apply Rmult_le_pos; lra). nra.
    + exists [], s, h, c. split; auto. split; [apply ca_same|]. split; auto. destruct (Rle_lt_dec 1 c); auto. exfalso.
      assert (0 < c * pdot (vv s h) (vv s h))%R by (apply Rmult_lt_0_compat; lra). nra.
    + exists [], s, h, c. split; auto. split; [apply ca_same|]. split; auto. destruct (Rle_lt_dec 1 c); auto. exfalso.
      assert (0 < c * pdot (vv s h) (vv s h))%R by (apply Rmult_lt_0_compat; lra). nra.
  - assert (Nc : ccw (vat' s h) vector <> COLLINEAR) by (intros X; rewrite X in Ec; discriminate).
    assert (P1 : (0 < pdet (vv s h) (vden vector))%R) by (destruct (ccw (vat' s h) vector); try lra; congruence).
    rewrite (next_Ok n) by auto. cbn [bind]. assert (Hf := nF_lt n _ W h Hh). rewrite from_he_Ok by now rewrite L. cbn [bind].
    assert (C2 := ccw_cases (vat' s (nF (fT s) h)) (vsub vector (vat' s h))). rewrite vden_sub in C2.
    change (vden (vat' s (nF (fT s) h))) with (vv s (fF s h)) in C2. change (vden (vat' s h)) with (vv s h) in C2.
    destruct (ccw_eqb (ccw (vat' s (nF (fT s) h)) (vsub vector (vat' s h))) COUNTERCLOCKWISE) eqn:Ec2.
    + apply ccw_eqb_spec in Ec2. rewrite Ec2 in C2. split; auto. split; [apply ca_same|]. right. split; auto. split; auto. split; auto.
      rewrite (vv_fV n s h S0 Hh (Cl h Hh)) in D2. unfold pdet, pneg in D2 |- *. cbn [fst snd] in D2. lra.
    + assert (X := insert_flip_ok n h vector k s (nF (fT s) h) S0 Cl Hh Hf). destruct (insert_flip k s h vector (nF (fT s) h)) as [[s1 l1]| | |]; try tauto. cbn [bind].
      destruct X as (S1 & Cl1 & V1 & C1). assert (D3 : (0 <= pdet (vv s1 h) (vden vector))%R) by (rewrite V1; lra).
      assert (X := insert_turn_ok n s1 vector k S1 Cl1 Nv h Hh D3). destruct (insert_turn k s1 h vector) as [h1| | |]; try tauto. cbn [bind].
      destruct X as (Hh1 & Sc1 & Fc). assert (A1 : aims n s1 h1 (vden vector)) by (unfold aims; tauto).
      assert (C3 : carried (vden vector) l1 s h s1 h1).
      { rewrite <- (app_nil_r l1). apply carried_app with s1 h; auto. apply ca_turn with h1; auto. apply ca_same. }
      assert (X := IH s1 h1 A1). destruct (insert_loop k s1 h1 vector) as [[[s2 h2] l2]| | |]; cbn [bind]; auto.
      * destruct X as (A2 & C4 & R). split; auto. split; auto. eapply carried_app; eauto.
      * destruct X as (l2 & s2 & h2 & c & A2 & C4 & R). exists (l1 ++ l2), s2, h2, c. split; auto. split; auto. eapply carried_app; eauto.
Qed.
End loop.
