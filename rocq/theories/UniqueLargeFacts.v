(** * Facts about unique large edges *)
From Coq Require Import ZArith Reals List Arith Bool Lia Lra Psatz.
From Verif Require Import Base HalfEdge HalfEdgeFacts Perm PermSpec PermFacts Combinatorial CombinatorialSpec CombinatorialFacts CombinatorialHistory ExactReal Vector PlaneSpec Plane VectorFacts
  CombinatorialOps FlatTri FlatSpec ChainSpec FlatFacts FlatSum FlatOps FlatAngle DeformSpec Tracked Vertical VerticalSpec VerticalFacts VerticalComponents Lengths IntervalExchange IntervalExchangeSpec
  IntervalExchangeFacts IntervalExchangeFlow IntervalExchangeLarge IntervalExchangeMade UniqueLarge UniqueLargeSpec UniqueLargeFlip UniqueLargeFlow.
Import ListNotations.
Local Open Scope nat_scope.

Lemma sum_upd (f : nat -> nat) x y : forall l, NoDup l -> In x l -> list_sum (map (fun z => if z =? x then y else f z) l) + f x = list_sum (map f l) + y.
Proof.
  assert (G : forall l, ~ In x l -> map (fun z => if z =? x then y else f z) l = map f l).
  { intros l N. apply map_ext_in. intros z Z. destruct (Nat.eqb_spec z x) as [->|]; auto. contradiction. }
  induction l as [|z l IH]; intros N I; [destruct I|]. apply NoDup_cons_iff in N as [N1 N2]. cbn [map list_sum fold_right]. destruct I as [->|I].
  - rewrite Nat.eqb_refl, G by auto. unfold list_sum. lia.
  - destruct (Nat.eqb_spec z x) as [->|]; [contradiction|]. specialize (IH N2 I). unfold list_sum in *. lia.
Qed.

Section one.
Context {K : ExactReal}.
Variables (n : nat) (v : pt).
Hypothesis Nv : v <> (0, 0)%R.
Implicit Types s : flat K.

(** The total number of crossings of the lines from the vertices until they reach [u]. *)
Definition potential s u k := exists f, (forall x, joined n s v u x -> (0 < rightwards s v x)%R -> (0 < rightwards s v (fF s (fF s x)))%R ->
  within s v u (f x) (neg (fF s x), rightwards s v (fF s (fF s x)))) /\ list_sum (map f (seq 0 n)) = k.
Definition slanted s u := forall x, joined n s v u x -> rightwards s v x <> 0%R.

Lemma signs e a b : (e + a + b = 0)%R -> (0 < e)%R -> a <> 0%R -> b <> 0%R -> (Rabs a <= Rabs e)%R -> (Rabs b <= Rabs e)%R -> (a < 0 /\ b < 0)%R.
Proof. intros Z P A B La Lb. unfold Rabs in *. repeat destruct (Rcase_abs _); lra. Qed.

Lemma flip_step s s' u e : closed_flat n s -> slanted s u -> joined n s v u e -> wide s v e -> u <> e -> u <> neg e -> fflip s e = (s', Ok tt) ->
  forall k, potential s u k -> slanted s' u /\ exists k', k' < k /\ potential s' u k'.
Proof.
  intros CS SL J W N1 N2 E k (f & P & Ek). assert (He := proj2 (joined_lt n s v CS _ _ J)). assert (R0 := SL e J).
  assert (QQ : exists e a b c d, quad n s s' v e a b c d /\ (0 < rightwards s v e)%R /\ wide s v e /\ joined n s v u e /\ u <> e).
  { destruct (flip_quad n s s' v CS e He E) as (a & b & c & d & Q). destruct (Rlt_dec 0 (rightwards s v e)) as [L|L]; [exists e, a, b, c, d; auto|].
    exists (neg e), c, d, a, b. split; [now apply quad_sym|]. split; [rewrite (R_neg n s v CS) by auto; lra|]. split; [now apply (wide_neg n s v e (proj1 CS) He)|]. split; auto. apply jo_trans with e; auto. now apply jo_across. }
  clear e J W N1 N2 E He R0. destruct QQ as (e & a & b & c & d & Q & Pe & W & J & Nu). assert (R0 : rightwards s v e <> 0%R) by lra.
  assert (JS := fun x I => jo_trans n s v u e x J (joined_six n s s' v e a b c d Q e x R0 ltac:(now left) I)).
  destruct (wide_sides n s s' v e a b c d Q W) as (W1 & W2 & W3 & W4). destruct (sums n s s' v CS e a b c d Q) as [Z1 Z2].
  assert (Na : rightwards s v a <> 0%R) by (apply SL, JS; cbn; tauto). assert (Nb : rightwards s v b <> 0%R) by (apply SL, JS; cbn; tauto).
  assert (Nc : rightwards s v c <> 0%R) by (apply SL, JS; cbn; tauto). assert (Nd : rightwards s v d <> 0%R) by (apply SL, JS; cbn; tauto).
  destruct (signs _ _ _ Z1 Pe Na Nb W1 W2) as [Pa Pb].
  assert (Pcd : (- rightwards s v c < 0 /\ - rightwards s v d < 0)%R) by (apply (signs (rightwards s v e)); rewrite ?Rabs_Ropp; auto; lra). destruct Pcd as [Pc Pd].
  assert (Pc' : (0 < rightwards s v c)%R) by lra. assert (Pd' : (0 < rightwards s v d)%R) by lra.
  assert (Wd := P d (JS d ltac:(cbn; tauto)) Pd'). rewrite (q6 _ _ _ _ _ _ _ _ _ Q), (q4 _ _ _ _ _ _ _ _ _ Q), neg_neg in Wd. specialize (Wd Pc').
  destruct (below_line n s s' v CS e a b c d Q Pe Pa Pb Pc' Pd' u Nu (f d) Wd) as [Lf CA].
  assert (R0' : rightwards s' v e <> 0%R) by (rewrite (ra _ _ _ _ _ _ _ _ _ Q); destruct CA as [[L _]|[L _]]; lra).
  assert (JB := fun x => joined_before n s s' v e a b c d Q u x R0). split.
  - intros x Jx. assert (Jx' := JB x Jx). assert (Hx := proj2 (joined_lt n s v CS _ _ Jx')). destruct (Nat.eq_dec x e) as [->|D1]; auto. destruct (Nat.eq_dec x (neg e)) as [->|D2].
    + rewrite (rn _ _ _ _ _ _ _ _ _ Q). rewrite (ra _ _ _ _ _ _ _ _ _ Q) in R0'. lra.
    + unfold rightwards. rewrite (qr _ _ _ _ _ _ _ _ _ Q) by auto. now apply SL.
  - assert (Hd := qd _ _ _ _ _ _ _ _ _ Q). assert (He := qe _ _ _ _ _ _ _ _ _ Q). assert (Nde : d <> e). { assert (N := qN _ _ _ _ _ _ _ _ _ Q). clear - N. apply NoDup_cons_iff in N as [N _]. cbn [In] in N. tauto. }
    assert (Sd : In d (seq 0 n)) by (apply in_seq; lia). assert (Se : In e (seq 0 n)) by (apply in_seq; lia).
    assert (O : forall x, joined n s' v u x -> (0 < rightwards s' v x)%R -> (0 < rightwards s' v (fF s' (fF s' x)))%R -> ~ In x [e; a; b; neg e; c; d] ->
      within s' v u (f x) (neg (fF s' x), rightwards s' v (fF s' (fF s' x)))).
    { intros x Jx P1 P2 I. assert (Jx' := JB x Jx). assert (Hx := proj2 (joined_lt n s v CS _ _ Jx')). assert (I1 := not_six_F n s s' v CS e a b c d Q x Hx I). assert (H1 := F_lt n s CS x Hx). assert (I2 := not_six_F n s s' v CS e a b c d Q _ H1 I1). assert (H2 := F_lt n s CS _ H1).
      rewrite (qo _ _ _ _ _ _ _ _ _ Q x), (qo _ _ _ _ _ _ _ _ _ Q _ H1), (not_six_r n s s' v e a b c d Q) in * by auto.
      apply (same_line n s s' v CS e a b c d Q Pe Pa Pb Pc' Pd' u Nu); auto; cbn [fst]; [now apply (N_lt n s CS)|]. intros Ex. apply I1. rewrite <- Ex, neg_neg. cbn; tauto. }
    destruct CA as [[L A]|[L A]].
    + set (f' := fun x => if x =? e then pred (f d) else if x =? d then 0 else f x). exists (list_sum (map f' (seq 0 n))). split; [|exists f'; split; auto].
      * assert (E1 := sum_upd (fun x => if x =? d then 0 else f x) e (pred (f d)) (seq 0 n) (seq_NoDup n 0) Se). assert (E2 := sum_upd f d 0 (seq 0 n) (seq_NoDup n 0) Sd). change (list_sum (map f' (seq 0 n)) + (if e =? d then 0 else f e) = list_sum (map (fun x => if x =? d then 0 else f x) (seq 0 n)) + pred (f d)) in E1. clear - E1 E2 Lf Ek. destruct (e =? d); lia.
      * intros x Jx P1 P2. destruct (in_dec Nat.eq_dec x [e; a; b; neg e; c; d]) as [I|I].
        -- destruct (corners_after n s s' v e a b c d Q Pa Pb x I P1 P2) as [(-> & _ & ->)|(-> & L' & _)]; [|lra]. unfold f'. now rewrite Nat.eqb_refl.
        -- unfold f'. destruct (Nat.eqb_spec x e) as [->|]; [exfalso; apply I; cbn; tauto|]. destruct (Nat.eqb_spec x d) as [->|]; [exfalso; apply I; cbn; tauto|]. now apply O.
    + set (f' := fun x => if x =? d then pred (f d) else f x). exists (list_sum (map f' (seq 0 n))). split; [|exists f'; split; auto].
      * assert (E2 := sum_upd f d (pred (f d)) (seq 0 n) (seq_NoDup n 0) Sd). fold f' in E2. lia.
      * intros x Jx P1 P2. destruct (in_dec Nat.eq_dec x [e; a; b; neg e; c; d]) as [I|I].
        -- destruct (corners_after n s s' v e a b c d Q Pa Pb x I P1 P2) as [(-> & L' & _)|(-> & _ & ->)]; [lra|]. unfold f'. now rewrite Nat.eqb_refl.
        -- unfold f'. destruct (Nat.eqb_spec x d) as [->|]; [exfalso; apply I; cbn; tauto|]. now apply O.
Qed.

Lemma component_dec s u (V : vec K) x : closed_flat n s -> vden V = v -> u < n -> rightwards s v u <> 0%R -> joined n s v u x \/ ~ joined n s v u x.
Proof.
  intros CS <- Hu R0. destruct (make_valid n s V (proj1 CS) Nv) as (m & _ & I). destruct (visit_all n s V (proj1 CS) (S n) m u I Hu (le_n _)) as (c & m' & _ & _ & C).
  destruct (in_dec Nat.eq_dec x c) as [X|X]; [left|right; intros J; apply X].
  - apply (reach_class n s V (proj1 CS) u Hu R0). now apply C.
  - apply C. now apply (reach_class n s V (proj1 CS) u Hu R0).
Qed.
Lemma flows_potential s u (V : vec K) : closed_flat n s -> vden V = v -> u < n -> flows_into n s v u -> exists k, potential s u k.
Proof.
  intros CS EV Hu [SL H]. assert (R0 := SL u (jo_same n s v u Hu)).
  assert (A : forall l, (forall x, In x l -> x < n) -> exists f, forall x, In x l -> joined n s v u x -> (0 < rightwards s v x)%R -> (0 < rightwards s v (fF s (fF s x)))%R -> within s v u (f x) (neg (fF s x), rightwards s v (fF s (fF s x)))).
  { induction l as [|x l IH]; intros Hl; [exists (fun _ => 0); intros ? []|]. destruct IH as (f & Hf); [intros; apply Hl; now right|]. assert (Hx := Hl x (or_introl eq_refl)).
    assert (B : exists k, joined n s v u x -> (0 < rightwards s v x)%R -> (0 < rightwards s v (fF s (fF s x)))%R -> within s v u k (neg (fF s x), rightwards s v (fF s (fF s x)))).
    { destruct (Rlt_dec 0 (rightwards s v x)) as [P1|P1]; [|exists 0; intros _ Q; contradiction]. destruct (Rlt_dec 0 (rightwards s v (fF s (fF s x)))) as [P2|P2]; [|exists 0; intros _ _ Q; contradiction].
      destruct (corner s v n CS Nv x Hx P1 P2) as (p & Sp & Ep). assert (Hp : fst p < n). { apply (f_equal fst) in Ep. cbn [fst position] in Ep. rewrite Ep. now apply (N_lt n s CS), (F_lt n s CS). }

      destruct (component_dec s u V x CS EV Hu R0) as [J|J]; [|exists 0; intros Q; contradiction]. destruct (H x p J Sp) as [E|(w & E)].
      - exists 0. intros _ _ _. rewrite <- Ep. now apply wi_now. 
      - destruct (hit_within s v n CS u p w E Hp) as (k & Wk). exists k. intros _ _ _. now rewrite <- Ep. }
    destruct B as (k & Bk). exists (fun y => if y =? x then k else f y). intros y Y Jy P1 P2. destruct (Nat.eqb_spec y x) as [->|N]; auto. destruct Y as [->|Y]; [contradiction|]. now apply Hf. }
  destruct (A (seq 0 n)) as (f & Hf); [intros x X; apply in_seq in X; lia|]. exists (list_sum (map f (seq 0 n))), f. split; auto. intros x J. apply Hf; auto. apply in_seq. assert (Q := joined_lt n s v CS _ _ J). lia.
Qed.
End one.

(** ** Visits *)
Section visit.
Context {K : ExactReal}.
Variables (n : nat) (s : flat K) (v : vec K) (u : nat).
Hypothesis S0 : flat_surface n s.
Notation r := (rightwards s (vden v)).
Notation F := (fF s).
Notation reach := (reach s v).
Definition spared x := x = u \/ x = neg u \/ ~ wide s (vden v) x.

Lemma visit_until_ok : forall k m start C, valid n s v m -> start < n -> unvisited n C < k -> (forall x, In x C -> x < n) -> NoDup C ->
  exists o C' m', visit_until k m u start C = Ok (o, C', m') /\ valid n s v m' /\ incl C C' /\ NoDup C' /\ (forall x, In x C' -> x < n) /\
    match o with
    | Some e => reach start e /\ wide s (vden v) e /\ e <> u /\ e <> neg u /\ e < n
    | None => In start C' /\ (forall x, In x C' -> In x C \/ reach start x /\ spared x) /\ (forall x y, In x C' -> ~ In x C -> r x <> 0%R -> y = neg x \/ y = F x \/ y = F (F x) -> In y C')
    end.
Proof.
  induction k as [|k IH]; intros m start C I Hs U HC ND; [lia|]. cbn [visit_until]. destruct (mem_list start C) eqn:M.
  - apply mem_list_In in M. exists None, C, m. split; auto. split; auto. split; [apply incl_refl|]. split; auto. split; auto. split; auto. split; auto. intros x y A B. contradiction.
  - apply mem_list_out in M.
    assert (B : exists b m1, (if (start =? u) || (start =? neg u) then Ok (false, m) else large m start) = Ok (b, m1) /\ valid n s v m1 /\
      if b : bool then wide s (vden v) start /\ start <> u /\ start <> neg u else spared start).
    { destruct (Nat.eqb_spec start u) as [->|N1]; cbn [orb]; [exists false, m; split; auto; split; auto; now left|].
      destruct (Nat.eqb_spec start (neg u)) as [->|N2]; [exists false, m; split; auto; split; auto; right; now left|].
      destruct (large_ok n s v m start I Hs) as (b & m1 & E & B & I1). exists b, m1. split; auto. split; auto. destruct b; [split; auto; now apply B|]. right. right. intros Q. apply B in Q. discriminate. }
    destruct B as (b & m0 & -> & I0 & B). cbn [bind]. clear m I. rename m0 into m, I0 into I.
    assert (U1 := unvisited_lt n C start Hs M). assert (ND1 : NoDup (start :: C)) by now constructor.
    assert (HC1 : forall x, In x (start :: C) -> x < n) by (intros x [<-|X]; auto).
    destruct b; [exists (Some start), (start :: C), m; split; auto; split; auto; split; [apply incl_tl, incl_refl|]; split; auto; split; auto; split; [constructor|tauto]|].
    destruct (ccw_ok n s v m I start Hs) as (c & m1 & -> & Cc & I1). cbn [bind].
    assert (Cr : ccw_eqb c COLLINEAR = true <-> r start = 0%R).
    { rewrite ccw_eqb_spec. unfold ccw_at in Cc. unfold rightwards. assert (E : pdet (vv s start) (vden v) = (- pdet (vden v) (vv s start))%R) by (unfold pdet; ring). rewrite E.
      destruct c; split; intros Q; try discriminate; auto; try lra. }
    destruct (ccw_eqb c COLLINEAR) eqn:Ec.
    + assert (Z := proj1 Cr eq_refl). exists None, (start :: C), m1. split; auto. split; auto. split; [apply incl_tl, incl_refl|]. split; auto. split; auto. split; [now left|]. split.
      * intros x [<-|X]; auto. right. split; auto. constructor.
      * intros x y [<-|X] Nx Rx; contradiction.
    + assert (Z : r start <> 0%R) by (intros Q; apply Cr in Q; congruence). assert (W := fs_wf n s S0). assert (H0 := neg_ltn n _ W start Hs). assert (H1 := fF_lt n s start S0 Hs). assert (H2 := fF_lt n s _ S0 H1).
      assert (T : forall y, y = neg start \/ y = F start \/ y = F (F start) -> forall x, reach y x -> reach start x).
      { intros y Y x X. apply reach_trans with y; auto. apply re_step with start; auto. constructor. }
      destruct (IH m1 (neg start) (start :: C) I1 H0) as (o2 & C2 & m2 & -> & I2 & L2 & N2 & B2 & P2); auto; [lia|]. cbn [bind].
      destruct o2 as [e|]; [exists (Some e), C2, m2; split; auto; split; auto; split; [intros x X; apply L2; now right|]; split; auto; split; auto; split; [apply T with (neg start); tauto|tauto]|].
      destruct P2 as (S2 & R2 & X2). rewrite (vd_surface _ _ _ _ I2), (next_Ok n) by auto. cbn [bind]. fold (fF s start).
      assert (U2 := unvisited_le n _ _ L2).
      destruct (IH m2 (F start) C2 I2 H1) as (o3 & C3 & m3 & -> & I3 & L3 & N3 & B3 & P3); auto; [lia|]. cbn [bind].
      destruct o3 as [e|]; [exists (Some e), C3, m3; split; auto; split; auto; split; [intros x X; apply L3, L2; now right|]; split; auto; split; auto; split; [apply T with (F start); tauto|tauto]|].
      destruct P3 as (S3 & R3 & X3). rewrite (vd_surface _ _ _ _ I3), (prev_Ok n), (pF_tri n) by auto. cbn [bind]. change (nF (fT s)) with (fF s).
      assert (U3 := unvisited_le n _ _ L3).
      destruct (IH m3 (F (F start)) C3 I3 H2) as (o4 & C4 & m4 & -> & I4 & L4 & N4 & B4 & P4); auto; [lia|].
      exists o4, C4, m4. split; auto. split; auto. split; [intros x X; apply L4, L3, L2; now right|]. split; auto. split; auto.
      destruct o4 as [e|]; [split; [apply T with (F (F start)); tauto|tauto]|]. destruct P4 as (S4 & R4 & X4). split; [apply L4, L3, L2; now left|]. split.
      * intros x X. destruct (R4 x X) as [X'|[X' Y']]; [|right; split; auto; eapply T; [|exact X']; auto]. destruct (R3 x X') as [X''|[X'' Y'']]; [|right; split; auto; eapply T; [|exact X'']; auto].
        destruct (R2 x X'') as [[<-|X3']|[X3' Y3]]; [right; split; auto; constructor|auto|right; split; auto; eapply T; [|exact X3']; auto].
      * intros x y X Nx Rx Y. destruct (in_dec Nat.eq_dec x C3) as [J3|J3]; [|eapply X4; eauto].
        destruct (in_dec Nat.eq_dec x C2) as [J2|J2]; [|apply L4; eapply X3; eauto].
        destruct (Nat.eq_dec x start) as [->|Ns]; [destruct Y as [->|[->| ->]]; auto|].
        apply L4, L3. apply (X2 x y); auto. intros [Q|Q]; auto.
Qed.

Hypothesis Hu : u < n.
Hypothesis Ru : r u <> 0%R.
Lemma visit_from k m : valid n s v m -> n < k -> exists o C m', visit_until k m u u [] = Ok (o, C, m') /\ valid n s v m' /\
  match o with
  | Some e => joined n s (vden v) u e /\ wide s (vden v) e /\ e <> u /\ e <> neg u /\ e < n
  | None => NoDup C /\ (forall x, In x C <-> joined n s (vden v) u x) /\ (forall x, joined n s (vden v) u x -> wide s (vden v) x -> x = u \/ x = neg u)
  end.
Proof.
  intros I Hk. destruct (visit_until_ok k m u [] I Hu) as (o & C & m' & E & I' & _ & N & B & P); auto; [now rewrite unvisited_nil|intros x []|constructor|].
  exists o, C, m'. split; auto. split; auto. destruct o as [e|].
  - destruct P as [P1 P2]. split; auto. now apply (reach_class n s v S0 u Hu Ru).
  - destruct P as (P1 & P2 & P3). assert (A : forall x, In x C <-> joined n s (vden v) u x).
    { intros x. rewrite <- (reach_class n s v S0 u Hu Ru). split.
      - intros Q. destruct (P2 x Q) as [[]|[Q' _]]; auto.
      - intros Q. induction Q as [|x y Q IH Nx Y]; auto. apply (P3 x y); auto. }
    split; auto. split; auto. intros x J W. apply A in J. destruct (P2 x J) as [[]|[_ Q]]. unfold spared in Q. tauto.
Qed.
End visit.

(** ** The loop *)
(** The quadrilateral at a wide edge is convex. *)
Lemma convex_wide (v e a b c d : pt) : v <> (0, 0)%R -> pdet e v <> 0%R -> pdet a v <> 0%R -> pdet b v <> 0%R -> pdet c v <> 0%R -> pdet d v <> 0%R ->
  (Rabs (pdet a v) <= Rabs (pdet e v))%R -> (Rabs (pdet b v) <= Rabs (pdet e v))%R -> (Rabs (pdet c v) <= Rabs (pdet e v))%R -> (Rabs (pdet d v) <= Rabs (pdet e v))%R ->
  (0 < pdet e a)%R -> (0 < pdet b e)%R -> (0 < pdet (pneg e) c)%R -> (0 < pdet d (pneg e))%R -> padd (padd e a) b = (0, 0)%R -> padd (padd (pneg e) c) d = (0, 0)%R ->
  (0 < pdet d a /\ 0 < pdet b c)%R.
Proof.
  intros _ Ne Na Nb Nc Nd Wa Wb Wc Wd D1 D2 D3 D4 Z1 Z2.
  assert (S1 : (pdet e v + pdet a v + pdet b v = 0)%R).
  { apply (f_equal (fun p => pdet p v)) in Z1. clear - Z1. unfold pdet, padd in *. cbn [fst snd] in *. lra. }
  assert (S2 : (- pdet e v + pdet c v + pdet d v = 0)%R).
  { apply (f_equal (fun p => pdet p v)) in Z2. clear - Z2. unfold pdet, padd, pneg in *. cbn [fst snd] in *. lra. }
  assert (E1 : (pdet d a * pdet e v = - pdet d (pneg e) * pdet a v + pdet d v * pdet e a)%R) by (unfold pdet, pneg; cbn [fst snd]; ring).
  assert (E2 : (pdet b c * pdet e v = pdet b e * pdet c v - pdet b v * pdet (pneg e) c)%R) by (unfold pdet, pneg; cbn [fst snd]; ring).
  clear Z1 Z2. set (x := pdet e v) in *. set (xa := pdet a v) in *. set (xb := pdet b v) in *. set (xc := pdet c v) in *. set (xd := pdet d v) in *.
  set (g1 := pdet d a) in *. set (g2 := pdet b c) in *. set (h1 := pdet d (pneg e)) in *. set (h2 := pdet e a) in *. set (h3 := pdet b e) in *. set (h4 := pdet (pneg e) c) in *.
  clearbody x xa xb xc xd g1 g2 h1 h2 h3 h4. destruct (Rlt_dec 0 x) as [P|P].
  - destruct (signs x xa xb) as [Pa Pb]; auto. destruct (signs x (- xc) (- xd)) as [Pc Pd]; rewrite ?Rabs_Ropp; auto; try lra. clear - P Pa Pb Pc Pd D1 D2 D3 D4 E1 E2.
    assert (0 < h1 * - xa)%R by nra. assert (0 < xd * h2)%R by nra. assert (0 < h3 * xc)%R by nra. assert (0 < - xb * h4)%R by nra. split; apply (Rmult_lt_reg_r x); lra.
  - destruct (signs (- x) (- xa) (- xb)) as [Pa Pb]; rewrite ?Rabs_Ropp; auto; try lra. destruct (signs (- x) xc xd) as [Pc Pd]; rewrite ?Rabs_Ropp; auto; try lra. assert (P' : (0 < - x)%R) by lra. clear - P' Pa Pb Pc Pd D1 D2 D3 D4 E1 E2.
    assert (0 < h1 * xa)%R by nra. assert (0 < - xd * h2)%R by nra. assert (0 < h3 * - xc)%R by nra. assert (0 < xb * h4)%R by nra. split; apply (Rmult_lt_reg_r (- x)); lra.
Qed.

Section loop.
Context {K : ExactReal}.
Variables (n : nat) (v : vec K) (u visits : nat).
Hypothesis Nv : vden v <> (0, 0)%R.
Hypothesis Hu : u < n.
Hypothesis Hk : n < visits.
Notation r s := (rightwards s (vden v)).

(** Everything that does not change outside of the component. *)
Definition outside (s s' : flat K) := forall x, x < n -> ~ joined n s (vden v) u x -> vv s' x = vv s x /\ fF s' x = fF s x /\ ~ joined n s' (vden v) u x.

Lemma one_flip (s s' : flat K) e : closed_flat n s -> wide s (vden v) u -> joined n s (vden v) u e -> wide s (vden v) e -> e <> u -> e <> neg u -> fflip s e = (s', Ok tt) ->
  closed_flat n s' /\ wide s' (vden v) u /\ vv s' u = vv s u /\ outside s s'.
Proof.
  intros CS Wu J We N1 N2 E. assert (He := proj2 (joined_lt n s _ CS _ _ J)). destruct (flip_quad n s s' (vden v) CS e He E) as (a & b & c & d & Q). assert (N2' : u <> neg e) by (intros ->; rewrite neg_neg in N2; auto).
  assert (R0 := wide_nonzero n s v CS e Nv He We). split; [|split; [|split]].
  - apply (flip_closed n s s' (vden v) CS e a b c d Q). now destruct (fflip_spec n s e s' (proj1 CS) He E) as (_ & S' & _).
  - apply (wide_kept n s s' (vden v) CS e a b c d Q); auto.
  - apply (qr _ _ _ _ _ _ _ _ _ Q); auto.
  - intros x Hx NJ. assert (I : ~ In x [e; a; b; neg e; c; d]).
    { intros I. apply NJ. apply jo_trans with e; auto. apply (joined_six n s s' (vden v) e a b c d Q); auto. now left. }
    split; [apply (qr _ _ _ _ _ _ _ _ _ Q); auto; intros ->; apply I; cbn; tauto|]. split; [now apply (qo _ _ _ _ _ _ _ _ _ Q)|]. intros J'. apply NJ. now apply (joined_before n s s' (vden v) e a b c d Q).
Qed.

(** When the loop comes to an end. *)
Lemma loop_result : forall fuel (s : flat K) m flips C m', closed_flat n s -> valid n s v m -> wide s (vden v) u -> make_unique_loop fuel visits m u = Ok (flips, C, m') ->
  exists s', fflips s flips = (s', Ok tt) /\ (forall e, In e flips -> e < n) /\ closed_flat n s' /\ valid n s' v m' /\ vv s' u = vv s u /\ outside s s' /\ only_wide n s' (vden v) u /\
    NoDup C /\ (forall x, In x C <-> joined n s' (vden v) u x).
Proof.
  induction fuel as [|fuel IH]; intros s m flips C m' CS I Wu E; [discriminate|]. cbn [make_unique_loop] in E. assert (Ru := wide_nonzero n s v CS u Nv Hu Wu).
  destruct (visit_from n s v u (proj1 CS) Hu Ru visits m I Hk) as (o & C1 & m1 & E1 & I1 & P). rewrite E1 in E. cbn [bind] in E. destruct o as [e|].
  - destruct P as (J & We & N1 & N2 & He). destruct (flip_ok n s v m1 e I1 He) as [Y N]. destruct (can_flip_dec n s e (proj1 CS) He) as [CF|CF]; [|rewrite (N CF) in E; discriminate].
    destruct (Y CF) as (s1 & m2 & Ef & Em & I2). rewrite Em in E. cbn [bind] in E. destruct (one_flip s s1 e CS Wu J We N1 N2 Ef) as (CS1 & Wu1 & V1 & O1).
    destruct (make_unique_loop fuel visits m2 u) as [[[fl C2] m3]| | |] eqn:EL; try discriminate. cbn [bind] in E. injection E as <- <- <-.
    destruct (IH s1 m2 fl C2 m3 CS1 I2 Wu1 EL) as (s' & A1 & A0 & A2 & A3 & A4 & A5 & A6). exists s'. cbn [fflips]. rewrite Ef. split; auto. split; [intros x [<-|X]; auto|]. split; auto. split; auto. split; [congruence|]. split; auto.
    intros x Hx NJ. destruct (O1 x Hx NJ) as (B1 & B2 & B3). destruct (A5 x Hx B3) as (B4 & B5 & B6). split; [congruence|]. split; [congruence|auto].
  - destruct P as (P1 & P2 & P3). injection E as <- <- <-. exists s. split; auto. split; [intros x []|]. split; auto. split; auto. split; auto. split; [intros x Hx NJ; auto|]. split; [split; auto|auto].
Qed.

(** Whether the loop comes to an end. *)
Lemma slanted_flip (s : flat K) e : closed_flat n s -> slanted n (vden v) s u -> joined n s (vden v) u e -> wide s (vden v) e -> can_flip n s e.
Proof.
  intros CS SL J W. assert (He := proj2 (joined_lt n s _ CS _ _ J)). assert (Hn := N_lt n s CS e He). assert (Re := SL e J).
  assert (Jn : joined n s (vden v) u (neg e)) by (apply jo_trans with e; auto; now apply jo_across).
  assert (JF : forall x, joined n s (vden v) u x -> joined n s (vden v) u (fF s x)) by (intros x Jx; apply jo_trans with x; auto; apply jo_face, (joined_lt n s _ CS _ _ Jx)).
  assert (Ha := SL _ (JF _ J)). assert (Hb := SL _ (JF _ (JF _ J))). assert (Hc := SL _ (JF _ Jn)). assert (Hd := SL _ (JF _ (JF _ Jn))).
  assert (Z1 := R_sum n s (vden v) CS e He). assert (Z2 := R_sum n s (vden v) CS _ Hn). rewrite (R_neg n s _ CS) in Z2 by auto.
  destruct (D_pos n s (vden v) CS e He) as (D1 & D2 & D3). destruct (D_pos n s (vden v) CS _ Hn) as (D4 & D5 & D6). rewrite (fs_odd n s (proj1 CS)) in D4, D6 by auto.
  assert (W1 := W _ ltac:(now left)). assert (W2 := W _ ltac:(right; now left)). assert (W3 := W _ ltac:(right; right; now left)). assert (W4 := W _ ltac:(right; right; right; now left)).
  split; auto. split; [now apply (proj2 CS)|]. split; [now apply (proj2 CS)|]. cbv zeta.
  destruct (fs_flat n s (proj1 CS) e He (proj2 CS e He)) as [ZZ _]. destruct (fs_flat n s (proj1 CS) _ Hn (proj2 CS _ Hn)) as [ZZ' _]. rewrite (fs_odd n s (proj1 CS)) in ZZ' by auto.
  unfold rightwards in *. clear - Nv W1 W2 W3 W4 Z1 Z2 D1 D2 D3 D4 D5 D6 Ha Hb Hc Hd Re ZZ ZZ'.
  exact (convex_wide _ _ _ _ _ _ Nv Re Ha Hb Hc Hd W1 W2 W3 W4 D1 D3 D4 D6 ZZ ZZ').
Qed.
Lemma loop_ends : forall k (s : flat K) m, closed_flat n s -> valid n s v m -> wide s (vden v) u -> slanted n (vden v) s u -> potential n (vden v) s u k -> forall fuel, k < fuel ->
  exists flips C m', make_unique_loop fuel visits m u = Ok (flips, C, m') /\ forall s', fflips s flips = (s', Ok tt) -> slanted n (vden v) s' u.
Proof.
  induction k as [k IH] using lt_wf_ind. intros s m CS I Wu SL P fuel L. destruct fuel as [|fuel]; [lia|]. cbn [make_unique_loop]. assert (Ru := wide_nonzero n s v CS u Nv Hu Wu).
  destruct (visit_from n s v u (proj1 CS) Hu Ru visits m I Hk) as (o & C1 & m1 & E1 & I1 & Q). rewrite E1. cbn [bind]. destruct o as [e|].
  - destruct Q as (J & We & N1 & N2 & He). destruct (flip_ok n s v m1 e I1 He) as [Y _]. destruct (Y (slanted_flip s e CS SL J We)) as (s1 & m2 & Ef & Em & I2). rewrite Em. cbn [bind].
    destruct (one_flip s s1 e CS Wu J We N1 N2 Ef) as (CS1 & Wu1 & V1 & O1).
    destruct (flip_step n (vden v) s s1 u e CS SL J We (not_eq_sym N1)) with (k := k) as (SL1 & k' & L' & P'); auto; [intros ->; rewrite neg_neg in N2; auto|].
    destruct (IH k' L' s1 m2 CS1 I2 Wu1 SL1 P' fuel ltac:(lia)) as (fl & C2 & m3 & -> & A). cbn [bind]. exists (e :: fl), C2, m3. split; auto. intros s' E'. cbn [fflips] in E'. rewrite Ef in E'. now apply A.
  - exists [], C1, m1. split; auto. intros s' E'. now injection E' as <-.
Qed.
End loop.
