(** * Facts about the components of a vertical *)
From Coq Require Import ZArith Reals List Arith Bool Lia Lra Psatz.
From Verif Require Import Base HalfEdge HalfEdgeFacts Perm PermSpec PermFacts Combinatorial CombinatorialSpec CombinatorialFacts ExactReal Vector PlaneSpec Plane VectorFacts
  CombinatorialOps FlatTri FlatSpec FlatFacts FlatSum FlatOps FlatAngle Tracked Vertical VerticalSpec VerticalFacts.
Import ListNotations.
Local Open Scope nat_scope.

Lemma mem_list_In x l : mem_list x l = true <-> In x l.
Proof. unfold mem_list. rewrite existsb_exists. split; [intros (y & I & E); apply Nat.eqb_eq in E; now subst|]. intros I. exists x. split; auto. apply Nat.eqb_refl. Qed.
Lemma mem_list_out x l : mem_list x l = false <-> ~ In x l.
Proof. rewrite <- mem_list_In. destruct (mem_list x l); split; congruence. Qed.

(** The half edges that are not visited yet. *)
Definition unvisited (n : nat) (C : list nat) : nat := length (filter (fun x => negb (mem_list x C)) (seq 0 n)).
Lemma unvisited_le n C C' : incl C C' -> unvisited n C' <= unvisited n C.
Proof.
  intros I. unfold unvisited. induction (seq 0 n) as [|x l IH]; cbn [filter]; auto. destruct (mem_list x C) eqn:A, (mem_list x C') eqn:B; cbn [negb length]; auto; try lia.
  apply mem_list_In in A. apply mem_list_out in B. exfalso. auto.
Qed.
Lemma filter_less {A} (f g : A -> bool) l x : (forall y, In y l -> g y = true -> f y = true) -> In x l -> f x = true -> g x = false -> length (filter g l) < length (filter f l).
Proof.
  intros H I Fx Gx. assert (Le : forall l', (forall y, In y l' -> g y = true -> f y = true) -> length (filter g l') <= length (filter f l')).
  { induction l' as [|y l' IH]; intros H'; cbn [filter]; auto. assert (IH' := IH (fun z Z => H' z (or_intror Z))). destruct (g y) eqn:G; [rewrite (H' y (or_introl eq_refl) G); cbn [length]; lia|].
    destruct (f y); cbn [length]; lia. }
  induction l as [|y l IH]; [destruct I|]. assert (H' : forall z, In z l -> g z = true -> f z = true) by (intros; apply H; auto; now right). cbn [filter]. destruct I as [->|I].
  - rewrite Fx, Gx. cbn [length]. specialize (Le l H'). lia.
  - specialize (IH H' I). destruct (g y) eqn:G; [rewrite (H y (or_introl eq_refl) G); cbn [length]; lia|]. destruct (f y); cbn [length]; lia.
Qed.
Lemma unvisited_lt n C x : x < n -> ~ In x C -> unvisited n (x :: C) < unvisited n C.
Proof.
  intros Hx N. unfold unvisited. apply (filter_less _ _ _ x).
  - intros y _ Y. apply negb_true_iff, mem_list_out in Y. apply negb_true_iff, mem_list_out. intros Q. apply Y. now right.
  - apply in_seq. lia.
  - apply negb_true_iff, mem_list_out. auto.
  - apply negb_false_iff, mem_list_In. now left.
Qed.
Lemma unvisited_nil n : unvisited n [] = n.
Proof. unfold unvisited. assert (E : forall l : list nat, filter (fun x => negb (mem_list x [])) l = l) by (induction l as [|a l IH]; cbn in *; congruence). rewrite E. apply seq_length. Qed.

Section components.
Context {K : ExactReal}.
Variables (n : nat) (s : flat K) (v : vec K).
Hypothesis S0 : flat_surface n s.
Notation r := (rightwards s (vden v)).
Notation F := (fF s).

Inductive reach (h : nat) : nat -> Prop :=
| re_same : reach h h
| re_step x y : reach h x -> r x <> 0%R -> y = neg x \/ y = F x \/ y = F (F x) -> reach h y.

Lemma r_neg x : x < n -> r (neg x) = (- r x)%R.
Proof. intros H. unfold rightwards. rewrite (fs_odd n s S0) by auto. unfold pdet, pneg. cbn [fst snd]. ring. Qed.
Lemma reach_trans h x y : reach h x -> reach x y -> reach h y.
Proof. intros A B. induction B; auto. eapply re_step; eauto. Qed.
Lemma reach_lt h x : h < n -> reach h x -> x < n.
Proof.
  intros H R. induction R as [|x y R IH N [->|[->| ->]]]; auto.
  - apply (neg_ltn n _ (fs_wf n s S0)); auto. - apply (fF_lt n s); auto. - apply (fF_lt n s), (fF_lt n s); auto.
Qed.

Lemma visit_ok : forall k m start C, valid n s v m -> start < n -> unvisited n C < k -> (forall x, In x C -> x < n) -> NoDup C ->
  exists C' m', visit k m start C = Ok (C', m') /\ valid n s v m' /\ incl C C' /\ NoDup C' /\ In start C' /\ (forall x, In x C' -> x < n) /\
    (forall x, In x C' -> In x C \/ reach start x) /\
    (forall x y, In x C' -> ~ In x C -> r x <> 0%R -> y = neg x \/ y = F x \/ y = F (F x) -> In y C').
Proof.
  induction k as [|k IH]; intros m start C I Hs U HC ND; [lia|]. cbn [visit]. destruct (mem_list start C) eqn:M.
  - apply mem_list_In in M. exists C, m. split; auto. split; auto. split; [apply incl_refl|]. split; auto. split; auto. split; auto. split; auto. intros x y A B. contradiction.
  - apply mem_list_out in M. destruct (ccw_ok n s v m I start Hs) as (c & m1 & -> & Cc & I1). cbn [bind].
    assert (U1 := unvisited_lt n C start Hs M). assert (ND1 : NoDup (start :: C)) by now constructor.
    assert (HC1 : forall x, In x (start :: C) -> x < n) by (intros x [<-|X]; auto).
    assert (Cr : ccw_eqb c COLLINEAR = true <-> r start = 0%R).
    { rewrite ccw_eqb_spec. unfold ccw_at in Cc. unfold rightwards. assert (E : pdet (vv s start) (vden v) = (- pdet (vden v) (vv s start))%R) by (unfold pdet; ring). rewrite E.
      destruct c; split; intros Q; try discriminate; auto; try lra. }
    destruct (ccw_eqb c COLLINEAR) eqn:Ec.
    + assert (Z := proj1 Cr eq_refl). exists (start :: C), m1. split; auto. split; auto. split; [apply incl_tl, incl_refl|]. split; auto. split; [now left|]. split; auto. split.
      * intros x [<-|X]; auto. right. constructor.
      * intros x y [<-|X] Nx Rx; contradiction.
    + assert (Z : r start <> 0%R) by (intros Q; apply Cr in Q; congruence). assert (W := fs_wf n s S0). assert (H0 := neg_ltn n _ W start Hs). assert (H1 := fF_lt n s start S0 Hs). assert (H2 := fF_lt n s _ S0 H1).
      destruct (IH m1 (neg start) (start :: C) I1 H0) as (C2 & m2 & -> & I2 & L2 & N2 & S2 & B2 & R2 & X2); auto; [lia|]. cbn [bind]. rewrite (vd_surface _ _ _ _ I2), (next_Ok n) by auto. cbn [bind]. fold (fF s start).
      assert (U2 := unvisited_le n _ _ L2).
      destruct (IH m2 (F start) C2 I2 H1) as (C3 & m3 & -> & I3 & L3 & N3 & S3 & B3 & R3 & X3); auto; [lia|]. cbn [bind]. rewrite (vd_surface _ _ _ _ I3), (prev_Ok n), (pF_tri n) by auto. cbn [bind]. change (nF (fT s)) with (fF s).
      assert (U3 := unvisited_le n _ _ L3).
      destruct (IH m3 (F (F start)) C3 I3 H2) as (C4 & m4 & -> & I4 & L4 & N4 & S4 & B4 & R4 & X4); auto; [lia|].
      exists C4, m4. split; auto. split; auto. split; [intros x X; apply L4, L3, L2; now right|]. split; auto. split; [apply L4, L3, L2; now left|]. split; auto.
      assert (T : forall y, y = neg start \/ y = F start \/ y = F (F start) -> forall x, reach y x -> reach start x).
      { intros y Y x X. apply reach_trans with y; auto. apply re_step with start; auto. constructor. }
      split.
      * intros x X. destruct (R4 x X) as [X'|X']; [|right; eapply T; [|exact X']; auto]. destruct (R3 x X') as [X''|X'']; [|right; eapply T; [|exact X'']; auto].
        destruct (R2 x X'') as [[<-|X3']|X3']; [right; constructor|auto|right; eapply T; [|exact X3']; auto].
      * intros x y X Nx Rx Y. destruct (in_dec Nat.eq_dec x C3) as [J3|J3]; [|eapply X4; eauto].
        destruct (in_dec Nat.eq_dec x C2) as [J2|J2]; [|apply L4; eapply X3; eauto].
        destruct (Nat.eq_dec x start) as [->|Ns]; [destruct Y as [->|[->| ->]]; auto|].
        apply L4, L3. apply (X2 x y); auto. intros [Q|Q]; auto.
Qed.

Definition is_component (h : nat) (c : list nat) : Prop := NoDup c /\ forall x, In x c <-> reach h x.
Lemma visit_all k m h : valid n s v m -> h < n -> n < k -> exists c m', visit k m h [] = Ok (c, m') /\ valid n s v m' /\ is_component h c.
Proof.
  intros I Hh Hk. destruct (visit_ok k m h [] I Hh) as (c & m' & E & I' & _ & N & S & B & R & X); auto; [now rewrite unvisited_nil|intros x []|constructor|].
  exists c, m'. split; auto. split; auto. split; auto. intros x. split.
  - intros Q. destruct (R x Q) as [[]|Q']; auto.
  - intros Q. induction Q as [|x y Q IH Nx Y]; auto. apply (X x y); auto.
Qed.

Lemma loop_ok k : n < k -> forall starts m done, valid n s v m -> (forall h, In h starts -> h < n) ->
  exists l m' hs, components_loop k m starts done = Ok (l, m') /\ valid n s v m' /\ Forall2 is_component hs l /\ (forall h, In h hs -> h < n /\ ~ In h done) /\
    (forall h, In h starts -> In h done \/ exists c, In c l /\ In h c) /\
    (forall i j h c, nth_error hs j = Some h -> nth_error l i = Some c -> i < j -> ~ In h c).
Proof.
  intros Hk. induction starts as [|h starts IH]; intros m done I Hs; cbn [components_loop].
  - exists [], m, []. split; auto. split; auto. split; [constructor|]. split; [intros h []|]. split; [intros h []|]. intros i [|j] h c E; discriminate.
  - assert (Hh := Hs h (or_introl eq_refl)). assert (Hs' : forall h, In h starts -> h < n) by (intros; apply Hs; now right).
    destruct (mem_list h done) eqn:M.
    + apply mem_list_In in M. destruct (IH m done I Hs') as (l & m' & hs & E & I' & F2 & A & B & C). exists l, m', hs. split; auto. split; auto. split; auto. split; auto. split; auto.
      intros h' [<-|X]; auto.
    + apply mem_list_out in M. destruct (visit_all k m h I Hh Hk) as (c & m1 & -> & I1 & Cc). cbn [bind].
      destruct (IH m1 (c ++ done) I1 Hs') as (l & m' & hs & -> & I' & F2 & A & B & C). cbn [bind]. exists (c :: l), m', (h :: hs). split; auto. split; auto. split; [now constructor|].
      split; [|split].
      * intros h' [<-|X]; auto. destruct (A h' X) as [A1 A2]. split; auto. intros Q. apply A2, in_or_app. auto.
      * intros h' [<-|X].
        -- right. exists c. split; [now left|]. apply (proj2 Cc). constructor.
        -- destruct (B h' X) as [Q|(c' & Q1 & Q2)]; [|right; exists c'; split; auto; now right]. apply in_app_or in Q as [Q|Q]; auto. right. exists c. split; auto. now left.
      * intros [|i] [|j] h' c' E1 E2 L; try lia; cbn [nth_error] in *.
        -- inv E2. apply nth_error_In in E1. destruct (A h' E1) as [_ A2]. intros Q. apply A2, in_or_app. auto.
        -- apply (C i j); auto. lia.
Qed.

(** ** Reachable half edges *)
Section from.
Variable h : nat.
Hypothesis Hh : h < n.
Hypothesis Rh : r h <> 0%R.
Lemma reach_next x : reach h x -> reach h (F x).
Proof.
  intros R. destruct (Req_dec (r x) 0) as [Z|N]; [|apply re_step with x; auto]. destruct R as [|x y R N Y]; [contradiction|]. assert (Hx := reach_lt h x Hh R).
  assert (E := wf_triangle _ _ (fs_wf n s S0) x Hx). change (F (F (F x)) = x) in E. destruct Y as [->|[->| ->]].
  - rewrite r_neg in Z by auto. exfalso. lra.
  - apply re_step with x; auto.
  - now rewrite E.
Qed.
Lemma reach_joined x y : joined n s (vden v) x y -> (reach h x <-> reach h y).
Proof.
  intros J. induction J as [x Hx|x Hx|x Hx N|x y J IH|x y z J1 IH1 J2 IH2]; try tauto.
  - split; [apply reach_next|]. intros R. assert (E := wf_triangle _ _ (fs_wf n s S0) x Hx). change (F (F (F x)) = x) in E. rewrite <- E. now apply reach_next, reach_next.
  - split; intros R.
    + apply re_step with x; auto.
    + apply re_step with (neg x); auto; [rewrite r_neg by auto; lra|]. left. now rewrite neg_neg.
Qed.
Lemma reach_class x : reach h x <-> joined n s (vden v) h x.
Proof.
  split; intros R.
  - induction R as [|x y R IH N Y]; [now constructor|]. assert (Hx := reach_lt h x Hh R). eapply jo_trans; [exact IH|]. destruct Y as [->|[->| ->]].
    + now apply jo_across. + now apply jo_face. + eapply jo_trans; apply jo_face; auto. now apply (fF_lt n s).
  - apply (reach_joined h x R). constructor.
Qed.
End from.
Lemma reach_vertical h x : r h = 0%R -> reach h x <-> x = h.
Proof. intros Z. split; [|intros ->; constructor]. intros R. induction R as [|x y R IH N Y]; auto. subst x. contradiction. Qed.
Lemma vertical_component h c : r h = 0%R -> is_component h c -> c = [h].
Proof.
  intros Z [N C]. assert (X : forall x, In x c <-> x = h) by (intros x; rewrite C; now apply reach_vertical). clear - N X. destruct c as [|a [|b c]].
  - exfalso. now apply (X h). - f_equal. apply X. now left.
  - exfalso. assert (a = h) by (apply X; now left). assert (b = h) by (apply X; right; now left). subst. inversion N. apply H1. now left.
Qed.

Theorem components_ok k m : valid n s v m -> n < k ->
  exists l m', components k m = Ok (l, m') /\ valid n s v m' /\
    (forall c, In c l -> NoDup c /\ exists h, h < n /\ ((r h <> 0%R /\ forall x, In x c <-> joined n s (vden v) h x) \/ (r h = 0%R /\ c = [h]))) /\
    (forall h, h < n -> exists c, In c l /\ In h c) /\
    (forall i j c c' x, nth_error l i = Some c -> nth_error l j = Some c' -> i <> j -> In x c -> In x c' -> r x = 0%R /\ (c = [x] \/ c' = [x])).
Proof.
  intros I Hk. unfold components. rewrite (vd_surface _ _ _ _ I).
  assert (E : half_edges (fT s) = seq 0 n). { unfold half_edges. f_equal. unfold tsize, psize. apply (fwd_len _ _ (wfV _ _ (fs_wf n s S0))). }
  rewrite E. destruct (loop_ok k Hk (seq 0 n) m [] I) as (l & m' & hs & -> & I' & F2 & A & B & C). { intros h Q. apply in_seq in Q. lia. }
  exists l, m'. split; auto. split; auto.
  assert (Q : forall i c, nth_error l i = Some c -> exists h, nth_error hs i = Some h /\ h < n /\ is_component h c).
  { clear - F2 A. intros i c. assert (A' := fun h Q => proj1 (A h Q)). clear A. revert i. induction F2 as [|h c0 hs l X F2 IH]; intros [|i] E; try discriminate; cbn [nth_error] in *.
    - inv E. exists h. split; auto. split; auto. apply A'. now left. - apply IH; auto. intros h0 H0. apply A'. now right. }
  split; [|split].
  - intros c Ic. apply In_nth_error in Ic as (i & Ei). destruct (Q i c Ei) as (h & _ & Hh & Cc). split; [apply Cc|]. exists h. split; auto. destruct (Req_dec (r h) 0) as [Z|Z].
    + right. split; auto. now apply vertical_component. + left. split; auto. intros x. rewrite (proj2 Cc). now apply reach_class.
  - intros h Hh. destruct (B h) as [[]|X]; auto. apply in_seq. lia.
  - assert (G : forall i j c c' x, nth_error l i = Some c -> nth_error l j = Some c' -> i < j -> In x c -> In x c' -> r x = 0%R /\ (c = [x] \/ c' = [x])).
    { intros i j c c' x Ei Ej L Xc Xc'. destruct (Q i c Ei) as (h & _ & Hh & Cc). destruct (Q j c' Ej) as (h' & Eh' & Hh' & Cc'). assert (N := C i j h' c Eh' Ei L).
      destruct (Req_dec (r h) 0) as [Z|Z].
      - assert (c = [h]) by now apply vertical_component. subst c. destruct Xc as [->|[]]. auto.
      - destruct (Req_dec (r h') 0) as [Z'|Z']; [assert (c' = [h']) by (now apply vertical_component); subst c'; destruct Xc' as [->|[]]; auto|].
        exfalso. apply N. apply (proj2 Cc), (reach_class h Hh Z). apply (proj2 Cc), (reach_class h Hh Z) in Xc. apply (proj2 Cc'), (reach_class h' Hh' Z') in Xc'.
        eapply jo_trans; [exact Xc|]. now apply jo_sym. }
    intros i j c c' x Ei Ej L Xc Xc'. destruct (Nat.lt_trichotomy i j) as [?|[?|?]]; [now apply (G i j)|contradiction|]. destruct (G j i c' c x) as [Z [O|O]]; auto.
Qed.
Lemma visit_valid k : forall m start C C' m', valid n s v m -> start < n -> visit k m start C = Ok (C', m') -> valid n s v m'.
Proof.
  induction k as [|k IH]; intros m start C C' m' I Hs E; [discriminate|]. cbn [visit] in E. destruct (mem_list start C); [now inv E|].
  destruct (ccw_ok n s v m I start Hs) as (c & m1 & E1 & _ & I1). rewrite E1 in E. cbn [bind] in E. destruct (ccw_eqb c COLLINEAR); [now inv E|].
  assert (W := fs_wf n s S0). assert (H0 := neg_ltn n _ W start Hs). assert (H1 := fF_lt n s start S0 Hs). assert (H2 := fF_lt n s _ S0 H1).
  destruct (visit k m1 (neg start) (start :: C)) as [[C2 m2]| | |] eqn:E2; try discriminate. assert (I2 := IH _ _ _ _ _ I1 H0 E2). cbn [bind] in E.
  rewrite (vd_surface _ _ _ _ I2), (next_Ok n) in E by auto. cbn [bind] in E. change (nF (fT s)) with (fF s) in E.
  destruct (visit k m2 (F start) C2) as [[C3 m3]| | |] eqn:E3; try discriminate. assert (I3 := IH _ _ _ _ _ I2 H1 E3). cbn [bind] in E.
  rewrite (vd_surface _ _ _ _ I3), (prev_Ok n), (pF_tri n) in E by auto. cbn [bind] in E. change (nF (fT s)) with (fF s) in E.
  apply (IH _ _ _ _ _ I3 H2 E).
Qed.
Lemma loop_valid k : forall starts m done l m', valid n s v m -> (forall h, In h starts -> h < n) -> components_loop k m starts done = Ok (l, m') -> valid n s v m'.
Proof.
  induction starts as [|h starts IH]; intros m done l m' I Hs E; cbn [components_loop] in E; [now inv E|]. assert (Hs' : forall h, In h starts -> h < n) by (intros; apply Hs; now right).
  destruct (mem_list h done); [now apply (IH _ _ _ _ I Hs' E)|]. destruct (visit k m h []) as [[c m1]| | |] eqn:E1; try discriminate. assert (I1 := visit_valid k m h [] c m1 I (Hs h (or_introl eq_refl)) E1). cbn [bind] in E.
  destruct (components_loop k m1 starts (c ++ done)) as [[l2 m2]| | |] eqn:E2; try discriminate. inv E. now apply (IH _ _ _ _ I1 Hs' E2).
Qed.
Lemma components_valid k m l m' : valid n s v m -> components k m = Ok (l, m') -> valid n s v m'.
Proof.
  intros I. apply loop_valid; auto. intros h Q. rewrite (vd_surface _ _ _ _ I) in Q. now apply (half_edges_lt n (fT s) h (fs_wf n s S0)) in Q.
Qed.
End components.
