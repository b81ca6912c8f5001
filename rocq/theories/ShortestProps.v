(** * Theorems on shortest edges *)
From Coq Require Import ZArith Reals List Arith Bool Lia Lra Psatz.
From Verif Require Import Base HalfEdge HalfEdgeFacts Perm PermSpec PermFacts IndexedSet Combinatorial CombinatorialSpec
  CombinatorialFacts CombinatorialHistory CombinatorialOps CombinatorialProps ExactReal Vector PlaneSpec Plane VectorFacts VectorProps
  FlatTri FlatSpec FlatFacts FlatLinear FlatProps ChainFacts PointFacts.
Import ListNotations.
Local Open Scope R_scope.

(** ** The least element *)
Lemma min_element_Ok {A} (less : A -> A -> outcome bool) (le : A -> A -> Prop) (D : A -> Prop) : (forall a b c, le a b -> le b c -> le a c) -> (forall a b, le a b \/ le b a) ->
  (forall a b, D a -> D b -> exists o, less a b = Ok o /\ (if o then ~ le b a else le b a)) ->
  forall l best, D best -> (forall a, In a l -> D a) -> exists m, min_element less best l = Ok m /\ In m (best :: l) /\ forall a, In a (best :: l) -> le m a.
Proof.
  intros Tr To Ls. induction l as [|a l IH]; intros best Db Dl; cbn [min_element].
  - exists best. split; auto. split; [now left|]. intros a [<-|[]]. destruct (To best best); auto.
  - destruct (Ls a best (Dl a (or_introl eq_refl)) Db) as (o & E & Ho). rewrite E. cbn [bind].
    destruct (IH (if o then a else best)) as (m & Em & Im & Lm); [destruct o; auto; apply Dl; now left|intros b I; apply Dl; now right|]. exists m. split; auto.
    assert (L1 : le m (if o then a else best)) by (apply Lm; now left). assert (L2 : le (if o then a else best) best /\ le (if o then a else best) a).
    { destruct o; [|split].
      - destruct (To a best) as [|]; [|contradiction]. split; auto. destruct (To a a); auto.
      - destruct (To best best); auto.
      - auto. }
    split.
    + destruct Im as [<-|I]; [destruct o; [right; left; auto|left; auto]|right; right; auto].
    + intros b [<-|[<-|I]]; [eapply Tr; [exact L1|tauto]|eapply Tr; [exact L1|tauto]|apply Lm; now right].
Qed.

Section shortest.
Context {K : ExactReal} (n : nat) (s : flat K).
Hypothesis S0 : flat_surface n s.
Let W := fs_wf n s S0.

Lemma in_edges_half h : (h < n)%nat -> exists e, In e (edges (fT s)) /\ (h = e \/ h = neg e).
Proof.
  intros Hh. he_case h; [exists (2 * n0)%nat|exists (2 * n0)%nat].
  - split; [apply (in_edges n _ _ W); split; eauto|now left].
  - split; [apply (in_edges n _ _ W); split; [lia|eauto]|right; now rewrite neg_even].
Qed.
Lemma edges_nonempty : (0 < n)%nat -> exists e r, edges (fT s) = e :: r.
Proof. intros Hn. destruct (in_edges_half 0 Hn) as (e & I & _). destruct (edges (fT s)) as [|a r]; [destruct I|eauto]. Qed.

Theorem C58_shortest : (0 < n)%nat -> exists e v, (e < n)%nat /\ shortest s = Ok v /\ vden v = vv s e /\ forall h, (h < n)%nat -> pdot (vv s e) (vv s e) <= pdot (vv s h) (vv s h).
Proof.
  intros Hn. destruct (edges_nonempty Hn) as (e0 & l & E). unfold shortest. rewrite E.
  destruct (min_element_Ok (shorter s) (fun a b => pdot (vv s a) (vv s a) <= pdot (vv s b) (vv s b)) (fun e => (e < n)%nat)) with (l := l) (best := e0) as (m & Em & Im & Lm).
  - intros; lra.
  - intros; lra.
  - intros a b Ha Hb. unfold shorter, positive. rewrite from_he_Ok by (rewrite (fs_length n s S0); auto). cbn [bind]. rewrite from_he_Ok by (rewrite (fs_length n s S0); auto). cbn [bind]. eexists. split; [reflexivity|].
    pose proof (rltb_spec K (vdot (vat' s a) (vat' s a)) (vdot (vat' s b) (vat' s b))) as H. rewrite !den_dot in H. fold (vv s a) (vv s b) in H. destruct (rltb _ _).
    + apply Rlt_not_le. exact (proj1 H eq_refl).
    + destruct (Rle_lt_dec (pdot (vv s b) (vv s b)) (pdot (vv s a) (vv s a))) as [|C]; auto. apply H in C. discriminate.
  - apply (in_edges n _ _ W). rewrite E. now left.
  - intros a I. apply (in_edges n _ _ W). rewrite E. now right.
  - rewrite Em. cbn [bind]. rewrite <- E in Im, Lm. assert (Hm : (m < n)%nat) by now apply (in_edges n _ _ W). unfold positive. exists m, (vat' s m). split; auto. split; [apply from_he_Ok; rewrite (fs_length n s S0); auto|]. split; auto.
    intros h Hh. destruct (in_edges_half h Hh) as (e & I & [->| ->]); [now apply Lm|]. rewrite (fs_odd n s S0 e) by now apply (in_edges n _ _ W). pose proof (Lm e I) as H. replace (pdot (pneg (vv s e)) (pneg (vv s e))) with (pdot (vv s e) (vv s e)) by (unfold pdot, pneg; cbn; ring). auto.
Qed.

(** Edges orthogonal to the direction count only if there are no others. *)
Theorem C58_shortest_along (d : vec K) : (0 < n)%nat -> exists e v, (e < n)%nat /\ shortest_along s d = Ok v /\ vden v = vv s e /\
  forall h, (h < n)%nat -> pdot (vv s h) (vden d) <> 0 -> pdot (vv s e) (vden d) <> 0 /\ Rabs (pdot (vv s e) (vden d)) <= Rabs (pdot (vv s h) (vden d)).
Proof.
  intros Hn. destruct (edges_nonempty Hn) as (e0 & l & E). unfold shortest_along. rewrite E. set (w := fun a => pdot (vv s a) (vden d)).
  destruct (min_element_Ok (shorter_along s d) (fun a b => w b = 0 \/ w a <> 0 /\ Rabs (w a) <= Rabs (w b)) (fun e => (e < n)%nat)) with (l := l) (best := e0) as (m & Em & Im & Lm).
  - intros a b c [H|[H H']] [G|[G G']]; auto; [contradiction|]. right. split; auto. lra.
  - intros a b. destruct (Req_EM_T (w b) 0); [left; auto|]. destruct (Req_EM_T (w a) 0); [right; auto|]. destruct (Rle_lt_dec (Rabs (w a)) (Rabs (w b))); [left; auto|right; right; split; auto; lra].
  - intros a b Ha Hb. unfold shorter_along, positive. rewrite from_he_Ok by (rewrite (fs_length n s S0); auto). cbn [bind]. rewrite from_he_Ok by (rewrite (fs_length n s S0); auto). cbn [bind]. eexists. split; [reflexivity|].
    assert (Z : forall x : K, rabs x = (if rltb x (rofZ 0) then ropp x else x)) by reflexivity.
    assert (Ab : forall x : K, den (rabs x) = Rabs (den x)).
    { intros x. unfold rabs. pose proof (rltb_spec K x (rofZ 0)) as H. rewrite den_ofZ in H. destruct (rltb x (rofZ 0)).
      - rewrite den_opp, Rabs_left; auto. now apply H.
      - rewrite Rabs_right; auto. destruct (Rlt_le_dec (den x) 0) as [C|]; [apply H in C; discriminate|lra]. }
    assert (Wd : forall x, den (vdot (vat' s x) d) = w x) by (intros; rewrite den_dot; reflexivity).
    pose proof (reqb_spec K (vdot (vat' s a) d) (rofZ 0)) as Ea. pose proof (reqb_spec K (vdot (vat' s b) d) (rofZ 0)) as Eb. rewrite den_ofZ, Wd in Ea, Eb.
    pose proof (rltb_spec K (rabs (vdot (vat' s a) d)) (rabs (vdot (vat' s b) d))) as H. rewrite !Ab, !Wd in H.
    destruct (reqb (vdot (vat' s a) d) (rofZ 0)); [left; now apply Ea|]. assert (Na : w a <> 0) by (intros C; apply Ea in C; discriminate).
    destruct (reqb (vdot (vat' s b) d) (rofZ 0)); [pose proof (proj1 Eb eq_refl); tauto|]. assert (Nb : w b <> 0) by (intros C; apply Eb in C; discriminate).
    destruct (rltb _ _); [pose proof (proj1 H eq_refl); intros [C|[_ C]]; [auto|lra]|]. right. split; auto.
    destruct (Rle_lt_dec (Rabs (w b)) (Rabs (w a))) as [|C]; auto. apply H in C. discriminate.
  - apply (in_edges n _ _ W). rewrite E. now left.
  - intros a I. apply (in_edges n _ _ W). rewrite E. now right.
  - rewrite Em. cbn [bind]. rewrite <- E in Im, Lm. assert (Hm : (m < n)%nat) by now apply (in_edges n _ _ W). unfold positive. exists m, (vat' s m). split; auto. split; [apply from_he_Ok; rewrite (fs_length n s S0); auto|]. split; auto.
    intros h Hh Nz. fold (w m). destruct (in_edges_half h Hh) as (e & I & [->| ->]).
    + destruct (Lm e I) as [C|]; [contradiction|auto].
    + rewrite (fs_odd n s S0 e) in * by now apply (in_edges n _ _ W). replace (pdot (pneg (vv s e)) (vden d)) with (- w e) in * by (unfold w, pdot, pneg; cbn; ring). rewrite Rabs_Ropp. destruct (Lm e I) as [C|]; [lra|auto].
Qed.
End shortest.
Print Assumptions C58_shortest.
Print Assumptions C58_shortest_along.

Example C58_ex : flat_surface 6 torus_s /\ shortest torus_s = Ok (zv 1 0) /\ shortest_along torus_s (zv 3 2) = Ok (zv 0 1) /\ shortest_along torus_s (zv 0 1) = Ok (zv 0 1).
Proof. split; [exact (proj1 (proj2 torus_flat))|]. repeat split. Qed.
