(** * Facts about the search for an isomorphism *)
From Coq Require Import ZArith Reals List Arith Bool Lia Lra.
From Verif Require Import Base HalfEdge HalfEdgeFacts Perm PermSpec PermFacts IndexedSet Combinatorial CombinatorialSpec CombinatorialFacts CombinatorialOps
  ExactReal Vector PlaneSpec Plane VectorFacts FlatTri FlatSpec FlatFacts FlatSum FlatLinear FlatOps FlatAngle
  PointSpec DeformSpec Equivalence EquivalenceSpec EquivalenceFacts Isomorphism.
Import ListNotations.
Local Open Scope nat_scope.

(** ** Maps *)
Lemma mapped_in m x y : mapped m x = Some y -> In (x, y) m.
Proof.
  unfold mapped. destruct (find _ m) as [[p q]|] eqn:E; cbn; [|discriminate]. intros [= ->]. apply find_some in E as [I E]. cbn in E. apply Nat.eqb_eq in E. now subst.
Qed.
Lemma mapped_none m x y : mapped m x = None -> ~ In (x, y) m.
Proof.
  unfold mapped. destruct (find _ m) as [p|] eqn:E; cbn; [discriminate|]. intros _ I. apply find_none with (x := (x, y)) in E; auto. cbn in E. now rewrite Nat.eqb_refl in E.
Qed.
Lemma mapped_nodup m x y : NoDup (map fst m) -> In (x, y) m -> mapped m x = Some y.
Proof.
  induction m as [|[p q] m IH]; cbn; intros D I; [destruct I|destruct I as [E|I]].
  - injection E as -> ->. unfold mapped. cbn. now rewrite Nat.eqb_refl.
  - inversion_clear D as [|? ? N D']. unfold mapped. cbn. destruct (p =? x) eqn:E.
    + apply Nat.eqb_eq in E. subst p. exfalso. apply N. apply in_map_iff. now exists (x, y).
    + now apply IH.
Qed.
Lemma mapped_key m x : mapped m x = None -> ~ In x (map fst m).
Proof. intros N I. apply in_map_iff in I as ([p q] & E & I). cbn in E. subst p. now apply (mapped_none m x q) in N. Qed.

(** ** The depth first search *)
Section search.
Context {K : ExactReal}.
Implicit Types s u : flat K.
Variables (kind : ISOMORPHISM) (same : bool) (s u : flat K) (a b c d : K) (fm : nat -> nat -> bool) (fuel n : nat).
Variables (A B : nat -> Prop) (gs gu : nat -> nat).
Hypothesis Hs : forall x, A x -> x < n /\ A (neg x) /\ A (gs x) /\ next_in_cell fuel kind s x = Ok (gs x) /\ from_he s x = Ok (vat' s x).
Hypothesis Hu : forall y, B y -> B (neg y) /\ B (gu y) /\ next_in_image_cell fuel kind same u y = Ok (gu y) /\ from_he u y = Ok (vat' u y).
Notation M := (match_ fuel kind same s u a b c d fm).
(** The test of a half edge and its image. *)
Definition fits (x y : nat) : Prop := fm x y = true /\ vden (vat' u y) = papply (den a) (den b) (den c) (den d) (vden (vat' s x)).

Definition entries (m : list (nat * nat)) : Prop := NoDup (map fst m) /\ forall x y, In (x, y) m -> A x /\ B y.
Lemma entries_length m : entries m -> length m <= n.
Proof.
  intros [D E]. rewrite <- (map_length fst). rewrite <- (seq_length n 0). apply NoDup_incl_length; auto.
  intros x I. apply in_map_iff in I as ([p q] & <- & I). apply in_seq. destruct (E _ _ I) as [H _]. destruct (Hs _ H). cbn. lia.
Qed.
(** Everything new in the map is consistent. *)
Definition extends (m m' : list (nat * nat)) : Prop :=
  incl m m' /\ forall x y, In (x, y) m' -> In (x, y) m \/ fits x y /\ In (neg x, neg y) m' /\ In (gs x, gu y) m'.
Lemma extends_trans m1 m2 m3 : extends m1 m2 -> extends m2 m3 -> extends m1 m3.
Proof.
  intros [I1 E1] [I2 E2]. split; [eapply incl_tran; eauto|]. intros x y H. destruct (E2 x y H) as [H2|H2]; [|auto]. destruct (E1 x y H2) as [H1|(F & P & Q)]; [auto|right]. auto.
Qed.
Lemma fits_test x y : A x -> B y -> fits x y <->
  fm x y = true /\ reqb (a * vx (vat' s x) + b * vy (vat' s x))%X (vx (vat' u y)) = true /\ reqb (c * vx (vat' s x) + d * vy (vat' s x))%X (vy (vat' u y)) = true.
Proof.
  intros _ _. unfold fits, vden, papply. cbn [fst snd]. rewrite !reqb_spec, !den_add, !den_mul. split.
  - intros (? & E). injection E as E1 E2. auto.
  - intros (? & E1 & E2). split; auto. f_equal; auto.
Qed.
Lemma match_ok k m x y : entries m -> n < k + length m -> A x -> B y ->
  exists m' r, M k m x y = Ok (m', r) /\ entries m' /\ length m <= length m' /\
    (r = true -> In (x, y) m' /\ extends m m').
Proof.
  revert m x y. induction k as [|k IH]; intros m x y E L Hx Hy.
  - exfalso. assert (Q := entries_length m E). lia.
  - cbn [match_]. destruct (mapped m x) as [h|] eqn:Em.
    + exists m, (h =? y). split; auto. split; auto. split; auto. intros Eh. apply Nat.eqb_eq in Eh. subst h. split; [now apply mapped_in|]. split; [apply incl_refl|auto].
    + destruct (Hs x Hx) as (Lx & Nx & Gx & Ox & Vx). destruct (Hu y Hy) as (Ny & Gy & Oy & Vy).
      destruct (fm x y) eqn:Ef; cbn [negb]; [|exists m, false; split; [reflexivity|]; split; auto; split; auto; discriminate].
      rewrite Vx, Vy. cbn [bind].
      destruct (reqb (a * vx (vat' s x) + b * vy (vat' s x))%X (vx (vat' u y))) eqn:E1; cbn [negb]; [|exists m, false; split; [reflexivity|]; split; auto; split; auto; discriminate].
      destruct (reqb (c * vx (vat' s x) + d * vy (vat' s x))%X (vy (vat' u y))) eqn:E2; cbn [negb]; [|exists m, false; split; [reflexivity|]; split; auto; split; auto; discriminate].
      assert (Ft : fits x y) by (apply fits_test; auto).
      assert (Em' : entries ((x, y) :: m)).
      { destruct E as [D E]. split; [cbn; constructor; auto; now apply mapped_key|]. intros p q [I|I]; [injection I as <- <-; auto|auto]. }
      destruct (IH ((x, y) :: m) (neg x) (neg y) Em') as (m1 & r1 & -> & En1 & L1 & S1); [cbn; lia|auto|auto|]. cbn [bind]. cbn in L1.
      destruct r1; cbn [negb]; [|exists m1, false; split; [reflexivity|]; split; auto; split; [lia|discriminate]]. destruct (S1 eq_refl) as [I1 X1].
      rewrite Ox, Oy. cbn [bind]. destruct (IH m1 (gs x) (gu y) En1) as (m2 & r2 & -> & En2 & L2 & S2); [lia|auto|auto|]. cbn [bind].
      exists m2, r2. split; [now destruct r2|]. split; auto. split; [lia|]. intros ->. destruct (S2 eq_refl) as [I2 X2]. assert (X := extends_trans _ _ _ X1 X2).
      destruct X as [J X]. split; [apply J; now left|]. split; [intros z Hz; apply J; now right|].
      intros p q Hpq. destruct (X p q Hpq) as [[Q|Q]|Q]; auto. injection Q as <- <-. right. split; auto. split; auto. apply X2. exact I1.
Qed.
(** The search succeeds if there is an isomorphism. *)
Lemma match_complete (f : nat -> nat) k m x m' r : (forall z, A z -> B (f z) /\ fits z (f z) /\ f (neg z) = neg (f z) /\ f (gs z) = gu (f z)) ->
  (forall p q, In (p, q) m -> q = f p) -> A x -> M k m x (f x) = Ok (m', r) -> r = true /\ forall p q, In (p, q) m' -> q = f p.
Proof.
  intros Hf. revert m x m' r. induction k as [|k IH]; intros m x m' r Hm Hx E; [discriminate|]. cbn [match_] in E. destruct (mapped m x) as [h|] eqn:Em.
  - injection E as <- <-. apply mapped_in in Em. apply Hm in Em. subst h. rewrite Nat.eqb_refl. auto.
  - destruct (Hf x Hx) as (Bx & Ft & Fn & Fg). destruct (Hs x Hx) as (Lx & Nx & Gx & Ox & Vx). destruct (Hu (f x) Bx) as (Ny & Gy & Oy & Vy).
    apply fits_test in Ft as (T1 & T2 & T3); auto. rewrite T1, Vx, Vy in E. cbn [negb bind] in E. rewrite T2, T3 in E. cbn [negb] in E.
    apply bind_Ok in E as ([m1 r1] & E1 & E). rewrite <- Fn in E1. destruct (IH ((x, f x) :: m) (neg x) m1 r1) as [-> H1]; auto.
    { intros p q [Q|Q]; [injection Q as <- <-; auto|auto]. }
    cbn [negb] in E. rewrite Ox, Oy in E. cbn [bind] in E. apply bind_Ok in E as ([m2 r2] & E2 & E). rewrite <- Fg in E2. destruct (IH m1 (gs x) m2 r2) as [-> H2]; auto. cbn [negb] in E. injection E as <- <-. auto.
Qed.

(** A complete search gives a map. *)
Hypothesis connA : forall P : nat -> Prop, (exists x, A x /\ P x) -> (forall x, A x -> P x -> P (neg x) /\ P (gs x)) -> forall x, A x -> P x.
Hypothesis connB : forall P : nat -> Prop, (exists x, B x /\ P x) -> (forall x, B x -> P x -> P (neg x) /\ P (gu x)) -> forall x, B x -> P x.
Lemma match_map k x0 y0 m' : n < k -> A x0 -> B y0 -> M k [] x0 y0 = Ok (m', true) ->
  exists f, f x0 = y0 /\ (forall x, A x -> B (f x) /\ fits x (f x) /\ f (neg x) = neg (f x) /\ f (gs x) = gu (f x) /\ mapped m' x = Some (f x)) /\ (forall y, B y -> exists x, A x /\ f x = y) /\
    (forall x y, mapped m' x = Some y -> A x).
Proof.
  intros L Hx Hy E. destruct (match_ok k [] x0 y0) as (m & r & E' & [D En] & _ & S); auto; [split; [constructor|intros ? ? []]|cbn; lia|].
  rewrite E' in E. injection E as -> ->. destruct (S eq_refl) as [I0 [_ X]].
  set (f := fun x => match mapped m' x with Some y => y | None => 0 end).
  assert (T : forall x, A x -> exists y, In (x, y) m').
  { apply connA.
    - exists x0. eauto.
    - intros x _ (y & I). destruct (X x y I) as [[]|(_ & P & Q)]. eauto. }
  assert (V : forall x y, In (x, y) m' -> f x = y /\ mapped m' x = Some y). { intros x y I. assert (Q := mapped_nodup m' x y D I). unfold f. now rewrite Q. }
  exists f. split; [now apply V|]. split; [|split].
  - intros x Ax. destruct (T x Ax) as (y & I). destruct (V x y I) as [-> Vm]. destruct (En x y I) as [_ By]. destruct (X x y I) as [[]|(Ft & P & Q)]. destruct (V _ _ P), (V _ _ Q). auto.
  - apply connB.
    + exists y0. split; auto. exists x0. split; auto. now apply V.
    + intros y By (x & Ax & Exy). destruct (T x Ax) as (y' & I). destruct (V x y' I) as [Q _]. assert (y' = y) as -> by congruence. destruct (X x y I) as [[]|(_ & P & Q')]. split.
      * exists (neg x). split; [now apply Hs|now apply V].
      * exists (gs x). split; [now apply Hs|now apply V].
  - intros x y Q. apply mapped_in in Q. now apply (En x y).
Qed.
End search.
