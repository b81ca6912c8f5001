(** * Lemmas about points *)
From Coq Require Import ZArith Reals List Arith Bool Lia Lra Psatz Relations.
From Verif Require Import Base HalfEdge HalfEdgeFacts Perm PermSpec PermFacts PermCycles PermLemmas
  IndexedSet IndexedSetSpec IndexedSetFacts Combinatorial CombinatorialSpec CombinatorialFacts CombinatorialFlip
  CombinatorialHistory CombinatorialOps ExactReal Vector PlaneSpec Plane VectorFacts FlatTri FlatSpec FlatFacts FlatDelaunay
  Point PointSpec.
Import ListNotations.
Local Open Scope nat_scope.

Lemma nz_spec (K : ExactReal) (x : K) : nz x = true <-> den x <> 0%R.
Proof. unfold nz. destruct (reqb_reflect x (rofZ 0)) as [E|E]; rewrite den_ofZ in E; cbn; split; intros; auto; try congruence; contradiction. Qed.
Lemma nz_false (K : ExactReal) (x : K) : nz x = false <-> den x = 0%R.
Proof. unfold nz. destruct (reqb_reflect x (rofZ 0)) as [E|E]; rewrite den_ofZ in E; cbn; split; intros; auto; try congruence; contradiction. Qed.
Lemma ltb0_spec (K : ExactReal) (x : K) : rltb x (rofZ 0) = true <-> (den x < 0)%R.
Proof. rewrite rltb_spec, den_ofZ. reflexivity. Qed.
Lemma lt0b_spec (K : ExactReal) (x : K) : rltb (rofZ 0) x = true <-> (0 < den x)%R.
Proof. rewrite rltb_spec, den_ofZ. reflexivity. Qed.
Lemma nonneg_spec (K : ExactReal) (x : K) : nonneg x = true <-> (0 <= den x)%R.
Proof. unfold nonneg. destruct (rltb_reflect x (rofZ 0)) as [E|E]; rewrite den_ofZ in E; cbn; split; intros; auto; try congruence; lra. Qed.

Section points.
Context {K : ExactReal}.
Variables (n : nat) (s : flat K).
Hypothesis S0 : flat_surface n s.
Hypothesis Cl : closed_surface n s.
Implicit Types (p q : point K) (h f : nat).
Let W : well_formed n (fT s) := fs_wf n s S0.
Notation F := (fF s).
Notation sp := (same_point n s).

(** ** Half edges of a closed surface *)
Lemma F_lt h : h < n -> F h < n.
Proof. apply (nF_lt n _ W). Qed.
Lemma FFF h : h < n -> F (F (F h)) = h.
Proof. apply (wf_triangle _ _ W). Qed.
Lemma neg_lt h : h < n -> neg h < n.
Proof. apply (neg_ltn n _ W). Qed.
Lemma F_ne h : h < n -> F h <> h.
Proof. apply Cl. Qed.
Lemma FF_ne h : h < n -> F (F h) <> h.
Proof. intros H E. assert (Q := FFF h H). rewrite E in Q. now apply (F_ne h). Qed.
Lemma FF_F h : h < n -> F (F h) <> F h.
Proof. intros H. apply F_ne. now apply F_lt. Qed.
Lemma F_inj x y : x < n -> y < n -> F x = F y -> x = y.
Proof. intros Hx Hy E. rewrite <- (FFF x), <- (FFF y), E; auto. Qed.
Lemma F_neg h : h < n -> F h <> neg h /\ F (F h) <> neg h.
Proof.
  intros H. destruct (nonboundary_flippable n s h S0 H (Cl h H) (Cl _ (neg_lt h H))) as (_ & _ & _ & A & B). split; auto.
Qed.
Lemma next_ok h : h < n -> nextInFace (fT s) h = Ok (F h).
Proof. apply next_Ok. exact W. Qed.
Lemma prev_ok h : h < n -> previousInFace (fT s) h = Ok (F (F h)).
Proof. intros H. rewrite (prev_Ok n) by (auto; exact W). f_equal. apply (pF_tri n _ W). auto. Qed.
Lemma face_ok h : h < n -> face_list s h = Ok [h; F h; F (F h)].
Proof. intros H. unfold face_list, face. rewrite next_ok, prev_ok by auto. reflexivity. Qed.
Lemma nV_F h : h < n -> nV (fT s) (F h) = neg h.
Proof.
  intros H. rewrite (nV_link' n _ W) by (try apply F_lt; auto; apply (Cl (F h)), F_lt; auto).
  change (nF (fT s)) with F. now rewrite FFF.
Qed.
Lemma next_vertex h : h < n -> nextAtVertex (fT s) h = Ok (neg (F (F h))).
Proof. intros H. rewrite (nextV_Ok n) by (auto; exact W). f_equal. apply (nV_link' n _ W); auto. now apply Cl. Qed.
Lemma from_ok h : h < n -> from_he s h = Ok (vat' s h).
Proof. intros H. apply from_he_Ok. now rewrite (fs_length n s S0). Qed.

(** ** Vertices *)
Lemma source_ok h : h < n -> exists v, vertex_source (fT s) h = Ok v /\ forall x, scontains v x = true <-> x < n /\ same_vertex (fT s) h x.
Proof. intros H. destruct (vertex_source_Ok n _ h W H) as (v & A & _ & B). eauto. Qed.

Definition vrep h : nat := match vertex_source (fT s) h with Ok v => sbegin v | _ => 0 end.
Lemma vrep_spec x y : x < n -> y < n -> (vrep x = vrep y <-> same_vertex (fT s) x y).
Proof.
  intros Hx Hy. destruct (source_ok x Hx) as (v & E & _). destruct (source_ok y Hy) as (w & E' & _).
  rewrite <- (vertex_eqb_spec n _ x y v w W Hx Hy E E'). unfold vrep, vertex_eqb. rewrite E, E'. now rewrite Nat.eqb_eq.
Qed.
Lemma vrep_F h : h < n -> vrep (F h) = vrep (neg h).
Proof. intros H. apply vrep_spec; [now apply F_lt|now apply neg_lt|]. exists 1. apply nV_F; auto. Qed.
Lemma vrep_source h v : h < n -> vertex_source (fT s) h = Ok v -> vrep h = sbegin v.
Proof. intros H E. unfold vrep. now rewrite E. Qed.

(** ** The relation on points *)
Lemma sp_refl r : sp r r.
Proof. apply rst_refl. Qed.
Lemma sp_sym r r' : sp r r' -> sp r' r.
Proof. apply rst_sym. Qed.
Lemma sp_trans r r' r'' : sp r r' -> sp r' r'' -> sp r r''.
Proof. apply rst_trans. Qed.
Lemma sp_scale h a b c r : h < n -> weights (a, b, c) -> (0 < r)%R -> sp (h, (a, b, c)) (h, (r * a, r * b, r * c)%R).
Proof. intros. apply rst_step. now constructor. Qed.
Lemma sp_rot h a b c : h < n -> weights (a, b, c) -> sp (h, (a, b, c)) (F h, (b, c, a)).
Proof. intros. apply rst_step. now constructor. Qed.
Lemma sp_rot2 h a b c : h < n -> weights (a, b, c) -> sp (h, (a, b, c)) (F (F h), (c, a, b)).
Proof.
  intros H Q. eapply sp_trans; [apply sp_rot; auto|]. apply sp_rot; [now apply F_lt|]. unfold weights in *. lra.
Qed.
Lemma sp_glue h a b : h < n -> weights (a, b, 0%R) -> sp (h, (a, b, 0%R)) (neg h, (b, a, 0%R)).
Proof. intros. apply rst_step. now constructor. Qed.
(** Proportional weights. *)
Lemma sp_prop h a b c a' b' c' : h < n -> weights (a, b, c) -> weights (a', b', c') ->
  ((a + b + c) * a' = (a' + b' + c') * a)%R -> ((a + b + c) * b' = (a' + b' + c') * b)%R -> ((a + b + c) * c' = (a' + b' + c') * c)%R ->
  sp (h, (a, b, c)) (h, (a', b', c')).
Proof.
  intros H Q Q' A B C. assert (X : (0 < a + b + c)%R) by apply Q. assert (X' : (0 < a' + b' + c')%R) by apply Q'.
  set (r := ((a' + b' + c') / (a + b + c))%R).
  replace (a', b', c') with (r * a, r * b, r * c)%R.
  - apply sp_scale; auto. unfold r. now apply Rdiv_lt_0_compat.
  - unfold r. f_equal; [f_equal|]; apply (Rmult_eq_reg_l (a + b + c)); try lra; field_simplify; lra.
Qed.
Lemma sp_vertex1 h a : h < n -> (0 < a)%R -> sp (h, (a, 0%R, 0%R)) (nV (fT s) h, (a, 0%R, 0%R)).
Proof.
  intros H A. assert (Q : weights (a, 0%R, 0%R)) by (unfold weights; lra).
  replace (nV (fT s) h) with (neg (F (F h))). 2:{ rewrite <- (FFF h) at 2 by auto. symmetry. apply nV_F. apply F_lt, F_lt; auto. }
  eapply sp_trans; [apply sp_rot2; auto|]. apply sp_glue; [apply F_lt, F_lt; auto|]. unfold weights; lra.
Qed.
Lemma sp_vertex h h' a : h < n -> (0 < a)%R -> same_vertex (fT s) h h' -> sp (h, (a, 0%R, 0%R)) (h', (a, 0%R, 0%R)).
Proof.
  intros H A (k & <-). induction k as [|k IH]; [apply sp_refl|].
  eapply sp_trans; [exact IH|]. cbn [Nat.iter]. apply sp_vertex1; auto.
  eapply same_vertex_lt; [exact W|exact H|now exists k].
Qed.

(** ** An invariant of the relation *)
Definition zero (x : R) : bool := if Req_EM_T x 0 then true else false.
Lemma zero_true x : zero x = true <-> x = 0%R.
Proof. unfold zero. destruct (Req_EM_T x 0); split; intros; auto; try discriminate; contradiction. Qed.
Lemma zero_false x : zero x = false <-> x <> 0%R.
Proof. unfold zero. destruct (Req_EM_T x 0); split; intros; auto; try discriminate; contradiction. Qed.

Definition spread (r : rep) (x : nat) : R :=
  let '(h, (a, b, c)) := r in
  let t := (a + b + c)%R in
  match zero a, zero b, zero c with
  | false, false, false => if x =? h then a / t else if x =? F h then b / t else if x =? F (F h) then c / t else 0
  | false, false, true => if x =? h then a / t else if x =? neg h then b / t else 0
  | true, false, false => if x =? F h then b / t else if x =? neg (F h) then c / t else 0
  | false, true, false => if x =? F (F h) then c / t else if x =? neg (F (F h)) then a / t else 0
  | false, true, true => if vrep x =? vrep h then 1 else 0
  | true, false, true => if vrep x =? vrep (F h) then 1 else 0
  | true, true, false => if vrep x =? vrep (F (F h)) then 1 else 0
  | true, true, true => 0
  end%R.
Definition kind (r : rep) : nat :=
  let '(h, (a, b, c)) := r in (if zero a then 0 else 1) + (if zero b then 0 else 1) + (if zero c then 0 else 1).
Definition alike (r r' : rep) : Prop := kind r = kind r' /\ forall x, x < n -> spread r x = spread r' x.

Lemma zero_scale r x : (0 < r)%R -> zero (r * x) = zero x.
Proof. intros. destruct (zero x) eqn:E; [apply zero_true in E; subst; apply zero_true; ring|]. apply zero_false. apply zero_false in E. nra. Qed.

Lemma alike_identified r r' : identified n s r r' -> alike r r'.
Proof.
  intros [h a b c k H Q Hk|h a b c H Q|h a b H Q].
  - unfold alike, kind, spread. rewrite !zero_scale by auto. split; auto. intros x Hx.
    assert (T : (k * a + k * b + k * c = k * (a + b + c))%R) by ring. rewrite T.
    assert (X : (0 < a + b + c)%R) by apply Q.
    assert (D : forall y, (k * y / (k * (a + b + c)) = y / (a + b + c))%R) by (intros; field; lra). rewrite !D. reflexivity.
  - unfold alike, kind, spread. split; [lia|]. intros x Hx.
    rewrite !FFF by auto. replace (b + c + a)%R with (a + b + c)%R by ring.
    pose proof (F_ne h H). pose proof (FF_ne h H). pose proof (FF_F h H).
    destruct (zero a), (zero b), (zero c); auto.
    destruct (Nat.eqb_spec x h), (Nat.eqb_spec x (F h)), (Nat.eqb_spec x (F (F h))); auto; congruence.
  - unfold alike, kind, spread. split; [lia|]. intros x Hx.
    replace (b + a + 0)%R with (a + b + 0)%R by ring. rewrite neg_neg.
    assert (Z : zero 0 = true) by now apply zero_true. rewrite Z.
    assert (A := vrep_F h H). assert (B := vrep_F (neg h) (neg_lt h H)). rewrite neg_neg in B.
    destruct (zero a) eqn:Ea, (zero b) eqn:Eb; auto.
    + now rewrite A.
    + now rewrite B.
    + pose proof (neg_ne h). destruct (Nat.eqb_spec x h), (Nat.eqb_spec x (neg h)); auto; congruence.
Qed.
Lemma alike_same r r' : sp r r' -> alike r r'.
Proof.
  induction 1 as [r r' I|r|r r' _ [A B]|r r' r'' _ [A B] _ [C D]].
  - now apply alike_identified.
  - now split.
  - split; [auto|]. intros. symmetry. auto.
  - split; [congruence|]. intros. rewrite B, D; auto.
Qed.

End points.
