(** * The numbers a + b √2 as exact coordinates

    An instance of [ExactReal] in which not all ratios are rational, for examples.  It stands for the number fields that are
    the coordinates of /repo/libflatsurf/flatsurf/flat_triangulation.hpp:48-50 in practice. *)
From Coq Require Import ZArith Reals Lia Lra Psatz Bool.
From Verif Require Import ExactReal.
Local Open Scope Z_scope.

(** There is no square root of 2 in the rationals. *)
Lemma no_sqrt2_nat n : forall a b, 0 <= b -> (Z.to_nat b <= n)%nat -> a * a = 2 * (b * b) -> b = 0.
Proof.
  induction n as [|n IH]; intros a b B L E; [lia|]. destruct (Z.eq_dec b 0) as [|N]; auto. exfalso.
  destruct (Z.Even_or_Odd a) as [[c ->]|[c ->]]; [|lia].
  destruct (Z.Even_or_Odd b) as [[d ->]|[d ->]]; [|lia].
  assert (d = 0); [|lia]. apply (IH c); [lia|lia|lia].
Qed.
Lemma no_sqrt2 a b : a * a = 2 * (b * b) -> a = 0 /\ b = 0.
Proof.
  intros E. assert (b = 0).
  { destruct (Z_le_dec 0 b); [apply (no_sqrt2_nat (Z.to_nat b) a b); auto; lia|].
    assert (- b = 0); [|lia]. apply (no_sqrt2_nat (Z.to_nat (- b)) a (- b)); lia. }
  subst b. split; auto. nia.
Qed.

Definition s2 := (Z * Z)%type.
Definition s2_den (x : s2) : R := (IZR (fst x) + IZR (snd x) * sqrt 2)%R.
(** The sign of a + b √2. *)
Definition s2_neg (x : s2) : bool :=
  let '(a, b) := x in
  if a <? 0 then (if b <=? 0 then true else 2 * (b * b) <? a * a) else (if b <? 0 then a * a <? 2 * (b * b) else false).
Definition s2_floor (x : s2) : Z :=
  let '(a, b) := x in
  let r := Z.sqrt (2 * (b * b)) in
  if 0 <=? b then a + r else a - r - 1.

Lemma sq2 : (sqrt 2 * sqrt 2 = 2)%R. Proof. apply sqrt_sqrt. lra. Qed.
Lemma sq2_pos : (0 < sqrt 2)%R. Proof. apply sqrt_lt_R0. lra. Qed.

Lemma sq_lt (x y : R) : (0 <= y)%R -> (x * x < y * y)%R -> (x < y)%R.
Proof. intros. nra. Qed.

Lemma s2_neg_spec x : s2_neg x = true <-> (s2_den x < 0)%R.
Proof.
  destruct x as [a b]. unfold s2_neg, s2_den; cbn [fst snd]. assert (P := sq2_pos). assert (Q := sq2).
  assert (N : forall k m, k * k < 2 * (m * m) -> (IZR k * IZR k < (IZR m * sqrt 2) * (IZR m * sqrt 2))%R).
  { intros k m H. apply IZR_lt in H. rewrite !mult_IZR in H. nra. }
  assert (N' : forall k m, 2 * (m * m) < k * k -> ((IZR m * sqrt 2) * (IZR m * sqrt 2) < IZR k * IZR k)%R).
  { intros k m H. apply IZR_lt in H. rewrite !mult_IZR in H. nra. }
  destruct (Z.ltb_spec a 0) as [A|A].
  - assert (A' := IZR_lt _ _ A). destruct (Z.leb_spec b 0) as [B|B].
    + apply IZR_le in B. split; auto. intros _. nra.
    + apply IZR_lt in B. rewrite Z.ltb_lt. split.
      * intros H. apply N' in H. assert (IZR b * sqrt 2 < - IZR a)%R by (apply sq_lt; nra). lra.
      * intros H. destruct (Z_lt_dec (2 * (b * b)) (a * a)); auto. exfalso.
        destruct (Z.eq_dec (a * a) (2 * (b * b))) as [E|E]; [apply no_sqrt2 in E; lia|].
        assert (H' := N a b ltac:(lia)). assert (- IZR a < IZR b * sqrt 2)%R by (apply sq_lt; nra). lra.
  - apply IZR_le in A. destruct (Z.ltb_spec b 0) as [B|B].
    + apply IZR_lt in B. rewrite Z.ltb_lt. split.
      * intros H. apply N in H. assert (IZR a < - (IZR b * sqrt 2))%R by (apply sq_lt; nra). lra.
      * intros H. destruct (Z_lt_dec (a * a) (2 * (b * b))); auto. exfalso.
        destruct (Z.eq_dec (a * a) (2 * (b * b))) as [E|E]; [apply no_sqrt2 in E; destruct E; subst; lra|].
        assert (H' := N' a b ltac:(lia)). assert (- (IZR b * sqrt 2) < IZR a)%R by (apply sq_lt; nra). lra.
    + apply IZR_le in B. split; [discriminate|]. intros H. exfalso. nra.
Qed.

Lemma s2_zero x : s2_den x = 0%R -> x = (0, 0).
Proof.
  destruct x as [a b]. unfold s2_den; cbn. intros H. assert (Q := sq2).
  assert (E : (IZR a * IZR a = 2 * (IZR b * IZR b))%R) by (replace (IZR a) with (- (IZR b * sqrt 2))%R by lra; nra).
  rewrite <- !mult_IZR in E. apply eq_IZR in E. apply no_sqrt2 in E as [-> ->]. auto.
Qed.

Definition s2_sub (x y : s2) : s2 := (fst x - fst y, snd x - snd y).
Lemma s2_sub_den x y : s2_den (s2_sub x y) = (s2_den x - s2_den y)%R.
Proof. unfold s2_den, s2_sub; cbn. rewrite !minus_IZR. ring. Qed.

Lemma s2_floor_spec x : (IZR (s2_floor x) <= s2_den x < IZR (s2_floor x) + 1)%R.
Proof.
  destruct x as [a b]. unfold s2_floor, s2_den; cbn [fst snd]. assert (P := sq2_pos). assert (Q := sq2).
  set (r := Z.sqrt (2 * (b * b))). assert (S := Z.sqrt_spec (2 * (b * b)) ltac:(nia)). fold r in S.
  assert (R0 : 0 <= r) by apply Z.sqrt_nonneg. destruct S as [S1 S2]. rewrite <- Z.add_1_r in S2. apply IZR_le in R0, S1. apply IZR_lt in S2.
  rewrite !mult_IZR in S1, S2. rewrite plus_IZR in S2.
  destruct (Z.leb_spec 0 b) as [B|B].
  - apply IZR_le in B. rewrite plus_IZR. split.
    + assert (IZR r <= IZR b * sqrt 2)%R; [|lra]. apply Rnot_lt_le. intros H. assert (0 <= IZR b * sqrt 2)%R by nra. nra.
    + assert (IZR b * sqrt 2 < IZR r + 1)%R; [|lra]. apply sq_lt; nra.
  - assert (B' := IZR_lt _ _ B). rewrite !minus_IZR. split.
    + assert (- (IZR b * sqrt 2) < IZR r + 1)%R; [|lra]. apply sq_lt; nra.
    + assert (N : IZR r <> (- (IZR b * sqrt 2))%R).
      { intros E. assert (X : r = 0 /\ - b = 0); [|lia]. apply no_sqrt2. apply eq_IZR. rewrite !mult_IZR, E, opp_IZR. nra. }
      assert (IZR r <= - (IZR b * sqrt 2))%R; [|lra]. apply Rnot_lt_le. intros H. assert (0 <= - (IZR b * sqrt 2))%R by nra. nra.
Qed.

Definition ExactS2 : ExactReal.
Proof.
  refine (mkExactReal s2 s2_den (fun z => (z, 0)) (fun x y => (fst x + fst y, snd x + snd y)) s2_sub
    (fun x y => (fst x * fst y + 2 * (snd x * snd y), fst x * snd y + snd x * fst y)) (fun x => (- fst x, - snd x))
    (fun x y => s2_neg (s2_sub x y)) (fun x y => (fst x =? fst y) && (snd x =? snd y)) s2_floor _ _ _ _ _ _ _ _).
  - intros z. unfold s2_den; cbn. lra.
  - intros x y. unfold s2_den; cbn. rewrite !plus_IZR. ring.
  - apply s2_sub_den.
  - intros x y. unfold s2_den; cbn [fst snd]. rewrite !plus_IZR, !mult_IZR. assert (Q := sq2).
    transitivity (IZR (fst x) * IZR (fst y) + (sqrt 2 * sqrt 2) * (IZR (snd x) * IZR (snd y)) + (IZR (fst x) * IZR (snd y) + IZR (snd x) * IZR (fst y)) * sqrt 2)%R; [rewrite Q|]; ring.
  - intros x. unfold s2_den; cbn. rewrite !opp_IZR. ring.
  - intros x y. rewrite s2_neg_spec, s2_sub_den. split; lra.
  - intros x y. rewrite andb_true_iff, !Z.eqb_eq. split.
    + intros [E F]. unfold s2_den. now rewrite E, F.
    + intros E. assert (Z0 : s2_den (s2_sub x y) = 0%R) by (rewrite s2_sub_den; lra). apply s2_zero in Z0. unfold s2_sub in Z0. injection Z0. lia.
  - apply s2_floor_spec.
Defined.

(** For every rational number, it is the ratio of a + b √2 and c + d √2 only if ad = bc. *)
Lemma s2_ratio (p q : Z) (x y : s2) : (IZR p * s2_den x)%R = (IZR q * s2_den y)%R -> p * fst x = q * fst y /\ p * snd x = q * snd y.
Proof.
  intros E. assert (Z0 : s2_den (p * fst x - q * fst y, p * snd x - q * snd y) = 0%R).
  { unfold s2_den in *; cbn [fst snd] in *. rewrite !minus_IZR, !mult_IZR. nra. }
  apply s2_zero in Z0. injection Z0. lia.
Qed.
