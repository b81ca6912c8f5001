(** * Theorems about vectors of machine integers (C50) *)
From Coq Require Import ZArith Bool Lia.
From Verif Require Import Base LongLong.
Local Open Scope Z_scope.

(** ** Specification *)
Definition is_ll (z : Z) : Prop := - 2 ^ 63 <= z <= 2 ^ 63 - 1.
(** All that is known of the conversion: it does not change integers that are a [long long], and it returns a [long long]. *)
Definition conversion (get_sll : Z -> Z) : Prop := (forall z, is_ll z -> get_sll z = z) /\ forall z, is_ll (get_sll z).

Lemma ll_range_iff z : ll_range z = true <-> is_ll z.
Proof. unfold ll_range, is_ll, ll_min, ll_max. rewrite andb_true_iff, !Z.leb_le. tauto. Qed.

(** ** Theorems *)

(** Multiplication is exact when the products are machine integers, except for -1 times 2^63. *)
Lemma ll_mul_ok g x c : conversion g -> is_ll x -> is_ll (x * c) -> (x = 0 \/ is_ll c) -> ll_mul x (g c) = Ok (x * c).
Proof.
  intros [G _] X P [->|C]; unfold ll_mul; [now rewrite !Z.mul_0_l|]. rewrite G by auto. apply ll_range_iff in P. now rewrite P.
Qed.
Theorem C50_product_partial : forall get_sll x y c, conversion get_sll -> is_ll x -> is_ll y -> is_ll (x * c) -> is_ll (y * c) ->
  c <> 2 ^ 63 -> ll_scale get_sll (x, y) c = Ok (x * c, y * c).
Proof.
  intros g x y c G X Y PX PY C. unfold ll_scale. cbn [fst snd].
  assert (R : forall z, is_ll z -> is_ll (z * c) -> z = 0 \/ is_ll c).
  { intros z Z P. destruct (Z.eq_dec z 0) as [|N]; [auto|right]. unfold is_ll in *. clear - N P C. nia. }
  rewrite ll_mul_ok by auto. cbn [bind]. rewrite ll_mul_ok by auto. reflexivity.
Qed.
Print Assumptions C50_product_partial.

(** Otherwise it is not rejected, even with assertions: too small products overflow. *)
Theorem C50_product_refuted : exists x y c, is_ll x /\ is_ll y /\ is_ll c /\ x * c <= 2 ^ 63 - 1 /\ y * c <= 2 ^ 63 - 1 /\
  forall get_sll, conversion get_sll -> ll_scale get_sll (x, y) c = UB.
Proof.
  exists (2 ^ 62), 0, (-4). unfold is_ll. do 5 (split; [lia|]). intros g [G _]. unfold ll_scale. rewrite G by (unfold is_ll; lia). reflexivity.
Qed.
Print Assumptions C50_product_refuted.

(** Without assertions, too large products overflow as well. *)
Theorem C50_product_overflow : forall get_sll x y c, conversion get_sll -> is_ll c -> ~ is_ll (x * c) -> ll_scale get_sll (x, y) c = UB.
Proof.
  intros g x y c [G _] C N. unfold ll_scale. cbn [fst snd]. rewrite G by auto. unfold ll_mul at 1. destruct (ll_range (x * c)) eqn:E; [|reflexivity].
  apply ll_range_iff in E. contradiction.
Qed.
Print Assumptions C50_product_overflow.

(** Division truncates like the division of machine integers; it is right except at the bounds of the machine integers. *)
Lemma ll_div_ok x c : is_ll x -> is_ll c -> c <> 0 -> ~ (x = - 2 ^ 63 /\ c = -1) -> ll_div x c = Ok (Z.quot x c).
Proof.
  intros X C N B. unfold ll_div. destruct (Z.eqb_spec c 0) as [|_]; [contradiction|].
  assert (R : is_ll (Z.quot x c)).
  { unfold is_ll in *. assert (A : Z.abs (Z.quot x c) <= Z.abs x).
    { rewrite <- Z.quot_abs by auto. apply Z.quot_le_upper_bound; nia. }
    destruct (Z.eq_dec x (- 2 ^ 63)) as [->|]; [|lia].
    assert (c <> -1) by tauto. destruct (Z.eq_dec c 1) as [->|]; [rewrite Z.quot_1_r; lia|].
    assert (A' : Z.abs (Z.quot (- 2 ^ 63) c) <= 2 ^ 62).
    { rewrite <- Z.quot_abs by auto. apply Z.quot_le_upper_bound; lia. }
    lia. }
  apply ll_range_iff in R. now rewrite R.
Qed.
Theorem C50_quotient_partial : forall get_sll x y c, conversion get_sll -> is_ll x -> is_ll y -> c <> 0 ->
  (is_ll c /\ c <> 2 ^ 63 - 1 /\ ~ ((x = - 2 ^ 63 \/ y = - 2 ^ 63) /\ c = -1)) \/ (Z.abs x < c /\ Z.abs y < c) ->
  ll_unscale get_sll (x, y) c = Ok (Z.quot x c, Z.quot y c).
Proof.
  intros g x y c [G _] X Y N [(C & M & B)|(A1 & A2)]; unfold ll_unscale, ll_max; cbn [fst snd].
  - destruct (Z.leb_spec (2 ^ 63 - 1) c) as [L|_]; [unfold is_ll in C; lia|]. rewrite G by auto.
    rewrite ll_div_ok by (auto; tauto). cbn [bind]. rewrite ll_div_ok by (auto; tauto). reflexivity.
  - assert (Q : forall z, Z.abs z < c -> Z.quot z c = 0).
    { intros z A. apply Z.quot_small_iff; lia. }
    destruct (Z.leb_spec (2 ^ 63 - 1) c) as [L|L]; [now rewrite !Q|]. rewrite G by (unfold is_ll; lia).
    rewrite ll_div_ok by (unfold is_ll; lia). cbn [bind]. rewrite ll_div_ok by (unfold is_ll; lia). reflexivity.
Qed.
Print Assumptions C50_quotient_partial.

(** The largest machine integer divided by itself is 0. *)
Theorem C50_quotient_refuted : exists x y c, is_ll x /\ is_ll y /\ is_ll c /\ c <> 0 /\
  (exists q r, x = q * c /\ y = r * c /\ forall get_sll, ll_unscale get_sll (x, y) c <> Ok (q, r)).
Proof.
  exists (2 ^ 63 - 1), 0, (2 ^ 63 - 1). unfold is_ll. do 4 (split; [lia|]). exists 1, 0. split; [lia|]. split; [lia|]. intros g. unfold ll_unscale.
  change (ll_max <=? 2 ^ 63 - 1) with true. cbn. congruence.
Qed.
Print Assumptions C50_quotient_refuted.

(** The smallest machine integer divided by 2^63 is 0 though it is a multiple, and divided by -1 it overflows. *)
Theorem C50_quotient_minimum : forall get_sll, conversion get_sll ->
  ll_unscale get_sll (- 2 ^ 63, 0) (2 ^ 63) = Ok (0, 0) /\ ll_unscale get_sll (- 2 ^ 63, 0) (-1) = UB.
Proof. intros g [G _]. split; [reflexivity|]. unfold ll_unscale. rewrite G by (unfold is_ll; lia). reflexivity. Qed.
Print Assumptions C50_quotient_minimum.

(** A conversion that returns the lowest bits, with the sign, of what is not in range; with it a quotient by -2^64 divides by zero. *)
Definition low_bits (z : Z) : Z := if ll_range z then z else Z.sgn z * (Z.abs z mod 2 ^ 63).
Example C50_conversion_ex : conversion low_bits /\ ll_unscale low_bits (5, 7) (- 2 ^ 64) = UB.
Proof.
  split; [split|reflexivity].
  - intros z Z. unfold low_bits. apply ll_range_iff in Z. now rewrite Z.
  - intros z. unfold low_bits. destruct (ll_range z) eqn:E; [now apply ll_range_iff|].
    assert (X := Z.mod_pos_bound (Z.abs z) (2 ^ 63) ltac:(lia)). unfold is_ll.
    assert (Y : Z.sgn z = 1 \/ Z.sgn z = 0 \/ Z.sgn z = -1) by lia. destruct Y as [-> | [-> | ->]]; lia.
Qed.
Example C50_ex : ll_scale low_bits (3, -2 ^ 40) (2 ^ 23) = Ok (3 * 2 ^ 23, - 2 ^ 63) /\
  ll_unscale low_bits (-7, 2 ^ 62) 2 = Ok (-3, 2 ^ 61).
Proof. split; reflexivity. Qed.
