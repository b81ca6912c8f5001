(** * Vectors of machine integers and big integers

    Model of the branches for [long long] in /repo/libflatsurf/src/vector.cc:142-163 and 203-229. *)
From Coq Require Import ZArith Bool.
From Verif Require Import Base.
Local Open Scope Z_scope.

(** [std::numeric_limits<long long>], used at vector.cc:152 and 213; 64 bits. *)
Definition ll_min : Z := - 2 ^ 63.
Definition ll_max : Z := 2 ^ 63 - 1.
Definition ll_range (z : Z) : bool := (ll_min <=? z) && (z <=? ll_max).

Section long_long.
(** [get_sll] of gmpxxll::mpz_class, vector.cc:154 and 217; external.  What it returns for integers that are no [long long] is
    not specified. *)
Variable get_sll : Z -> Z.

(** [*=] and [/=] of [long long] in C++, vector.cc:154-155 and 217-218: overflow and division by zero are undefined. *)
Definition ll_mul (x y : Z) : outcome Z := if ll_range (x * y) then Ok (x * y) else UB.
Definition ll_div (x y : Z) : outcome Z :=
  if y =? 0 then UB else if ll_range (Z.quot x y) then Ok (Z.quot x y) else UB.

(** vector.cc:150-155, [operator*=(const mpz_class&)]; the assertions at 152-153 only require that the products are not too large. *)
Definition ll_scale (v : Z * Z) (rhs : Z) : outcome (Z * Z) :=
  do x <- ll_mul (fst v) (get_sll rhs);
  do y <- ll_mul (snd v) (get_sll rhs);
  Ok (x, y).

(** vector.cc:211-219, [operator/=(const mpz_class&)]. *)
Definition ll_unscale (v : Z * Z) (rhs : Z) : outcome (Z * Z) :=
  if ll_max <=? rhs then Ok (0, 0)
  else
    do x <- ll_div (fst v) (get_sll rhs);
    do y <- ll_div (snd v) (get_sll rhs);
    Ok (x, y).
End long_long.
