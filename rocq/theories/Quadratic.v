(** * Quadratic polynomials

    Model of /repo/libflatsurf/src/quadratic_polynomial.cc (QP). *)
From Coq Require Import ZArith QArith List Bool.
From Verif Require Import Base ExactReal Arb.
Import ListNotations.

Section quadratic.
Context {K : ExactReal}.

(** QP:29-33, the polynomial a t^2 + b t + c. *)
Record quad := mkQuad { qa : K; qb : K; qc : K }.

(** QP:147-152, [operator()]. *)
Definition qeval (p : quad) (t : K) : K :=
  if (t =? 0)%X then qc p
  else if (t =? 1)%X then (qa p + qb p + qc p)%X
  else (qa p * t * t + qb p * t + qc p)%X.

(** QP:155-175, [positive]. *)
Definition qpositive (p : quad) : bool :=
  let '(mkQuad a b c) := p in
  if negb (0 <? qeval p 0)%X then false
  else if (0 <? qeval p 1)%X
       then ((a =? 0)%X && ((- b <? c)%X && (0 <? c)%X)) ||
            (a <? 0)%X ||
            ((0 <? a)%X && ((- b <? 0)%X || (rofZ 2 * a <? - b)%X || (b * b - rofZ 4 * a * c <? 0)%X))
       else false.

(** An exactreal::Arb: a ball, or the result of an operation such as a division by a ball that contains zero about which nothing is known. *)
Notation arb := (option ball).
(** exactreal::Arb::operator<, as used in QP:38-39, 87, and 111. *)
Definition arb_lt (x y : arb) : option bool :=
  match x, y with
  | Some x, Some y => if Qltb (hi x) (lo y) then Some true else if Qle_bool (hi y) (lo x) then Some false else None
  | _, _ => None
  end.
Definition exactly (z : Z) : arb := Some (mkBall (inject_Z z) 0).

(** The approximate solutions at a precision, QP:67 [(-c_ / b_)(prec)], QP:75 [(-b_ / (2 * a_))(prec)], QP:80, 81 [((-b_ +- sqrt_discriminant) / (2 * a_))(prec)];
    only their soundness is known, see [sound] in QuadraticSpec.v. *)
Record solver := mkSolver { s_linear : quad -> Z -> arb; s_double : quad -> Z -> arb; s_plus : quad -> Z -> arb; s_minus : quad -> Z -> arb }.
Variable o : solver.

(** QP:37-53, [validate]; [again] is [root(2 * prec)]. *)
Definition validate (p : quad) (again : outcome (option arb)) (solution : arb) : outcome (option arb) :=
  match arb_lt solution (exactly 0), arb_lt (exactly 1) solution with
  | None, _ => if (qeval p 0 =? 0)%X then Ok (Some (exactly 0)) else again
  | Some _, None => if (qeval p 1 =? 0)%X then Ok (Some (exactly 1)) else again
  | Some lt0, Some gt1 => if lt0 then Ok None else if gt1 then Ok None else Ok (Some solution)
  end.

Definition discriminant (p : quad) : K := (qb p * qb p - rofZ 4 * qa p * qc p)%X.

(** QP:36-97, [root]. *)
Fixpoint root (fuel : nat) (p : quad) (prec : Z) : outcome (option arb) :=
  match fuel with
  | O => OutOfFuel
  | S fuel =>
    let validate := validate p (root fuel p (2 * prec)) in
    if (qc p =? 0)%X then Ok (Some (exactly 0))
    else if (qa p =? 0)%X then
      if (qb p =? 0)%X then Ok None
      else if (qc p =? - qb p)%X then Ok (Some (exactly 1))
      else validate (s_linear o p prec)
    else if (discriminant p <? 0)%X then Ok None
    else if (discriminant p =? 0)%X then validate (s_double o p prec)
    else
      do t0 <- validate (s_plus o p prec);
      do t1 <- validate (s_minus o p prec);
      match t0, t1 with
      | Some x, Some y => match arb_lt x y with None | Some true => Ok t0 | Some false => Ok t1 end
      | Some _, None => Ok t0
      | None, _ => Ok t1
      end
  end.

(** QP:102, the polynomials are multiples of each other. *)
Definition multiples (p q : quad) : bool :=
  (qa p * qb q =? qb p * qa q)%X && (qa p * qc q =? qc p * qa q)%X && (qb p * qc q =? qc p * qb q)%X.
(** QP:129, the resultant. *)
Definition resultant (p q : quad) : K :=
  let '(mkQuad a b c) := p in let '(mkQuad a' b' c') := q in
  (c * c * a' * a' - b * c * a' * b' + a * c * b' * b' + b * b * a' * c' - rofZ 2 * a * c * a' * c' - a * b * b' * c' + a * a * c' * c')%X.

(** QP:106-144, the loop of [operator<]; dereferencing an empty optional is undefined. *)
Fixpoint less_loop (fuel : nat) (p q : quad) (prec : Z) : outcome bool :=
  match fuel with
  | O => OutOfFuel
  | S fuel =>
    do t <- root (S fuel) p prec;
    do s <- root (S fuel) q prec;
    match t, s with
    | Some t, Some s =>
      match arb_lt t s with
      | Some lt => Ok lt
      | None =>
        if (qa p =? 0)%X && (qa q =? 0)%X
        then if (qc p * qb q =? qc q * qb p)%X then Ok false else less_loop fuel p q (2 * prec)
        else if negb (resultant p q =? 0)%X then less_loop fuel p q (2 * prec) else Ok false
      end
    | _, _ => UB
    end
  end.
(** exactreal::ARB_PRECISION_FAST. *)
Definition arb_precision_fast : Z := 64.
(** QP:100-145, [operator<]. *)
Definition qless (fuel : nat) (p q : quad) : outcome bool :=
  if multiples p q then Ok false else less_loop fuel p q arb_precision_fast.
End quadratic.
Arguments quad K : clear implicits.
Arguments solver K : clear implicits.
