(** * What is known about roots of quadratic polynomials *)
From Coq Require Import ZArith QArith Reals List.
From Verif Require Import Base ExactReal Arb Quadratic.
Local Open Scope R_scope.

(** The value at a real number. *)
Definition at_ {K : ExactReal} (p : quad K) (t : R) : R := den (qa p) * (t * t) + den (qb p) * t + den (qc p).
(** The first zero in [[0, 1]]. *)
Definition critical {K : ExactReal} (p : quad K) (t : R) : Prop :=
  0 <= t <= 1 /\ at_ p t = 0 /\ forall u, 0 <= u < t -> at_ p u <> 0.

Definition enclosed (x : R) (b : option ball) : Prop := match b with Some b => within x b | None => True end.
(** The zeros as given by the usual formulas. *)
Definition disc {K : ExactReal} (p : quad K) : R := den (qb p) * den (qb p) - 4 * den (qa p) * den (qc p).
Definition linear_root {K : ExactReal} (p : quad K) : R := - den (qc p) / den (qb p).
Definition double_root {K : ExactReal} (p : quad K) : R := - den (qb p) / (2 * den (qa p)).
Definition plus_root {K : ExactReal} (p : quad K) : R := (- den (qb p) + sqrt (disc p)) / (2 * den (qa p)).
Definition minus_root {K : ExactReal} (p : quad K) : R := (- den (qb p) - sqrt (disc p)) / (2 * den (qa p)).
(** Approximations contain the exact value. *)
Definition sound {K : ExactReal} (o : solver K) : Prop := forall p prec,
  (den (qa p) = 0 -> den (qb p) <> 0 -> enclosed (linear_root p) (s_linear o p prec)) /\
  (den (qa p) <> 0 -> disc p = 0 -> enclosed (double_root p) (s_double o p prec)) /\
  (den (qa p) <> 0 -> 0 < disc p -> enclosed (plus_root p) (s_plus o p prec) /\ enclosed (minus_root p) (s_minus o p prec)).
(** A ball in which all numbers are close to [x]. *)
Definition near (eps x : R) (b : option ball) : Prop :=
  match b with Some b => forall y, within y b -> Rabs (y - x) < eps | None => False end.
(** Approximations become as good as one wants. *)
Definition convergent {K : ExactReal} (o : solver K) : Prop := forall p eps, 0 < eps -> exists P, forall prec, (P <= prec)%Z ->
  (den (qa p) = 0 -> den (qb p) <> 0 -> near eps (linear_root p) (s_linear o p prec)) /\
  (den (qa p) <> 0 -> disc p = 0 -> near eps (double_root p) (s_double o p prec)) /\
  (den (qa p) <> 0 -> 0 < disc p -> near eps (plus_root p) (s_plus o p prec) /\ near eps (minus_root p) (s_minus o p prec)).
