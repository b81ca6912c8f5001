(** * Vectors with error: interval filters

    Model of the Vector<exactreal::Arb> part of /repo/libflatsurf/src/vector.cc.
    Arb itself is external: a ball has a rational midpoint and radius (Arb: dyadic
    ones), and addition and multiplication at some precision return a ball that
    encloses the exact result. *)
From Coq Require Import ZArith QArith Qreals Reals List Bool.
From Verif Require Import Base ExactReal Vector PlaneSpec.

(** arb_t of Arb. *)
Record ball := mkBall { mid : Q; rad : Q }.

Definition lo (b : ball) : Q := mid b - rad b.
Definition hi (b : ball) : Q := mid b + rad b.

(** The real number [x] is in the ball. *)
Definition within (x : R) (b : ball) : Prop := (Q2R (lo b) <= x <= Q2R (hi b))%R.

(** The operations [(x * y)(ARB_PRECISION_FAST)] and [(x + y)(ARB_PRECISION_FAST)],
    whatever the rounding is. *)
Record ArbOps := mkArbOps {
  amul : ball -> ball -> ball;
  aadd : ball -> ball -> ball;
  amul_sound : forall a b x y, within x a -> within y b -> within (x * y) (amul a b);
  aadd_sound : forall a b x y, within x a -> within y b -> within (x + y) (aadd a b)
}.

(** arb_is_exact. *)
Definition is_exact (b : ball) : bool := Qeq_bool (rad b) 0.
(** arb_overlaps. *)
Definition overlaps (a b : ball) : bool := Qle_bool (lo a) (hi b) && Qle_bool (lo b) (hi a).
(** exactreal::Arb::equal, arb_equal: same midpoint and radius. *)
Definition ball_equal (a b : ball) : bool := Qeq_bool (mid a) (mid b) && Qeq_bool (rad a) (rad b).
(** exactreal::Arb::operator== : arb_eq (identical points), arb_ne (disjoint), or unknown. *)
Definition arb_eq (a b : ball) : option bool :=
  if is_exact a && is_exact b && Qeq_bool (mid a) (mid b) then Some true
  else if overlaps a b then None else Some false.
Definition arb_ne (a b : ball) : option bool := option_map negb (arb_eq a b).
(** exactreal::Arb::operator< : arb_lt, arb_ge, or unknown. *)
Definition arb_lt (a b : ball) : option bool :=
  if Qltb (hi a) (lo b) then Some true else if Qle_bool (hi b) (lo a) then Some false else None.
(** exactreal::Arb::operator> : arb_gt, arb_le, or unknown. *)
Definition arb_gt (a b : ball) : option bool := arb_lt b a.
(** exactreal::Arb(z). *)
Definition arb_Z (z : Z) : ball := mkBall (inject_Z z) 0.

(** vector.impl.hpp with T = exactreal::Arb. *)
Record avec := mkAVec { ax : ball; ay : ball }.

Section filters.
Variable A : ArbOps.

(** vector.cc:262-285, [ccw]. *)
Definition accw (self rhs : avec) : option CCW :=
  let a := amul A (ax self) (ay rhs) in
  let b := amul A (ax rhs) (ay self) in
  if overlaps a b then
    if is_exact a && is_exact b then
      if ball_equal a b then Some COLLINEAR else None
    else None
  else if Qltb (mid a) (mid b) then Some CLOCKWISE else Some COUNTERCLOCKWISE.

(** The dot product, vector.cc:292 and 397-401. *)
Definition adot (self rhs : avec) : ball :=
  aadd A (amul A (ax self) (ax rhs)) (amul A (ay self) (ay rhs)).

(** vector.cc:288-309, [orientation]. *)
Definition aorientation (self rhs : avec) : option ORIENTATION :=
  let dot := adot self rhs in
  match arb_gt dot (arb_Z 0) with
  | Some true => Some SAME
  | Some false =>
      match arb_eq dot (arb_Z 0) with
      | Some true => Some ORTHOGONAL
      | _ => Some OPPOSITE
      end
  | None => None
  end.

(** vector.cc:380-394, [operator std::optional<bool>]. *)
Definition anonzero (self : avec) : option bool :=
  let x := arb_ne (ax self) (arb_Z 0) in
  let y := arb_ne (ay self) (arb_Z 0) in
  match x, y with
  | Some a, Some b => Some (a || b)
  | Some true, _ => Some true
  | _, Some true => Some true
  | _, _ => None
  end.

(** vector.cc:312-323, [operator>(Bound)]. *)
Definition agt (self : avec) (b : bound) : option bool :=
  match (if negb (bnonzero b) then anonzero self else None) with
  | Some r => Some r
  | None => arb_gt (adot self self) (arb_Z (bsquared b))
  end.

(** vector.cc:335-342, [operator<(Bound)]. *)
Definition alt (self : avec) (b : bound) : option bool :=
  if negb (bnonzero b) then Some false else arb_lt (adot self self) (arb_Z (bsquared b)).

(** vector.cc:325-333 [operator>=(Bound)] and 344-352 [operator<=(Bound)]. *)
Definition age (self : avec) (b : bound) : option bool := option_map negb (alt self b).
Definition ale (self : avec) (b : bound) : option bool := option_map negb (agt self b).

(** vector.cc:354-366, [operator==]; line 361 reads [self.self->x == rhs.self->y]. *)
Definition aeq (self rhs : avec) : option bool :=
  match arb_eq (ax self) (ax rhs) with
  | Some true =>
      match arb_eq (ax self) (ay rhs) with
      | Some true => Some true
      | maybe_y => maybe_y
      end
  | maybe_x => maybe_x
  end.
(** vector.cc:368-377, [operator!=]. *)
Definition ane (self rhs : avec) : option bool := option_map negb (aeq self rhs).

(** ** Filtered predicates of exact vectors *)
Context {K : ExactReal}.
(** approximation.hpp, [Approximation<T>::arb]. *)
Variable arb : K -> ball.
(** vector.cc:248-259, conversion to Vector<Arb>. *)
Definition approx (v : vec K) : avec := mkAVec (arb (vx v)) (arb (vy v)).

(** vector.cc:403-426, [ccw] for number field elements and exact-real elements. *)
Definition ccw_filtered (v w : vec K) : CCW :=
  match accw (approx v) (approx w) with Some c => c | None => ccw v w end.
(** vector.cc:429-451, [orientation]. *)
Definition orientation_filtered (v w : vec K) : ORIENTATION :=
  match aorientation (approx v) (approx w) with Some c => c | None => orientation v w end.
(** vector.cc:471-498. *)
Definition vgtb_filtered (v : vec K) (b : bound) : bool :=
  if negb (bnonzero b) then vnonzero v else
  match agt (approx v) b with Some c => c | None => vgtb v b end.
Definition vltb_filtered (v : vec K) (b : bound) : bool :=
  if negb (bnonzero b) then false else
  match alt (approx v) b with Some c => c | None => vltb v b end.
(** vector.cc:624-635, [CompareLength]. *)
Definition compareLength_filtered (v w : vec K) : bool :=
  match arb_lt (adot (approx v) (approx v)) (adot (approx w) (approx w)) with
  | Some c => c
  | None => compareLength v w
  end.
End filters.
