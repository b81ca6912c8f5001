(** * Vectors

    Model of /repo/libflatsurf/src/vector.cc and bound.cc for exact coordinates. *)
From Coq Require Import ZArith QArith List Bool.
From Verif Require Import Base ExactReal.
Import ListNotations.
Local Open Scope exact_scope.

(** vector.impl.hpp: members [x] and [y]. *)
Record vec (K : ExactReal) := mkVec { vx : K; vy : K }.
Arguments mkVec {K} _ _.
Arguments vx {K} _.
Arguments vy {K} _.

Section vectors.
Context {K : ExactReal}.
Notation V := (vec K).

(** vector.cc:74-76, the default constructor. *)
Definition vzero : V := mkVec 0 0.
(** vector.cc:92-113, [operator+=]. *)
Definition vadd (v w : V) : V := mkVec (vx v + vx w) (vy v + vy w).
(** vector.cc:120-125, unary [operator-]. *)
Definition vneg (v : V) : V := mkVec (- vx v) (- vy v).
(** vector.cc:115-118, [operator-=]: adds the negative. *)
Definition vsub (v w : V) : V := vadd v (vneg w).
(** vector.cc:142-163, [operator*=(const mpz_class&)] (and vector.cc:127-140 for int). *)
Definition vscaleZ (c : Z) (v : V) : V := mkVec (vx v * rofZ c) (vy v * rofZ c).
(** vector.cc:461-469, [operator*=(const T&)]. *)
Definition vscale (c : K) (v : V) : V := mkVec (vx v * c) (vy v * c).
(** vector.cc:231-236, [perpendicular]. *)
Definition vperp (v : V) : V := mkVec (- vy v) (vx v).
(** vector.cc:453-458, [operator*], the dot product. *)
Definition vdot (v w : V) : K := vx v * vx w + vy v * vy w.
(** vector.cc:500-505, [operator==]. *)
Definition veqb (v w : V) : bool := (vx v =? vx w) && (vy v =? vy w).
(** vector.cc:507-512, [operator bool]. *)
Definition vnonzero (v : V) : bool := negb (vx v =? 0) || negb (vy v =? 0).

(** ccw.hpp:30-34. *)
Inductive CCW := COUNTERCLOCKWISE | COLLINEAR | CLOCKWISE.
(** orientation.hpp:29-33. *)
Inductive ORIENTATION := SAME | ORTHOGONAL | OPPOSITE.

(** vector.cc:406-417, [ccwExact]; [a > b] is [b < a].  The interval filter in lines
    419-423 is in Arb.v. *)
Definition ccw (v w : V) : CCW :=
  let a := vx v * vy w in
  let b := vx w * vy v in
  if a =? b then COLLINEAR
  else if b <? a then COUNTERCLOCKWISE
  else CLOCKWISE.

(** vector.cc:432-442, [orientationExact]. *)
Definition orientation (v w : V) : ORIENTATION :=
  let dot := vdot v w in
  if dot =? 0 then ORTHOGONAL
  else if 0 <? dot then SAME
  else OPPOSITE.

(** vector.cc:514-522, [applyMatrix]. *)
Definition vapply (a b c d : K) (v : V) : V := mkVec (a * vx v + b * vy v) (c * vx v + d * vy v).

Definition ccw_eqb (a b : CCW) : bool :=
  match a, b with
  | COUNTERCLOCKWISE, COUNTERCLOCKWISE | COLLINEAR, COLLINEAR | CLOCKWISE, CLOCKWISE => true
  | _, _ => false
  end.
Definition orientation_eqb (a b : ORIENTATION) : bool :=
  match a, b with
  | SAME, SAME | ORTHOGONAL, ORTHOGONAL | OPPOSITE, OPPOSITE => true
  | _, _ => false
  end.

(** vector.cc:525-558, [self.inSector(begin, end)].  The recursive call in line 551
    swaps the arguments, so it takes fuel 2; [LIBFLATSURF_UNREACHABLE] is UB. *)
Fixpoint inSector_fuel (fuel : nat) (self begin end_ : V) : outcome bool :=
  match fuel with
  | O => OutOfFuel
  | S k =>
      if negb (vnonzero begin) then Throw
      else if negb (vnonzero end_) then Throw
      else if negb (vnonzero self) then Throw
      else match ccw begin end_ with
      | COLLINEAR =>
          match orientation begin end_ with
          | SAME => Ok (ccw_eqb (ccw self begin) COLLINEAR && orientation_eqb (orientation self begin) SAME)
          | OPPOSITE =>
              match ccw begin self with
              | COUNTERCLOCKWISE => Ok true
              | CLOCKWISE => Ok false
              | COLLINEAR => Ok (orientation_eqb (orientation begin self) SAME)
              end
          | ORTHOGONAL => UB
          end
      | CLOCKWISE => do b <- inSector_fuel k self end_ begin; Ok (negb b)
      | COUNTERCLOCKWISE => Ok (negb (ccw_eqb (ccw begin self) CLOCKWISE) && ccw_eqb (ccw self end_) COUNTERCLOCKWISE)
      end
  end.
Definition inSector (self begin end_ : V) : outcome bool := inSector_fuel 2 self begin end_.

(** vector.cc:580-598, the loop of [area2]; the state is [current] and [area]. *)
Fixpoint area2_from (current : V) (area : K) (perimeter : list V) : K :=
  match perimeter with
  | [] => area
  | v :: r =>
      let next := vadd current v in
      area2_from next (area + (vx current * vy next - vy current * vx next)) r
  end.
Definition varea2 (perimeter : list V) : K := area2_from vzero 0 perimeter.

(** vector.cc:601-621, [CompareSlope]. *)
Definition compareSlope (lhs rhs : V) : bool :=
  let lhs_infinite := vx lhs =? 0 in
  let rhs_infinite := vx rhs =? 0 in
  if rhs_infinite then negb lhs_infinite
  else if lhs_infinite then false
  else
    let a := vy lhs * vx rhs in
    let b := vy rhs * vx lhs in
    if Bool.eqb (vx lhs <? 0) (vx rhs <? 0) then a <? b else b <? a.

(** vector.cc:624-635, [CompareLength] without its filter. *)
Definition compareLength (lhs rhs : V) : bool := vdot lhs lhs <? vdot rhs rhs.

(** bound.cc: the member [square]. *)
Definition bound := Z.
(** bound.cc:60-61 [Bound(x)]; bound.cc:394-395 [Bound(x, y)]. *)
Definition bound1 (x : Z) : bound := (x * x)%Z.
Definition bound2 (x y : Z) : bound := (x * x + y * y)%Z.
(** bound.cc:397-399 [squared]; bound.cc:402-404 [operator bool]. *)
Definition bsquared (b : bound) : Z := b.
Definition bnonzero (b : bound) : bool := negb (b =? 0)%Z.
(** bound.cc:406-408 [==]; 410-412 [<]. *)
Definition beqb (a b : bound) : bool := (a =? b)%Z.
Definition bltb (a b : bound) : bool := (a <? b)%Z.
(** bound.cc:414-417 [*=]. *)
Definition bmul (b : bound) (c : Z) : bound := (b * (c * c))%Z.
(** bound.cc:419-432 [lower] and 434-449 [upper] for types with floor() and ceil(). *)
Definition blower (v : V) : bound := rfloor (vdot v v).
Definition bupper (v : V) : bound := rceil (vdot v v).

(** vector.cc:471-484 [operator>(Bound)] and 486-498 [operator<(Bound)] without the filter. *)
Definition vgtb (v : V) (b : bound) : bool :=
  if negb (bnonzero b) then vnonzero v else rofZ (bsquared b) <? (vx v * vx v + vy v * vy v).
Definition vltb (v : V) (b : bound) : bool :=
  if negb (bnonzero b) then false else (vx v * vx v + vy v * vy v) <? rofZ (bsquared b).
End vectors.

(** bound.cc:424-425 and 440-443, [lower] and [upper] for mpq_class: division of mpz
    truncates; numerator and denominator are in lowest terms. *)
Definition blowerQ (v : vec ExactQ) : bound :=
  let s := Qred (vdot v v) in Z.quot (Qnum s) (Zpos (Qden s)).
Definition bupperQ (v : vec ExactQ) : bound :=
  let s := Qred (vdot v v) in
  let q := Z.quot (Qnum s) (Zpos (Qden s)) in
  if negb (Z.rem (Qnum s) (Zpos (Qden s)) =? 0)%Z then (q + 1)%Z else q.
