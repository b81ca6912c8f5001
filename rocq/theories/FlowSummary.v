(** * Summaries of a flow decomposition

    Model of the queries in /repo/libflatsurf/src/flow_decomposition.cc (FD). *)
From Coq Require Import QArith List Arith Bool.
From Verif Require Import Base ExactReal Vector.
Import ListNotations.

(** boost::logic::tribool, used at FD:115-162, with the operators that are used there.  [holds] is the conversion to bool in
    a condition: it is only true for [Yes]. *)
Inductive tribool := Yes | No | Maybe.
Definition t_not (x : tribool) : tribool := match x with Yes => No | No => Yes | Maybe => Maybe end.
Definition t_or (x y : tribool) : tribool :=
  match x, y with Yes, _ | _, Yes => Yes | No, No => No | _, _ => Maybe end.
Definition t_and (x y : tribool) : tribool :=
  match x, y with No, _ | _, No => No | Yes, Yes => Yes | _, _ => Maybe end.
Definition t_eq (x y : tribool) : tribool :=
  match x, y with Maybe, _ | _, Maybe => Maybe | Yes, Yes | No, No => Yes | _, _ => No end.
Definition t_ne (x y : tribool) : tribool := t_not (t_eq x y).
Definition holds (x : tribool) : bool := match x with Yes => true | _ => false end.

Section summary.
Context {K : ExactReal}.

(** What FD:115-162 uses of a component: [cylinder()] (flow_component.cc:263), the first entry of [holonomy()]
    (flow_component.cc:335) and [area2()] (flow_component.cc:282-284). *)
Record component := mkComponent { ccylinder : tribool; choly : vec K; carea2 : K }.

(** FD:115-123, [hasCylinder]. *)
Fixpoint has_cylinder_loop (state : tribool) (cs : list component) : tribool :=
  match cs with
  | [] => state
  | c :: cs =>
    let state := t_or state (ccylinder c) in
    if holds state then Yes else has_cylinder_loop state cs
  end.
Definition has_cylinder (cs : list component) : tribool := has_cylinder_loop No cs.

(** FD:125-132, [completelyPeriodic]. *)
Fixpoint completely_periodic (cs : list component) : tribool :=
  match cs with
  | [] => Yes
  | c :: cs =>
    let state := ccylinder c in
    if holds (t_ne state Yes) then state else completely_periodic cs
  end.

(** flow_component.cc:331-336, [circumferenceHolonomy]. *)
Definition circumference (c : component) : outcome (vec K) :=
  if holds (t_not (ccylinder c)) then Throw else Ok (choly c).

(** intervalxt::sample::Coefficients, used at FD:149: the coefficients of two numbers in a common basis. *)
Variable coefficients : K -> K -> list Q * list Q.

(** FD:150-152. *)
Fixpoint skip_zeros (u v : list Q) : list Q * list Q :=
  match u, v with
  | x :: u', y :: v' => if Qeq_bool x 0 && Qeq_bool y 0 then skip_zeros u' v' else (u, v)
  | _, _ => (u, v)
  end.
(** FD:153-157. *)
Fixpoint same_ratio (x y : Q) (u v : list Q) : bool :=
  match u, v with
  | a :: u, b :: v => if negb (Qeq_bool (x * b) (a * y)) then false else same_ratio x y u v
  | _, _ => true
  end.
Definition proportional (u v : list Q) : bool :=
  match skip_zeros u v with
  | (x :: u, y :: v) => same_ratio x y u v
  | _ => true
  end.

(** FD:134-162, [parabolic]. *)
Fixpoint parabolic_loop (a0 hnorm20 : K) (answer : tribool) (cs : list component) : outcome tribool :=
  match cs with
  | [] => Ok answer
  | c :: cs =>
    let state := ccylinder c in
    if holds (t_eq state No) then Ok No
    else
      let answer := t_and answer state in
      do h <- circumference c;
      let hnorm2 := (vx h * vx h + vy h * vy h)%X in
      let a := carea2 c in
      if (hnorm20 =? rofZ 0)%X then parabolic_loop a hnorm2 answer cs
      else
        let '(u, v) := coefficients (a0 * hnorm2)%X (a * hnorm20)%X in
        if proportional u v then parabolic_loop a0 hnorm20 answer cs else Ok No
  end.
Definition parabolic (cs : list component) : outcome tribool := parabolic_loop (rofZ 0) (rofZ 0) Yes cs.
End summary.
Arguments component : clear implicits.
