(** * Lengths of interval exchange transformations

    Model of /repo/libflatsurf/src/lengths.cc (LE) for surfaces that are not collapsed.  The label of an edge is its index (LE:303-305, LE:307-314),
    and the connections of the edges are a list that is indexed by labels.  The top of the stack is the head of a list. *)
From Coq Require Import ZArith List Arith Bool.
From Verif Require Import Base HalfEdge Combinatorial ExactReal Vector FlatTri Saddle Vertical.
Import ListNotations.

Section lengths.
Context {K : ExactReal}.

(** impl/lengths.hpp:72-77, the members; the decomposition [state] is left out. *)
Record lengths := mkLengths {
  le_vertical : vertical K;
  le_lengths : list (option (@sconn K));
  le_stack : list nat;
  le_sum : K
}.

(** VE:88-91, [projectPerpendicular] of a vector. *)
Definition project_perpendicular_vector (m : vertical K) (v : vec K) : K := vdot (vt_horizontal m) v.
(** VE:124-127, [ccw] of a vector. *)
Definition vertical_ccw_vector (m : vertical K) (v : vec K) : CCW := ccw (vt_vertical m) v.

(** LE:72-74, the check of the constructor for each edge (edge_map.hpp:48-52). *)
Fixpoint check_lengths (m : vertical K) (l : list (option (@sconn K))) : outcome unit :=
  match l with
  | [] => Ok tt
  | None :: r => check_lengths m r
  | Some c :: r => do v <- sc_vector c; if ccw_eqb (vertical_ccw_vector m v) CLOCKWISE then check_lengths m r else Throw
  end.
(** LE:66-75, the constructor. *)
Definition make_lengths (m : vertical K) (l : list (option (@sconn K))) : outcome lengths :=
  do _ <- check_lengths m l;
  Ok (mkLengths m l [] (rofZ 0)).

(** LE:322-327, [length] of a label; a label without a connection is UB. *)
Definition length_of (l : lengths) (label : nat) : outcome K :=
  do o <- vget (le_lengths l) label;
  match o with
  | None => UB
  | Some c => do v <- sc_vector c; Ok (project_perpendicular_vector (le_vertical l) v)
  end.
(** LE:290-292, [get]. *)
Definition get_length (l : lengths) (label : nat) : outcome K := length_of l label.

(** LE:77-82, [push]. *)
Definition push (l : lengths) (label : nat) : outcome lengths :=
  do x <- length_of l label;
  Ok (mkLengths (le_vertical l) (le_lengths l) (label :: le_stack l) (le_sum l + x)%X).
(** LE:84-90, [pop]; the last element of an empty stack is UB. *)
Definition pop (l : lengths) : outcome lengths :=
  match le_stack l with
  | [] => UB
  | label :: r => do x <- length_of l label; Ok (mkLengths (le_vertical l) (le_lengths l) r (le_sum l - x)%X)
  end.

(** LE:271-277 and 280-286, the comparisons. *)
Definition compare3 (x y : K) : Z := if (x <? y)%X then (-1)%Z else if (y <? x)%X then 1%Z else 0%Z.
Definition cmp_stack (l : lengths) (rhs : nat) : outcome Z := do y <- length_of l rhs; Ok (compare3 (le_sum l) y).
Definition cmp_labels (l : lengths) (lhs rhs : nat) : outcome Z := do x <- length_of l lhs; do y <- length_of l rhs; Ok (compare3 x y).

(** LE:329-341, [forget]; an edge without a connection has length zero. *)
Fixpoint forget_lengths (m : vertical K) (l : list (option (@sconn K))) : outcome (list K) :=
  match l with
  | [] => Ok []
  | None :: r => do xs <- forget_lengths m r; Ok (rofZ 0 :: xs)
  | Some c :: r => do v <- sc_vector c; do xs <- forget_lengths m r; Ok (project_perpendicular_vector m v :: xs)
  end.
End lengths.
Arguments lengths K : clear implicits.
