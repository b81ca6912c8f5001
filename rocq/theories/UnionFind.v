(** * Union find

    Model of /repo/libflatsurf/src/util/union_find.ipp (UF). The nodes of a forest are numbered; the state is the list of
    the parents, a node is a root if it is its own parent. The representative of a node is its number. *)
From Coq Require Import List Arith.
From Verif Require Import Base.
Import ListNotations.

(** UF:47-50, the constructor, for [n] nodes. *)
Definition uf_new (n : nat) : list nat := seq 0 n.

(** UF:34-44, [top], which makes the root the parent of all the nodes on the way. *)
Fixpoint utop_fuel (fuel : nat) (st : list nat) (i : nat) : outcome (list nat * nat) :=
  match fuel with
  | O => OutOfFuel
  | S fuel =>
    do p <- vget st i;
    if p =? i then Ok (st, i)
    else
      do (st, r) <- utop_fuel fuel st p;
      do st <- vset st i r;
      Ok (st, r)
  end.
Definition utop (st : list nat) (i : nat) : outcome (list nat * nat) := utop_fuel (length st) st i.

(** UF:57-59, [operator==]. *)
Definition uequal (st : list nat) (i j : nat) : outcome (list nat * bool) :=
  do (st, x) <- utop st i;
  do (st, y) <- utop st j;
  Ok (st, x =? y).
(** UF:61-64, [join]; the right hand side of the assignment is evaluated first. *)
Definition ujoin (st : list nat) (i j : nat) : outcome (list nat) :=
  do (st, y) <- utop st j;
  do (st, x) <- utop st i;
  vset st x y.
(** UF:66-68, [representative]. *)
Definition urepresentative (st : list nat) (i : nat) : outcome (list nat * nat) := utop st i.

(** A history of calls. *)
Inductive ucall := Join (i j : nat) | Equal (i j : nat) | Representative (i : nat).
Definition ustep (st : list nat) (c : ucall) : outcome (list nat) :=
  match c with
  | Join i j => ujoin st i j
  | Equal i j => do (st, _) <- uequal st i j; Ok st
  | Representative i => do (st, _) <- urepresentative st i; Ok st
  end.
Fixpoint urun (st : list nat) (l : list ucall) : outcome (list nat) :=
  match l with
  | [] => Ok st
  | c :: l => do st <- ustep st c; urun st l
  end.
