(** * What a permutation is, independently of the implementation *)
From Coq Require Import List Arith Lia.
From Verif Require Import Base Perm.
Import ListNotations.

(** [f] is a bijection of [0..n-1] with inverse [g]. *)
Definition bijection (n : nat) (f g : nat -> nat) : Prop :=
  (forall i, i < n -> f i < n /\ g (f i) = i) /\
  (forall j, j < n -> g j < n /\ f (g j) = j).

(** [p] represents the bijection [f] of [0..n-1]: looking up never leaves the
    tables, operator() is [f] and preimage is the inverse of [f]. *)
Definition represents (n : nat) (p : perm) (f g : nat -> nat) : Prop :=
  length (fwd p) = n /\ length (bwd p) = n /\
  (forall i, i < n -> papp p i = Ok (f i)) /\
  (forall i, i < n -> ppre p i = Ok (g i)).

Definition is_perm (n : nat) (p : perm) : Prop :=
  exists f g, bijection n f g /\ represents n p f g.

(** The cyclic permutation denoted by a list: each element goes to its successor
    in the list, the last one to the first one, everything else is fixed. *)
Fixpoint succ_in (first : nat) (c : list nat) (x : nat) : nat :=
  match c with
  | [] => x
  | z :: r => if x =? z then match r with [] => first | w :: _ => w end else succ_in first r x
  end.
Definition cyclic (c : list nat) (x : nat) : nat := succ_in (hd 0 c) c x.
