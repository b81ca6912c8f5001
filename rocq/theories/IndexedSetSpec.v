(** * Mathematical sets *)
From Coq Require Import List Arith Bool Sorted.
From Verif Require Import Base IndexedSet.
Import ListNotations.

(** A family of sets of natural numbers. *)
Definition mstate := nat -> nat -> bool.

Definition mput (st : mstate) (k : nat) (v : nat -> bool) : mstate := fun j => if j =? k then v else st j.

(** What an operation does to the mathematical sets. *)
Definition mstep (o : sop) (st : mstate) : mstate :=
  match o with
  | OpNew k items => mput st k (fun x => if in_dec Nat.eq_dec x items then true else false)
  | OpCopy k j => mput st k (st j)
  | OpInsert k x => mput st k (fun y => (y =? x) || st k y)
  | OpErase k x => mput st k (fun y => negb (y =? x) && st k y)
  | _ => st
  end.

Fixpoint mrun (os : list sop) (st : mstate) : mstate :=
  match os with [] => st | o :: r => mrun r (mstep o st) end.

Definition minit : mstate := fun _ _ => false.

(** [l] lists the members of [s] in increasing order. *)
Definition lists (s : nat -> bool) (l : list nat) : Prop :=
  StronglySorted lt l /\ forall x, In x l <-> s x = true.

(** Which answers are correct. *)
Definition correct (o : sop) (st : mstate) (a : sans) : Prop :=
  match o, a with
  | OpContains k x, ABool b => b = st k x
  | OpEq k j, ABool b => b = true <-> (forall x, st k x = st j x)
  | OpDisjoint k j, ABool b => b = true <-> (forall x, ~ (st k x = true /\ st j x = true))
  | OpEmpty k, ABool b => b = true <-> (forall x, st k x = false)
  | OpSize k, ANat n => exists l, lists (st k) l /\ n = length l
  | OpElements k, AList (Ok l) => lists (st k) l
  | OpNew _ _, ANone | OpCopy _ _, ANone | OpInsert _ _, ANone | OpErase _ _, ANone => True
  | _, _ => False
  end.
