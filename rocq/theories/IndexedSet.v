(** * Sets of half edges and of edges

    Model of /repo/libflatsurf/src/indexed_set.cc, indexed_set_iterator.cc,
    half_edge_set.cc and edge_set.cc.  Elements are represented by their index. *)
From Coq Require Import List Arith Bool.
From Verif Require Import Base.
Import ListNotations.

(** /repo/libflatsurf/src/impl/indexed_set.hpp: member [set], a boost::dynamic_bitset.
    The list holds the bits, its length is the size of the bitset. *)
Notation bits := (list bool) (only parsing).

(** boost::dynamic_bitset::resize. *)
Definition bresize (s : bits) (n : nat) : bits := firstn n s ++ repeat false (n - length s).

(** indexed_set.cc:37-39, [IndexedSet()]. *)
Definition sempty_set : bits := [].

(** indexed_set.cc:48-53, [contains]. *)
Definition scontains (s : bits) (i : nat) : bool :=
  if length s <=? i then false else nth i s false.

(** indexed_set.cc:55-60, [insert]. *)
Definition sinsert (s : bits) (i : nat) : bits :=
  let s' := if length s <=? i then bresize s (i + 1) else s in
  upd s' i true.

(** indexed_set.cc:41-46, [IndexedSet(const std::vector<T>&)]. *)
Definition sof_list (items : list nat) : bits := fold_left sinsert items sempty_set.

(** indexed_set.cc:88-92, [erase]. *)
Definition serase (s : bits) (i : nat) : bits :=
  if length s <=? i then s else upd s i false.

(** indexed_set.cc:63-65 and 71-73: both (mutable) bitsets are resized, the
    second one using the new size of the first one. *)
Definition salign (s r : bits) : bits * bits :=
  let s' := bresize s (Nat.max (length s) (length r)) in
  let r' := bresize r (Nat.max (length s') (length r)) in
  (s', r').

Fixpoint beq_bits (s r : bits) : bool :=
  match s, r with
  | [], [] => true
  | a :: s', b :: r' => Bool.eqb a b && beq_bits s' r'
  | _, _ => false
  end.

(** indexed_set.cc:62-68, [operator==]: the answer and the new values of the two bitsets. *)
Definition seq_op (s r : bits) : (bits * bits) * bool :=
  let '(s', r') := salign s r in ((s', r'), beq_bits s' r').

Fixpoint intersects (s r : bits) : bool :=
  match s, r with
  | a :: s', b :: r' => (a && b) || intersects s' r'
  | _, _ => false
  end.

(** indexed_set.cc:70-76, [disjoint]. *)
Definition sdisjoint (s r : bits) : (bits * bits) * bool :=
  let '(s', r') := salign s r in ((s', r'), negb (intersects s' r')).

(** boost::dynamic_bitset::find_first and find_next: position of the first set
    bit at or after [from], where [off] is the position of the head of the list. *)
Fixpoint find_from (off from : nat) (s : bits) : option nat :=
  match s with
  | [] => None
  | b :: r => if (from <=? off) && b then Some off else find_from (S off) from r
  end.

(** indexed_set_iterator.cc:59-64, [makeT]: npos becomes the size of the set. *)
Definition make_pos (s : bits) (pos : option nat) : nat :=
  match pos with Some p => p | None => length s end.

(** indexed_set.cc:94-97, [begin]. *)
Definition sbegin (s : bits) : nat := make_pos s (find_from 0 0 s).
(** indexed_set.cc:99-102, [end]. *)
Definition send (s : bits) : nat := length s.
(** indexed_set_iterator.cc:31-35, [increment]. *)
Definition snext (s : bits) (cur : nat) : nat := make_pos s (find_from 0 (S cur) s).

(** A loop [for (auto it = begin(); it != end; ++it)] with [end] evaluated
    once, as in a range based for loop; [cur] is the current position. *)
Fixpoint siterate (fuel : nat) (s : bits) (cur last : nat) : outcome (list nat) :=
  match fuel with
  | O => OutOfFuel
  | S k =>
      if cur =? last then Ok []
      else do r <- siterate k s (snext s cur) last; Ok (cur :: r)
  end.
Definition selements (s : bits) : outcome (list nat) :=
  siterate (S (length s)) s (sbegin s) (send s).

(** indexed_set.cc:78-81, [empty]. *)
Definition sempty (s : bits) : bool := sbegin s =? send s.

(** indexed_set.cc:83-86, [size]. *)
Definition ssize (s : bits) : nat := length (filter (fun b => b) s).

(** A range based for loop over a set [s] whose body asks [s.disjoint(r)]; the
    sets are modified in the body since [disjoint] resizes them. *)
Fixpoint siterate_disjoint (fuel : nat) (s r : bits) (cur last : nat) : outcome (list nat) :=
  match fuel with
  | O => OutOfFuel
  | S k =>
      if cur =? last then Ok []
      else
        let '((s', r'), _) := sdisjoint s r in
        do rest <- siterate_disjoint k s' r' (snext s' cur) last; Ok (cur :: rest)
  end.

(** edge_set.cc: an EdgeSet object owns its implementation through a
    spimpl::impl_ptr; [ref] is the address of the implementation. *)
Record edge_set := mkEdgeSet { ref : nat; impl : bits }.

(** edge_set.cc:51-53, [operator==] compares the two impl_ptr. *)
Definition edge_set_eq (a b : edge_set) : bool := ref a =? ref b.

(** ** Histories *)

Inductive sop :=
| OpNew (k : nat) (items : list nat)   (* k = Set(items) *)
| OpCopy (k j : nat)                   (* k = j *)
| OpInsert (k x : nat)
| OpErase (k x : nat)
| OpContains (k x : nat)
| OpEq (k j : nat)
| OpDisjoint (k j : nat)
| OpEmpty (k : nat)
| OpSize (k : nat)
| OpElements (k : nat).

Inductive sans :=
| ANone
| ABool (b : bool)
| ANat (n : nat)
| AList (l : outcome (list nat)).

Definition sstate := nat -> bits.
Definition sput (st : sstate) (k : nat) (v : bits) : sstate := fun j => if j =? k then v else st j.

(** One operation on a family of sets. *)
Definition sstep (o : sop) (st : sstate) : sstate * sans :=
  match o with
  | OpNew k items => (sput st k (sof_list items), ANone)
  | OpCopy k j => (sput st k (st j), ANone)
  | OpInsert k x => (sput st k (sinsert (st k) x), ANone)
  | OpErase k x => (sput st k (serase (st k) x), ANone)
  | OpContains k x => (st, ABool (scontains (st k) x))
  | OpEq k j =>
      let '((a, b), r) := seq_op (st k) (st j) in (sput (sput st k a) j b, ABool r)
  | OpDisjoint k j =>
      let '((a, b), r) := sdisjoint (st k) (st j) in (sput (sput st k a) j b, ABool r)
  | OpEmpty k => (st, ABool (sempty (st k)))
  | OpSize k => (st, ANat (ssize (st k)))
  | OpElements k => (st, AList (selements (st k)))
  end.

Fixpoint srun (os : list sop) (st : sstate) : sstate :=
  match os with [] => st | o :: r => srun r (fst (sstep o st)) end.

Definition sinit : sstate := fun _ => sempty_set.
