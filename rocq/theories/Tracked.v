(** * Objects attached to a triangulation

    Model of the default handlers in /repo/libflatsurf/src/tracked.cc (TR), of the dictionaries in
    /repo/libflatsurf/flatsurf/edge_map.hpp, half_edge_map.hpp and odd_half_edge_map.hpp, and of the part of
    /repo/libflatsurf/src/flat_triangulation_combinatorial.cc (FTC) that moves edges to the end before they are erased. *)
From Coq Require Import List Arith Bool.
From Verif Require Import Base HalfEdge IndexedSet Combinatorial.
Import ListNotations.

Section maps.
Context {T : Type}.

(** std::swap of two entries of a vector, TR:133 and TR:137-138. *)
Definition swap_entries (l : list T) (i j : nat) : outcome (list T) :=
  do x <- vget l i;
  do y <- vget l j;
  do l <- vset l i y;
  vset l j x.

(** TR:130-133, [defaultSwap] of an EdgeMap; the entries are in the order of the edges (edge_map.hpp:40-42). *)
Definition edge_map_swap (l : list T) (a b : halfedge) : outcome (list T) :=
  if a =? b then Ok l else swap_entries l (edge_index (edge_of a)) (edge_index (edge_of b)).

(** TR:134-138, [defaultSwap] of a HalfEdgeMap (half_edge_map.hpp:65-67). *)
Definition half_edge_map_swap (l : list T) (a b : halfedge) : outcome (list T) :=
  if a =? b then Ok l else do l <- swap_entries l a b; swap_entries l (neg a) (neg b).

(** odd_half_edge_map.hpp:47-59, [set]; [opp] is the negation of values. *)
Variable opp : T -> T.
Definition odd_set (l : list T) (h : halfedge) (value : T) : outcome (list T) :=
  do l <- vset l h value;
  vset l (neg h) (opp value).

(** TR:139-147, [defaultSwap] of an OddHalfEdgeMap. *)
Definition odd_map_swap (l : list T) (a b : halfedge) : outcome (list T) :=
  if a =? b then Ok l
  else if a =? neg b then do y <- vget l b; odd_set l a y
  else
    do tmp <- vget l a;
    do y <- vget l b;
    do l <- odd_set l a y;
    odd_set l b tmp.

(** TR:161-174, [defaultErase]: [pop] once per erased edge, edge_map.hpp:53-55 and half_edge_map.hpp:78-81.  The erased edges
    are only counted. *)
Fixpoint edge_map_erase (l : list T) (count : nat) : list T :=
  match count with O => l | S k => edge_map_erase (removelast l) k end.
Fixpoint half_edge_map_erase (l : list T) (count : nat) : list T :=
  match count with O => l | S k => half_edge_map_erase (removelast (removelast l)) k end.
End maps.

(** TR:112-120, [defaultSwap] of a HalfEdge. *)
Definition half_edge_swap (h a b : halfedge) : halfedge :=
  if h =? a then b else if h =? neg a then neg b else if h =? b then a else if h =? neg b then neg a else h.

(** TR:121-129, [defaultSwap] of an EdgeSet. *)
Definition edge_set_swap (s : bits) (a b : halfedge) : bits :=
  if (a =? b) || (a =? neg b) then s else
  let a := edge_index (edge_of a) in
  let b := edge_index (edge_of b) in
  if scontains s a && negb (scontains s b) then sinsert (serase s a) b
  else if negb (scontains s a) && scontains s b then sinsert (serase s b) a
  else s.
(** TR:158-160, [defaultErase] of an EdgeSet. *)
Definition edge_set_erase (s : bits) (erase : list nat) : bits := fold_left serase erase s.

(** TR:153-157, [defaultErase] of a HalfEdge. *)
Definition half_edge_erase (h : halfedge) (erase : list edge) : outcome halfedge :=
  if mem_list (edge_of h) erase then Throw else Ok h.

(** FTC:304-305: the largest edge that is not dropped; [m] is the id of an edge, one more than its index. *)
Fixpoint lower (drop : list nat) (m : nat) : nat :=
  match m with O => O | S k => if mem_list k drop then lower drop k else m end.

(** FTC:298-317, the loop over the edges [ds] to drop, given by their indices.  [size] is the number of edges.  The result are the
    pairs of half edges that are swapped, the edges that are to be dropped and the half edge that is collapsed after the swaps. *)
Fixpoint make_last_loop (size : nat) (ds : list nat) (max : nat) (drop : list nat) (collapse : halfedge) (swaps : list (halfedge * halfedge)) :
  outcome (list (halfedge * halfedge) * list nat * halfedge) :=
  match ds with
  | [] => Ok (swaps, drop, collapse)
  | d :: ds =>
    let max := lower drop max in
    if d <? size - length drop then
      match max with
      | O => UB
      | S m =>
        let collapse := if 2 * d =? collapse then 2 * m else if neg (2 * d) =? collapse then neg (2 * m) else collapse in
        make_last_loop size ds max (m :: remove Nat.eq_dec d drop) collapse (swaps ++ [(2 * d, 2 * m)])
      end
    else make_last_loop size ds max drop collapse swaps
  end.
Definition make_last (size : nat) (drop : list nat) (collapse : halfedge) : outcome (list (halfedge * halfedge) * list nat * halfedge) :=
  make_last_loop size (filter (fun d => mem_list d drop) (seq 0 size)) size drop collapse [].

(** All the swaps, with the messages to attached objects (FTC:201, 308). *)
Fixpoint swaps_of {A} (swap : A -> halfedge -> halfedge -> outcome A) (x : A) (l : list (halfedge * halfedge)) : outcome A :=
  match l with [] => Ok x | (a, b) :: l => do x <- swap x a b; swaps_of swap x l end.
