(** * Paths

    Model of /repo/libflatsurf/src/path.cc (PA), path_iterator.cc (PI), and of the loop of
    generic_retriangulation_deformation_relation.cc (GR) that maps paths.  [tighten], and [simple], which depends on the hash of
    saddle connections, are not modelled. *)
From Coq Require Import ZArith List Arith Bool.
From Verif Require Import Base HalfEdge IndexedSet Combinatorial ExactReal Vector FlatTri Saddle.
Import ListNotations.

Section path.
Context {K : ExactReal}.

(** impl/path.impl.hpp: a path is its vector of segments. *)
Definition path := list (sconn K).

(** PA:254-259, the negative, and PA:280-282, [reversed]. *)
Definition path_neg (p : path) : path := rev (map sc_neg p).
Definition path_reversed (p : path) : path := rev (map sc_neg p).
(** PA:262-264, [operator==] of vectors: the sizes and then the segments. *)
Fixpoint segments_eqb (p q : path) : outcome bool :=
  match p, q with
  | [], [] => Ok true
  | x :: p, y :: q => do b <- sc_eqb x y; if b then segments_eqb p q else Ok false
  | _, _ => Ok false
  end.
Definition path_eqb (p q : path) : outcome bool := if length p =? length q then segments_eqb p q else Ok false.
(** PA:457-459, [connected]. *)
Definition connected (from to : sconn K) : outcome bool :=
  do v <- vertex_source (fT (sc_surface from)) (sc_target from);
  do w <- vertex_source (fT (sc_surface to)) (sc_source to);
  Ok (vertex_eqb v w).
(** PA:267-270, [closed]. *)
Definition path_closed (p : path) : outcome bool :=
  match p with [] => Ok true | x :: _ => connected (last p x) x end.
(** PA:295-304, [push_front] and [push_back]. *)
Definition push_front (x : sconn K) (p : path) : path := x :: p.
Definition push_back (p : path) (x : sconn K) : path := p ++ [x].
(** PA:307-311, [operator+=]: a loop over the segments of the other path.  When it is the same path, the first [push_back]
    invalidates the iterators of the loop. *)
Definition path_append (same : bool) (p q : path) : outcome path :=
  if same then match q with [] => Ok p | _ => UB end else Ok (fold_left push_back q p).
(** PA:314-317, [operator+]: the left operand is copied. *)
Definition path_add (p q : path) : outcome path := path_append false p q.
(** PA:320-327, [pop_back] and [pop_front]; undefined for an empty vector. *)
Definition pop_back (p : path) : outcome path := match p with [] => UB | _ => Ok (removelast p) end.
Definition pop_front (p : path) : outcome path := match p with [] => UB | _ :: p => Ok p end.

(** impl/path_iterator.impl.hpp: the state of an iterator; positions count from the start. *)
Record piter := mkPiter { pi_position : nat; pi_turn : nat; pi_end : bool }.
(** PI:67-74, the constructor. *)
Definition make_iter (p : path) (position : nat) : piter :=
  if position =? length p then mkPiter 0 0 true else mkPiter position 0 false.
(** PA:359-366, [begin] and [end]. *)
Definition path_begin (p : path) : piter := make_iter p 0.
Definition path_end (p : path) : piter := make_iter p (length p).
(** PI:32-40, [increment]. *)
Definition increment (p : path) (i : piter) : piter :=
  let position := S (pi_position i) in
  if position =? length p then mkPiter 0 (S (pi_turn i)) (pi_end i) else mkPiter position (pi_turn i) (pi_end i).
(** PI:43-48, [dereference]. *)
Definition dereference (p : path) (i : piter) : outcome (sconn K) := vget p (pi_position i).
(** PI:51-59, [equal]. *)
Definition iter_eqb (i j : piter) : bool :=
  if pi_end i then pi_end j || negb (pi_turn j =? 0)
  else if pi_end j then negb (pi_turn i =? 0)
  else pi_position i =? pi_position j.
(** The loop [for (auto& segment : path)]. *)
Fixpoint iterate (fuel : nat) (p : path) (i : piter) : outcome (list (sconn K)) :=
  match fuel with
  | O => OutOfFuel
  | S k => if iter_eqb i (path_end p) then Ok [] else do x <- dereference p i; do l <- iterate k p (increment p i); Ok (x :: l)
  end.

(** PA:330-344, [splice]: the result is the path; the other path is empty then. *)
Definition splice (p : path) (pos : piter) (q : path) : path :=
  let at_ := if iter_eqb pos (path_end p) then length p else pi_position pos in
  firstn at_ p ++ q ++ skipn at_ p.

(** PA:353-356, [area]. *)
Definition path_area (p : path) : outcome K :=
  do c <- path_closed p;
  if negb c then Throw else do vs <- omap sc_vector p; Ok (varea2 vs).

(** GR:87-96, the loop of [operator()(Path)]; [pending] does not change when the condition does not hold. *)
Fixpoint gather (fuel : nat) (domain : flat K) (target : halfedge) (vector : vec K) (pending : path) : outcome (halfedge * vec K * path) :=
  match fuel with
  | O => OutOfFuel
  | S k =>
    match pending with
    | [] => Ok (target, vector, [])
    | x :: rest =>
      do w <- sc_vector x;
      do b <- (if ccw_eqb (ccw vector w) COLLINEAR && orientation_eqb (orientation vector w) SAME then
        do v <- vertex_source (fT domain) (sc_source x); do a <- angle domain v; Ok (a =? 1) else Ok false);
      if b then gather k domain (sc_target x) (vadd vector w) rest else gather k domain target vector pending
    end
  end.

(** GR:75-107, [operator()(Path)].  [map_segment] is the overload for a single segment (GR:174-206), which is in Connect.v; the fuel is
    for the loop and for the recursive call. *)
Fixpoint map_path (fuel : nat) (domain : flat K) (map_segment : halfedge -> halfedge -> vec K -> outcome (option path)) (p : path) : outcome (option path) :=
  match fuel with
  | O => OutOfFuel
  | S k =>
    match p with
    | [] => Ok (Some [])
    | x :: rest =>
      do v <- sc_vector x;
      do (target, vector, pending) <- gather k domain (sc_target x) v rest;
      do q <- map_segment (sc_source x) target vector;
      match q with
      | None => Ok None
      | Some q =>
        do r <- map_path k domain map_segment pending;
        match r with None => Ok None | Some r => do z <- path_add q r; Ok (Some z) end
      end
    end
  end.
End path.
Arguments path K : clear implicits.
