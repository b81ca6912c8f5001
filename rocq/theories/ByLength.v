(** * Saddle connections sorted by length

    Model of /repo/libflatsurf/src/saddle_connections_by_length_iterator.cc (BL) and of saddle_connections_by_length.cc (BC). *)
From Coq Require Import ZArith List Arith Bool.
From Verif Require Import Base HalfEdge Combinatorial ExactReal Vector FlatTri Saddle Search.
Import ListNotations.

Section by_length.
Context {K : ExactReal}.
(** [std::sort] with CompareLength (vector.cc:624-635); the theorems hold for any function that sorts, so for any way to order
    connections of the same length. *)
Variable sort : list (sconn K) -> list (sconn K).
(** BC:32-34, the collection is the underlying collection of connections. *)
Variable cs : conns K.

(** impl/saddle_connections_by_length_iterator.impl.hpp:46-49, the members; [currents] is not modelled, its first element is always the
    first element of [connectionsWithinBounds]. *)
Record biter := mkBiter { bi_lower : bound; bi_upper : bound; bi_within : list (sconn K) }.

(** BL:76-102, [increment] of the implementation. *)
Fixpoint refill (fuel : nat) (m : biter) : outcome biter :=
  match fuel with
  | O => OutOfFuel
  | S k =>
    match bi_within m with
    | _ :: _ => Ok m
    | [] =>
      do (lower, upper) <- (if beqb (bi_upper m) 0%Z then do v <- shortest (cn_surface cs); Ok (0%Z, bupper v)
        else Ok (bi_upper m, bmul (bi_upper m) 2));
      if match cn_radius cs with None => false | Some r => negb (bltb lower r) end then Ok (mkBiter 0%Z 0%Z [])
      else do l <- search (cn_lower_bound (cn_bound cs upper) lower) k; refill k (mkBiter lower upper (sort l))
    end
  end.
(** BL:37-46, [increment]. *)
Definition bnext (fuel : nat) (m : biter) : outcome biter :=
  match bi_within m with
  | [] => UB
  | _ :: l =>
    let m := mkBiter (bi_lower m) (bi_upper m) l in
    match l with [] => refill fuel m | _ => Ok m end
  end.
(** BL:49-52, [dereference]. *)
Definition bdereference (m : biter) : outcome (sconn K) := match bi_within m with [] => UB | x :: _ => Ok x end.
(** BL:55-57, [equal]. *)
Definition bequal (m m' : biter) : bool :=
  beqb (bi_upper m) (bi_upper m') && beqb (bi_lower m) (bi_lower m') && (length (bi_within m) =? length (bi_within m')).
(** BC:37-43, [begin]; BC:46-48, [end]. *)
Definition bend : biter := mkBiter 0%Z 0%Z [].
Definition bbegin (fuel : nat) : outcome biter := refill fuel bend.
(** [for (auto& connection : connections.byLength())]: all the connections that are reported. *)
Fixpoint blist (fuel : nat) (m : biter) : outcome (list (sconn K)) :=
  match fuel with
  | O => OutOfFuel
  | S k => if bequal m bend then Ok [] else do x <- bdereference m; do m <- bnext k m; do l <- blist k m; Ok (x :: l)
  end.
Definition by_length (fuel : nat) : outcome (list (sconn K)) := do m <- bbegin fuel; blist fuel m.
(** The same, but the loop is left with a [break] when [count] connections have been reported. *)
Fixpoint bfirst (fuel count : nat) (m : biter) : outcome (list (sconn K)) :=
  match count with
  | O => Ok []
  | S c =>
    if bequal m bend then Ok []
    else do x <- bdereference m; match c with O => Ok [x] | _ => do m <- bnext fuel m; do l <- bfirst fuel c m; Ok (x :: l) end
  end.
Definition by_length_first (fuel count : nat) : outcome (list (sconn K)) :=
  match count with O => Ok [] | _ => do m <- bbegin fuel; bfirst fuel count m end.
End by_length.
Arguments biter K : clear implicits.
