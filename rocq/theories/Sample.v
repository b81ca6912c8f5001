(** * Sampling saddle connections

    Model of /repo/libflatsurf/src/saddle_connections_sample_iterator.cc (SA), and of [resetLowerBound] in saddle_connections.cc (SL).

    The random numbers are arguments: which sector is picked, and for each saddle connection that is passed, the answer of the lambda
    [ccw].  Not modelled: how these are drawn, i.e., SA:89-98 and 100-150 with their computations with doubles; the throw in SA:125-126 when
    a quotient is not finite.  The members [sectorBegin] and [sectorEnd] are only used there. *)
From Coq Require Import ZArith List Arith Bool.
From Verif Require Import Base HalfEdge Combinatorial ExactReal Vector FlatTri Saddle Search Translate.
Import ListNotations.

Section sample.
Context {K : ExactReal}.
Local Notation V := (vec K).

(** SL:190-193, [resetLowerBound]. *)
Definition reset_lower (cs : conns K) : conns K := mkConns (cn_surface cs) (cn_sectors cs) (cn_radius cs) 0%Z.
(** SA:157 with SL:62-67: the comparison with the lower bound, which is missing when it is zero. *)
Definition exceeds (v : V) (lower : bound) : bool := if (lower =? 0)%Z then true else vgtb v lower.
(** SA:160, [seen.find(current)]; the set is given by the list of its elements. *)
Fixpoint was_seen (x : sconn K) (seen : list (sconn K)) : outcome bool :=
  match seen with
  | [] => Ok false
  | y :: seen => do b <- sc_eqb x y; if (b : bool) then Ok true else was_seen x seen
  end.
(** SA:157-164, whether the connection is returned. *)
Definition eligible (x : sconn K) (v : V) (lower : bound) (seen : list (sconn K)) : outcome bool :=
  if exceeds v lower then do b <- was_seen x seen; Ok (negb b) else Ok false.
(** SA:167-177, which side of the connection is not searched. *)
Definition skipped_side (v outerBegin outerEnd : V) (side : bool) : CCW :=
  if veqb v outerBegin then CLOCKWISE else if veqb v outerEnd then COUNTERCLOCKWISE else if side then CLOCKWISE else COUNTERCLOCKWISE.
(** SA:154-185, the loop; [side i] says whether the [i]-th answer of [ccw] is COUNTERCLOCKWISE. *)
Fixpoint sample_loop (fuel : nat) (cs : conns K) (outerBegin outerEnd : V) (lower : bound) (seen : list (sconn K)) (side : nat -> bool) (m : iter K) : outcome (sconn K) :=
  match fuel with
  | O => OutOfFuel
  | S k =>
    do current <- sdereference cs m;
    do v <- sc_vector current;
    do e <- eligible current v lower seen;
    if (e : bool) then Ok current
    else
      do m <- skip_sector (skipped_side v outerBegin outerEnd (side 0)) m;
      do m <- advance cs k m;
      sample_loop k cs outerBegin outerEnd lower seen (fun i => side (S i)) m
  end.
(** SA:62-185, [increment]; [pick] is the index of the sector.  What is returned is also inserted into [seen]. *)
Definition sample_increment (fuel : nat) (cs : conns K) (pick : nat) (side : nat -> bool) (seen : list (sconn K)) : outcome (sconn K) :=
  match cn_radius cs with
  | Some _ => Throw
  | None =>
    match cn_sectors cs with
    | [] => Throw
    | _ =>
      do sector <- vget (cn_sectors cs) pick;
      let connections := reset_lower (cn_sector_at cs (sec_source sector)) in
      do (outerBegin, outerEnd) <- match sec_sector sector with
        | Some p => Ok p
        | None =>
          do b <- from_he (cn_surface cs) (sec_source sector);
          do next <- nextAtVertex (fT (cn_surface cs)) (sec_source sector);
          do e <- from_he (cn_surface cs) next;
          Ok (b, e)
        end;
      do it <- search_begin connections fuel;
      do it <- advance connections fuel it;
      sample_loop fuel connections outerBegin outerEnd (cn_lower cs) seen side it
    end
  end.
(** SA:53-60, the constructor: SA:57 reads the first sector before [increment] could complain that there is none; then more calls of
    [increment] as in a loop that takes as many connections as there are choices. *)
Fixpoint sample_more (fuel : nat) (cs : conns K) (choices : list (nat * (nat -> bool))) (seen : list (sconn K)) : outcome (list (sconn K)) :=
  match choices with
  | [] => Ok []
  | (pick, side) :: choices =>
    do x <- sample_increment fuel cs pick side seen;
    do l <- sample_more fuel cs choices (x :: seen);
    Ok (x :: l)
  end.
Definition sample (fuel : nat) (cs : conns K) (choices : list (nat * (nat -> bool))) : outcome (list (sconn K)) :=
  do _ <- vget (cn_sectors cs) 0; sample_more fuel cs choices [].
End sample.
