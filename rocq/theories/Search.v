(** * The search for saddle connections

    Model of /repo/libflatsurf/src/saddle_connections_iterator.cc (SI) and of saddle_connections.cc (SL).  The comparisons that
    try balls first are replaced by the exact comparison (see Arb.v for balls), coordinates are not [long long].
    [incrementWithIntersections], [skip] and [skipSector] are not modelled. *)
From Coq Require Import ZArith List Arith Bool.
From Verif Require Import Base HalfEdge IndexedSet Combinatorial ExactReal Vector FlatTri Saddle Quadratic.
Import ListNotations.

Section search.
Context {K : ExactReal}.
Local Notation S := (flat K).
Local Notation V := (vec K).

(** impl/saddle_connections.impl.hpp:40-53, a sector. *)
Record ssector := mkSsector { sec_source : halfedge; sec_sector : option (V * V) }.
(** impl/saddle_connections.impl.hpp:61-64, the members of SaddleConnections. *)
Record conns := mkConns { cn_surface : S; cn_sectors : list ssector; cn_radius : option bound; cn_lower : bound }.

(** impl/saddle_connections_iterator.impl.hpp:49-85, the states.  The nine states START_AT_EDGE... say for the start and for the end of
    the next edge whether it is outside the radius; [None] when this is not known. *)
Inductive sstate :=
| START (starts_outside ends_outside : option bool)
| OUTSIDE_CCW | OUTSIDE_CW
| FOUND | SEARCHING_FIRST | SEARCHING_SECOND
| END.
(** impl/saddle_connections_iterator.impl.hpp:87-91, the moves. *)
Inductive move := GOTO_OTHER_FACE | GOTO_NEXT_EDGE | GOTO_PREVIOUS_EDGE.
(** impl/saddle_connections_iterator.impl.hpp:43-47, where a vertex is. *)
Inductive classification := OUTSIDE_CLOCKWISE | IS_CONNECTION | OUTSIDE_COUNTERCLOCKWISE.
(** impl/saddle_connections_iterator.impl.hpp:93, a ray that bounds the search. *)
Inductive sboundary := BChain (c : zchain) | BVector (v : V).

(** impl/saddle_connections_iterator.impl.hpp:115-155, the state of the iterator.  [it_sectors] are the sectors from [sector] to [end];
    the first element of [it_state] is the last element of [state], and the first one of [it_tmp] is the top of [tmp]. *)
Record iter := mkIter {
  it_sectors : list ssector;
  it_b0 : sboundary;
  it_b1 : sboundary;
  it_next : halfedge;
  it_end : zchain;
  it_state : list sstate;
  it_moves : list move;
  it_tmp : list sboundary
}.
(** impl/saddle_connections_iterator.impl.hpp:115-155, assignments to some of the members. *)
Definition set_position (m : iter) (e : halfedge) (c : zchain) (moves : list move) : iter :=
  mkIter (it_sectors m) (it_b0 m) (it_b1 m) e c (it_state m) moves (it_tmp m).
Definition set_state (m : iter) (s : list sstate) : iter :=
  mkIter (it_sectors m) (it_b0 m) (it_b1 m) (it_next m) (it_end m) s (it_moves m) (it_tmp m).
Definition push_state (m : iter) (x : sstate) : iter := set_state m (x :: it_state m).
Definition push_move (m : iter) (x : move) : iter := set_position m (it_next m) (it_end m) (it_moves m ++ [x]).
Definition set_bounds (m : iter) (b0 b1 : sboundary) (tmp : list sboundary) : iter :=
  mkIter (it_sectors m) b0 b1 (it_next m) (it_end m) (it_state m) (it_moves m) tmp.

Variable cs : conns.
Local Notation s := (cn_surface cs).
Local Notation t := (fT (cn_surface cs)).

(** SI:463-479, [apply]: the next edge and the vector to its end. *)
Definition apply_move (e : halfedge) (c : zchain) (m : move) : outcome (halfedge * zchain) :=
  match m with
  | GOTO_NEXT_EDGE => do f <- nextInFace t e; do d <- zc_add_he c f; Ok (f, d)
  | GOTO_OTHER_FACE => do d <- zc_add_he c (neg e); Ok (neg e, d)
  | GOTO_PREVIOUS_EDGE => do d <- zc_sub_he c e; do f <- nextAtVertex t e; Ok (neg f, d)
  end.
(** SI:482-544, the loop of [applyMoves]; two moves are replaced by cheaper ones. *)
Fixpoint moves_loop (fuel : nat) (e : halfedge) (c : zchain) (moves : list move) : outcome (halfedge * zchain) :=
  match fuel with
  | O => OutOfFuel
  | Datatypes.S k =>
    match moves with
    | [] => Ok (e, c)
    | [m] => apply_move e c m
    | m :: n :: moves =>
      match m, n with
      | GOTO_NEXT_EDGE, GOTO_NEXT_EDGE => moves_loop k e c (GOTO_PREVIOUS_EDGE :: moves)
      | GOTO_NEXT_EDGE, GOTO_PREVIOUS_EDGE => moves_loop k e c moves
      | GOTO_NEXT_EDGE, GOTO_OTHER_FACE => do f <- nextInFace t e; moves_loop k (neg f) c moves
      | GOTO_PREVIOUS_EDGE, GOTO_NEXT_EDGE => moves_loop k e c moves
      | GOTO_PREVIOUS_EDGE, GOTO_PREVIOUS_EDGE => moves_loop k e c (GOTO_NEXT_EDGE :: moves)
      | GOTO_PREVIOUS_EDGE, GOTO_OTHER_FACE =>
        do (f, d) <- apply_move e c GOTO_NEXT_EDGE;
        moves_loop k f d (GOTO_NEXT_EDGE :: GOTO_OTHER_FACE :: moves)
      | GOTO_OTHER_FACE, GOTO_NEXT_EDGE => do f <- nextAtVertex t (neg e); moves_loop k (neg f) c (GOTO_PREVIOUS_EDGE :: moves)
      | GOTO_OTHER_FACE, GOTO_PREVIOUS_EDGE => do f <- nextAtVertex t (neg e); moves_loop k (neg f) c moves
      | GOTO_OTHER_FACE, GOTO_OTHER_FACE => moves_loop k e c moves
      end
    end
  end.
Definition apply_moves (m : iter) : outcome iter :=
  do (e, c) <- moves_loop (2 * length (it_moves m) + 2) (it_next m) (it_end m) (it_moves m);
  Ok (set_position m e c []).

(** SI:100-123, [ccw] from a boundary to a chain. *)
Definition bvector (b : sboundary) : outcome V := match b with BChain c => zc_vector s c | BVector v => Ok v end.
Definition bccw (b : sboundary) (c : zchain) : outcome CCW := do v <- bvector b; do w <- zc_vector s c; Ok (ccw v w).
Definition is_chain (b : sboundary) : bool := match b with BChain _ => true | BVector _ => false end.

(** SI:547-567, [classifyHalfEdgeEnd], after [applyMoves]. *)
Definition classify (m : iter) : outcome classification :=
  do c0 <- bccw (it_b0 m) (it_end m);
  match c0 with
  | CLOCKWISE => Ok OUTSIDE_CLOCKWISE
  | COLLINEAR => Ok (if is_chain (it_b0 m) then OUTSIDE_CLOCKWISE else IS_CONNECTION)
  | COUNTERCLOCKWISE =>
    do c1 <- bccw (it_b1 m) (it_end m);
    Ok (match c1 with CLOCKWISE => IS_CONNECTION | _ => OUTSIDE_COUNTERCLOCKWISE end)
  end.

(** SI:608-634, [pushStart]; SI:570-586 and 589-605, when one end is taken from the current state. *)
Definition ends_of (x : sstate) : option bool := match x with START _ e => e | _ => None end.
Definition starts_of (x : sstate) : option bool := match x with START f _ => f | _ => None end.
Definition push_start (m : iter) (from_outside to_outside : option bool) : iter := push_state m (START from_outside to_outside).

(** SI:125-145, [pop]. *)
Definition pop (m : iter) : outcome (sstate * iter) :=
  match it_state m with
  | [] => UB
  | x :: st =>
    let m := set_state m st in
    match x, cn_radius cs with
    | START None None, Some r =>
      do m <- apply_moves m;
      do v <- zc_vector s (it_end m);
      Ok (if vltb v r then START None (Some false) else START None (Some true), m)
    | _, _ => Ok (x, m)
    end
  end.

(** SI:178-194: is the next edge outside the radius? *)
Definition edge_outside (r : bound) (m : iter) : outcome bool :=
  do edge <- from_he s (neg (it_next m));
  do edgeEnd <- zc_vector s (it_end m);
  Ok (qpositive (mkQuad
    (vx edge * vx edge + vy edge * vy edge)%X
    (rofZ 2 * vx edgeEnd * vx edge + rofZ 2 * vy edgeEnd * vy edge)%X
    (vx edgeEnd * vx edgeEnd + vy edgeEnd * vy edgeEnd - rofZ (bsquared r))%X)).

(** SI:206-279, cross the next edge. *)
Definition cross (x : sstate) (m : iter) : outcome (bool * iter) :=
  do m <- apply_moves (push_move m GOTO_OTHER_FACE);
  do b <- boundary t (it_next m);
  if b then Ok (false, push_move m GOTO_OTHER_FACE) else
  do m <- apply_moves (push_move m GOTO_NEXT_EDGE);
  do c <- classify m;
  match c with
  | OUTSIDE_CLOCKWISE =>
    let m := push_state (push_move m GOTO_NEXT_EDGE) OUTSIDE_CW in
    do w <- zc_vector s (it_end m);
    let outside := match cn_radius cs with None => false | Some r => negb (vltb w r) end in
    Ok (false, push_start m (Some outside) (ends_of x))
  | OUTSIDE_COUNTERCLOCKWISE => Ok (false, push_start (push_state m OUTSIDE_CCW) (starts_of x) None)
  | IS_CONNECTION =>
    do w <- zc_vector s (it_end m);
    let beyond := match cn_radius cs with None => false | Some r => vgtb w r end in
    let m := push_start (push_state m SEARCHING_SECOND) (Some beyond) (ends_of x) in
    let m := push_start (push_state m SEARCHING_FIRST) (starts_of x) (Some beyond) in
    let b1 := match it_b1 m with BChain _ => BChain (it_end m) | BVector v => if negb (ccw_eqb (ccw v w) COUNTERCLOCKWISE) then BChain (it_end m) else BVector v end in
    let b0 := match it_b0 m with BVector v => if ccw_eqb (ccw v w) COLLINEAR then BChain (it_end m) else BVector v | b => b end in
    let m := set_bounds m b0 b1 (it_b1 m :: it_tmp m) in
    if beyond then Ok (false, m) else Ok (vgtb w (cn_lower cs), push_state m FOUND)
  end.

(** SI:148-317, [increment] in all states other than END. *)
Definition increment_at (x : sstate) (m : iter) : outcome (bool * iter) :=
  match x with
  | END => UB
  | START f e =>
    let goes_out := match f, e with Some true, Some false | Some false, Some true => false | Some true, _ | _, Some true => true | _, _ => false end in
    if goes_out then
      match cn_radius cs with
      | None => UB
      | Some r =>
        do m <- apply_moves m;
        do out <- edge_outside r m;
        if out then Ok (false, m) else cross x m
      end
    else cross x m
  | FOUND => Ok (false, m)
  | SEARCHING_FIRST =>
    match it_tmp m with
    | [] => UB
    | b1 :: tmp =>
      do m <- apply_moves m;
      do w <- zc_vector s (it_end m);
      let b0 := match it_b0 m with BChain _ => BChain (it_end m) | BVector v => if negb (ccw_eqb (ccw v w) CLOCKWISE) then BChain (it_end m) else BVector v end in
      Ok (false, push_move (set_bounds m b0 b1 (it_b0 m :: tmp)) GOTO_NEXT_EDGE)
    end
  | SEARCHING_SECOND =>
    match it_tmp m with
    | [] => UB
    | b0 :: tmp => Ok (false, push_move (push_move (set_bounds m b0 (it_b1 m) tmp) GOTO_NEXT_EDGE) GOTO_OTHER_FACE)
    end
  | OUTSIDE_CW => Ok (false, push_move (push_move m GOTO_NEXT_EDGE) GOTO_OTHER_FACE)
  | OUTSIDE_CCW => Ok (false, push_move (push_move (push_move m GOTO_NEXT_EDGE) GOTO_NEXT_EDGE) GOTO_OTHER_FACE)
  end.

(** SL:233-239, [Sector::contains]. *)
Definition sec_contains (x : ssector) (source : halfedge) (v : V) : outcome bool :=
  if negb (source =? sec_source x) then Ok false
  else match sec_sector x with None => Ok true | Some (b, e) => inSector v b e end.

(** SI:59-93, [prepareSearch] at a half edge that is not boundary: the iterator before the loop, and whether it stays there. *)
Definition prepared (m : iter) (x : ssector) : outcome (bool * iter) :=
  let e := sec_source x in
  do c0 <- zc_half_edge s e;
  do next <- nextInFace t e;
  do c1 <- zc_add_he c0 next;
  do v <- from_he s e;
  do inside <- sec_contains x e v;
  let b0 := match sec_sector x with None => BChain c0 | Some (b, _) => if inside then BChain c0 else BVector b end in
  let b1 := match sec_sector x with None => BChain c1 | Some (_, e) => BVector e end in
  let skipped := match cn_radius cs with None => false | Some r => vgtb v r end || negb inside || negb (vgtb v (cn_lower cs)) in
  Ok (negb skipped, mkIter (it_sectors m) b0 b1 next c1 (START None None :: END :: it_state m) (it_moves m) (it_tmp m)).

(** SI:148-317, [increment]; SI:59-97, [prepareSearch]; and the loops [while (!increment());] in SI:94-95 and 651-652. *)
Fixpoint increment_with (fuel : nat) (m : iter) : outcome (bool * iter) :=
  match fuel with
  | O => OutOfFuel
  | Datatypes.S k =>
    do (x, m) <- pop m;
    match x with
    | END =>
      do m <- apply_moves m;
      match it_sectors m with
      | [] => UB
      | _ :: rest =>
        let m := mkIter rest (it_b0 m) (it_b1 m) (it_next m) (it_end m) (it_state m) (it_moves m) (it_tmp m) in
        match rest with [] => Ok (true, m) | _ => do m <- prepare k m; Ok (true, m) end
      end
    | _ => increment_at x m
    end
  end
with prepare (fuel : nat) (m : iter) : outcome iter :=
  match fuel with
  | O => OutOfFuel
  | Datatypes.S k =>
    match it_sectors m with
    | [] => Ok m
    | x :: rest =>
      do b <- boundary t (sec_source x);
      if b then prepare k (mkIter rest (it_b0 m) (it_b1 m) (it_next m) (it_end m) (it_state m) (it_moves m) (it_tmp m))
      else do (stays, m) <- prepared m x; if (stays : bool) then Ok m else advance k m
    end
  end
with advance (fuel : nat) (m : iter) : outcome iter :=
  match fuel with
  | O => OutOfFuel
  | Datatypes.S k => do (b, m) <- increment_with k m; if (b : bool) then Ok m else advance k m
  end.

(** SL:160-163, [begin]; SI:47-56, the constructor. *)
Definition search_begin (fuel : nat) : outcome iter :=
  prepare fuel (mkIter (cn_sectors cs) (BVector vzero) (BVector vzero) 0 (zc_zero s) [] [] []).
(** SI:636-646, equality with [end]. *)
Definition at_end (m : iter) : bool := match it_sectors m with [] => true | _ => false end.
(** SI:710-730, [dereference]; in states other than these, it would return the connection that it returned before. *)
Definition sdereference (m : iter) : outcome (sconn K) :=
  match it_sectors m, it_state m with
  | x :: _, START None None :: _ => sc_half_edge s (sec_source x)
  | x :: _, FOUND :: _ => do target <- previousAtVertex t (neg (it_next m)); Ok (mkSconn s (sec_source x) target (it_end m))
  | _, _ => UB
  end.
(** [for (auto& connection : connections)]: all the connections that are reported. *)
Fixpoint search_from (fuel : nat) (m : iter) : outcome (list (sconn K)) :=
  match fuel with
  | O => OutOfFuel
  | Datatypes.S k => if at_end m then Ok [] else do x <- sdereference m; do m <- advance k m; do l <- search_from k m; Ok (x :: l)
  end.
Definition search (fuel : nat) : outcome (list (sconn K)) := do m <- search_begin fuel; search_from fuel m.
End search.
Arguments ssector K : clear implicits.
Arguments conns K : clear implicits.
Arguments sboundary K : clear implicits.
Arguments iter K : clear implicits.

Section sectors.
Context {K : ExactReal}.
Local Notation S := (flat K).
Local Notation V := (vec K).

(** SL:186-188, the constructor: a sector for each half edge. *)
Definition make_conns (s : S) : conns K := mkConns s (map (fun h => mkSsector h None) (half_edges (fT s))) None 0%Z.
(** SL:89, 99, 112 and 155, assignment to the member [sectors]. *)
Definition set_sectors (cs : conns K) (l : list (ssector K)) : conns K := mkConns (cn_surface cs) l (cn_radius cs) (cn_lower cs).
(** SL:54-60, [bound]. *)
Definition cn_bound (cs : conns K) (r : bound) : conns K :=
  mkConns (cn_surface cs) (cn_sectors cs) (Some (match cn_radius cs with None => r | Some q => if bltb r q then r else q end)) (cn_lower cs).
(** SL:74-80, [lowerBound]. *)
Definition cn_lower_bound (cs : conns K) (r : bound) : conns K :=
  mkConns (cn_surface cs) (cn_sectors cs) (cn_radius cs) (if bltb (cn_lower cs) r then r else cn_lower cs).
(** [rx::filter] with a predicate that might fail. *)
Fixpoint ofilter {A} (p : A -> outcome bool) (l : list A) : outcome (list A) :=
  match l with [] => Ok [] | x :: l => do b <- p x; do r <- ofilter p l; Ok (if (b : bool) then x :: r else r) end.
(** SL:82-90, [source]; the vertex is given by its half edges. *)
Definition cn_source (cs : conns K) (v : bits) : outcome (conns K) :=
  do l <- ofilter (fun x => do w <- vertex_source (fT (cn_surface cs)) (sec_source x); Ok (vertex_eqb w v)) (cn_sectors cs);
  Ok (set_sectors cs l).
(** SL:92-100, [sector(HalfEdge)]. *)
Definition cn_sector_at (cs : conns K) (h : halfedge) : conns K := set_sectors cs (filter (fun x => sec_source x =? h) (cn_sectors cs)).
(** SL:195-230, [Sector::refine]. *)
Definition refine (s : S) (x : ssector K) (begin end_ : V) : outcome (list (ssector K)) :=
  let src := sec_source x in
  do (first, second) <- match sec_sector x with
    | Some p => Ok p
    | None => do a <- from_he s src; do n <- nextAtVertex (fT s) src; do b <- from_he s n; Ok (a, b) end;
  do inb <- inSector begin first second;
  if (inb : bool) then
    if ccw_eqb (ccw begin end_) CLOCKWISE then
      let fromBegin := mkSsector src (Some (begin, second)) in
      let toEnd := mkSsector src (Some (first, end_)) in
      Ok (if ccw_eqb (ccw first end_) COUNTERCLOCKWISE then [fromBegin; toEnd] else [fromBegin])
    else
      do ine <- inSector end_ first second;
      Ok (if (ine : bool) then [mkSsector src (Some (begin, end_))] else [mkSsector src (Some (begin, second))])
  else
    do ine <- inSector end_ first second;
    if ine && negb (ccw_eqb (ccw end_ first) COLLINEAR && orientation_eqb (orientation end_ first) SAME)
    then Ok [mkSsector src (Some (first, end_))]
    else do inf <- inSector first begin end_; Ok (if (inf : bool) then [x] else []).
Fixpoint oconcat {A B} (f : A -> outcome (list B)) (l : list A) : outcome (list B) :=
  match l with [] => Ok [] | x :: l => do y <- f x; do r <- oconcat f l; Ok (y ++ r) end.
(** SL:102-114, [sector(Vector, Vector)]. *)
Definition cn_sector_vectors (cs : conns K) (begin end_ : V) : outcome (conns K) :=
  do l <- oconcat (fun x => refine (cn_surface cs) x begin end_) (cn_sectors cs); Ok (set_sectors cs l).
(** SL:145-150, the loop around the vertex. *)
Fixpoint meets_end (fuel : nat) (s : S) (walk begin end_ : halfedge) : outcome bool :=
  match fuel with
  | O => OutOfFuel
  | Datatypes.S k => if walk =? begin then Ok false else if walk =? end_ then Ok true else do w <- nextAtVertex (fT s) walk; meets_end k s w begin end_
  end.
(** SL:116-158, [sector(SaddleConnection, SaddleConnection)]. *)
Definition sector_between (s : S) (begin end_ : sconn K) (v w : V) (x : ssector K) : outcome (list (ssector K)) :=
  if sc_source begin =? sc_source end_ then
    if sec_source x =? sc_source begin then refine s x v w
    else Ok (if ccw_eqb (ccw v w) CLOCKWISE then [x] else [])
  else if sec_source x =? sc_source begin then
    do n <- nextAtVertex (fT s) (sec_source x); do e <- from_he s n; refine s x v e
  else if sec_source x =? sc_source end_ then
    do a <- from_he s (sec_source x);
    if ccw_eqb (ccw a w) COLLINEAR then Ok [] else refine s x a w
  else
    do b <- meets_end (Datatypes.S (tsize (fT s))) s (sec_source x) (sc_source begin) (sc_source end_);
    Ok (if (b : bool) then [x] else []).
Definition cn_sector_between (cs : conns K) (begin end_ : sconn K) : outcome (conns K) :=
  let s := cn_surface cs in
  do vb <- vertex_source (fT s) (sc_source begin);
  do cs <- cn_source cs vb;
  do ve <- vertex_source (fT s) (sc_source end_);
  do cs <- cn_source cs ve;
  do v <- sc_vector begin;
  do w <- sc_vector end_;
  do l <- oconcat (sector_between s begin end_ v w) (cn_sectors cs);
  Ok (set_sectors cs l).
End sectors.
