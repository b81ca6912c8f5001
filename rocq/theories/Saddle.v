(** * Saddle connections

    Model of /repo/libflatsurf/src/saddle_connection.cc (SC).  A chain is given by its coefficients, one for each edge; the vectors
    that chains cache are left out, see Chain.v for these. *)
From Coq Require Import ZArith List Arith Bool.
From Verif Require Import Base HalfEdge IndexedSet Combinatorial ExactReal Vector FlatTri Chain.
Import ListNotations.

Section saddle.
Context {K : ExactReal}.
Local Notation S := (flat K).
Local Notation V := (vec K).

(** chain.cc:43-45, the zero chain; there is a coefficient for each edge. *)
Definition zchain := list Z.
Definition zc_zero (s : S) : zchain := repeat 0%Z (tsize (fT s) / 2).
(** half_edge.cc: a half edge is the positive or the negative one of its edge. *)
Definition he_sign (h : halfedge) : Z := if Nat.even h then 1%Z else (-1)%Z.
(** chain.cc:105-113 and 116-118, [operator+=(HalfEdge)] and [operator-=(HalfEdge)]. *)
Definition zc_add_he (c : zchain) (h : halfedge) : outcome zchain := do x <- vget c (h / 2); vset c (h / 2) (x + he_sign h)%Z.
Definition zc_sub_he (c : zchain) (h : halfedge) : outcome zchain := zc_add_he c (neg h).
(** chain.cc:48-50, the chain of a half edge. *)
Definition zc_half_edge (s : S) (h : halfedge) : outcome zchain := zc_add_he (zc_zero s) h.
(** chain.cc:98-102, the negative of a chain. *)
Definition zc_neg (c : zchain) : zchain := map Z.opp c.
(** chain.cc:121-158, sums and differences; the chains must be of the same surface. *)
Fixpoint zc_op (op : Z -> Z -> Z) (c d : zchain) : outcome zchain :=
  match c, d with
  | [], _ => Ok []
  | x :: c, y :: d => do r <- zc_op op c d; Ok (op x y :: r)
  | _ :: _, [] => UB
  end.
(** chain_vector.cc:243-247, the vector of a chain: the loop over the edges. *)
Fixpoint zc_vector_loop (s : S) (c : zchain) (i : nat) (v : V) : outcome V :=
  match c with
  | [] => Ok v
  | z :: c => do w <- from_he s (2 * i); zc_vector_loop s c (Datatypes.S i) (vadd v (vscaleZ z w))
  end.
Definition zc_vector (s : S) (c : zchain) : outcome V := zc_vector_loop s c 0 vzero.
(** chain.cc:244-262, the hash value; the same as [chain_hash] of Chain.v. *)
Definition zc_hash (c : zchain) : outcome Z :=
  match c with
  | [] => UB
  | f :: r => Ok (fold_left (fun h g => hash_combine h (hash_fmpz (normalize g))) r (hash_fmpz (normalize f)))
  end.

(** impl/saddle_connection.impl.hpp: the members of a saddle connection. *)
Record sconn := mkSconn { sc_surface : S; sc_source : halfedge; sc_target : halfedge; sc_chain : zchain }.

(** SC:88-90, the saddle connection of a half edge. *)
Definition sc_half_edge (s : S) (h : halfedge) : outcome sconn := do c <- zc_half_edge s h; Ok (mkSconn s h (neg h) c).
(** SC:287-290, the vector. *)
Definition sc_vector (x : sconn) : outcome V := zc_vector (sc_surface x) (sc_chain x).
(** SC:106-111, [operator==]. *)
Definition sc_eqb (x y : sconn) : outcome bool :=
  do e <- flat_eqb (sc_surface x) (sc_surface y);
  if negb e then Ok false else
  do v <- sc_vector x;
  do w <- sc_vector y;
  Ok (veqb v w && (sc_source x =? sc_source y)).
(** SC:129-131, the negative. *)
Definition sc_neg (x : sconn) : sconn := mkSconn (sc_surface x) (sc_target x) (sc_source x) (zc_neg (sc_chain x)).
(** SC:346-348, the hash value; half_edge.cc:78-80. *)
Definition sc_hash (x : sconn) : outcome Z :=
  do h <- zc_hash (sc_chain x);
  Ok (hash_combine (hash_combine (Z.of_nat (sc_source x)) (Z.of_nat (sc_target x))) h).

(** ccw.hpp:36, the opposite turn. *)
Definition ccw_neg (c : CCW) : CCW :=
  match c with COUNTERCLOCKWISE => CLOCKWISE | COLLINEAR => COLLINEAR | CLOCKWISE => COUNTERCLOCKWISE end.

(** SC:65-78, the loop of [angle]. *)
Fixpoint turn_loop (fuel : nat) (s : S) (sourceVector : V) (target : halfedge) (targetVector : V) (sector : halfedge) (turned : V) (sgn : CCW) (angle : nat) : outcome nat :=
  match fuel with
  | O => OutOfFuel
  | Datatypes.S k =>
    if (sector =? target) && ccw_eqb (ccw turned targetVector) COLLINEAR then Ok angle else
    do (sector, turned) <-
      (if (sector =? target) && negb (ccw_eqb (ccw turned targetVector) CLOCKWISE) then Ok (sector, targetVector)
       else do sector <- nextAtVertex (fT s) sector; do turned <- from_he s sector; Ok (sector, turned));
    let c := ccw sourceVector turned in
    if ccw_eqb c COLLINEAR || negb (ccw_eqb c sgn)
    then turn_loop k s sourceVector target targetVector sector turned (ccw_neg sgn) (Datatypes.S angle)
    else turn_loop k s sourceVector target targetVector sector turned sgn angle
  end.
(** SC:52-83, [angle] between two vectors: how many multiples of pi. *)
Definition turn_angle (s : S) (source : halfedge) (sourceVector : V) (target : halfedge) (targetVector : V) : outcome nat :=
  do v <- vertex_source (fT s) source;
  do w <- vertex_source (fT s) target;
  if negb (vertex_eqb v w) then Throw else
  turn_loop (3 * tsize (fT s) + 3) s sourceVector target targetVector source sourceVector COUNTERCLOCKWISE 0.

(** SC:210-219, [angle] from a saddle connection, in multiples of 2 pi. *)
Definition sc_angle_to (x : sconn) (source : halfedge) (v : V) : outcome nat :=
  do w <- sc_vector x;
  do a <- turn_angle (sc_surface x) (sc_source x) w source v;
  Ok (a / 2).
Definition sc_angle (x y : sconn) : outcome nat :=
  do e <- flat_eqb (sc_surface x) (sc_surface y);
  if negb e then Throw else do v <- sc_vector y; sc_angle_to x (sc_source y) v.

(** SC:222-248, [ccw] from a saddle connection: where a direction lies relative to the halved total angle at the vertex. *)
Definition sc_ccw_to (x : sconn) (source : halfedge) (v : V) : outcome CCW :=
  do w <- sc_vector x;
  do a <- turn_angle (sc_surface x) (sc_source x) w source v;
  if a =? 0 then
    Ok (if (source =? sc_source x) && ccw_eqb (ccw v w) COLLINEAR then COLLINEAR else COUNTERCLOCKWISE)
  else
    do vertex <- vertex_source (fT (sc_surface x)) source;
    do total <- angle (sc_surface x) vertex;
    if (a =? total) && ccw_eqb (ccw v w) COLLINEAR then Ok COLLINEAR
    else if a <? total then Ok COUNTERCLOCKWISE else Ok CLOCKWISE.
Definition sc_ccw (x y : sconn) : outcome CCW :=
  do e <- flat_eqb (sc_surface x) (sc_surface y);
  if negb e then Throw else do v <- sc_vector y; sc_ccw_to x (sc_source y) v.
End saddle.
Arguments sconn K : clear implicits.
