(** * Serialization

    Model of /repo/libflatsurf/flatsurf/cereal.hpp (CE) for archives that store values under names such as cereal's JSON archives.
    Numbers are stored by external libraries; these read back what they wrote.  The crossings of a saddle connection (CE:304) are written but never
    read; they are left out. *)
From Coq Require Import ZArith List Arith Bool String.
From Verif Require Import Base HalfEdge Perm IndexedSet Combinatorial ExactReal Vector FlatTri Saddle Vertical.
Import ListNotations.
Local Open Scope string_scope.
Local Open Scope list_scope.

Section serialize.
Context {K : ExactReal}.
Local Notation V := (vec K).

(** What an archive stores: integers, strings of decimal digits, coordinates, sequences, and objects with named members. *)
Inductive data :=
| DInt (z : Z)
| DBig (z : Z)
| DNum (x : K)
| DSeq (l : list data)
| DObj (l : list (string * data)).

(** cereal throws an exception when a value is not there. *)
Definition field (d : data) (name : string) : outcome data :=
  match d with
  | DObj l => match find (fun p => String.eqb (fst p) name) l with Some (_, d) => Ok d | None => Throw end
  | _ => Throw
  end.
Definition as_int (d : data) : outcome Z := match d with DInt z => Ok z | _ => Throw end.
Definition as_big (d : data) : outcome Z := match d with DBig z => Ok z | _ => Throw end.
Definition as_num (d : data) : outcome K := match d with DNum x => Ok x | _ => Throw end.
Definition as_seq (d : data) : outcome (list data) := match d with DSeq l => Ok l | _ => Throw end.

(** CE:91-101, half edges; the invalid half edge has no id. *)
Definition save_half_edge (h : halfedge) : data := DInt (he_id h).
Definition load_half_edge (d : data) : outcome halfedge := do z <- as_int d; if (z =? 0)%Z then UB else Ok (he_of_id z).
(** CE:104-113, edges. *)
Definition save_edge (e : edge) : data := DInt (he_id (positive e)).
Definition load_edge (d : data) : outcome edge := do h <- load_half_edge d; Ok (edge_of h).
(** CE:116-125, bounds, with CE:53-83. *)
Definition save_bound (b : bound) : data := DObj [("square", DBig b)].
Definition load_bound (d : data) : outcome bound := do d <- field d "square"; as_big d.
(** CE:128-139, permutations of half edges. *)
Definition save_perm (p : perm) : outcome data :=
  do cs <- pcycles p; Ok (DObj [("cycles", DSeq (map (fun c => DSeq (map save_half_edge c)) cs))]).
Definition load_perm (d : data) : outcome perm :=
  do d <- field d "cycles";
  do l <- as_seq d;
  do cs <- omap (fun d => do l <- as_seq d; omap load_half_edge l) l;
  perm_of_cycles cs.
(** CE:142-157, vectors. *)
Definition save_vec (v : V) : data := DObj [("x", DNum (vx v)); ("y", DNum (vy v))].
Definition load_vec (d : data) : outcome V :=
  do x <- field d "x"; do x <- as_num x; do y <- field d "y"; do y <- as_num y; Ok (mkVec x y).

(** cereal's [registerSharedPointer] and [getSharedPointer]: what was written before, and what was read before. *)
Definition msb : Z := 2147483648%Z.
Definition written := list nat.
Definition reading := list (Z * tri).
Fixpoint position (a : nat) (w : written) (i : nat) : option nat :=
  match w with [] => None | b :: w => if Nat.eqb a b then Some i else position a w (S i) end.
Definition lookup (k : reading) (id : Z) : outcome tri :=
  match find (fun p => (fst p =? id)%Z) k with Some (_, t) => Ok t | None => Throw end.

(** CE:218-233 with CE:174-190, triangulations; [a] is the address of the shared state.  Both permutations that are written are the same (CE:231). *)
Definition save_tri (w : written) (a : nat) (t : tri) : outcome (data * written) :=
  match position a w 1 with
  | Some i => Ok (DObj [("shared", DInt (Z.of_nat i))], w)
  | None =>
    do ps <- omap (fun e => do f <- nextAtVertex t e; Ok (e, f)) (half_edges t);
    do p <- perm_of_pairs ps;
    do d <- save_perm p;
    do p <- perm_of_pairs ps;
    do d' <- save_perm p;
    Ok (DObj [("shared", DInt (msb + Z.of_nat (S (List.length w)))%Z); ("vertices", d); ("faces", d')], w ++ [a])
  end.
(** CE:235-243 with CE:192-207. *)
Definition load_tri (k : reading) (d : data) : outcome (tri * reading) :=
  do id <- field d "shared";
  do id <- as_int id;
  if Z.testbit id 31 then
    do d <- field d "vertices";
    do p <- load_perm d;
    do t <- make_tri p [];
    Ok (t, ((id - msb)%Z, t) :: k)
  else do t <- lookup k id; Ok (t, k).

(** CE:250-259, flat triangulations; [order] is the order in which an unordered_map is iterated. *)
Definition save_flat (order : list nat -> list nat) (w : written) (a : nat) (s : flat K) : outcome (data * written) :=
  do (d, w) <- save_tri w a (fT s);
  do vs <- omap (fun h => do v <- from_he s h; Ok (DObj [("key", save_half_edge h); ("value", save_vec v)])) (order (half_edges (fT s)));
  Ok (DObj [("combinatorial", d); ("vectors", DSeq vs)], w).
(** CE:261-269; [std::unordered_map::at] throws. *)
Definition map_at (m : list (halfedge * V)) (h : halfedge) : outcome V :=
  match find (fun p => Nat.eqb (fst p) h) m with Some (_, v) => Ok v | None => Throw end.
Definition load_flat (k : reading) (d : data) : outcome (flat K * reading) :=
  do c <- field d "combinatorial";
  do (t, k) <- load_tri k c;
  do vs <- field d "vectors";
  do vs <- as_seq vs;
  do m <- omap (fun d => do x <- field d "key"; do h <- load_half_edge x; do y <- field d "value"; do v <- load_vec y; Ok (h, v)) vs;
  do s <- make_flat t (map_at m);
  Ok (s, k).

(** CE:276-286, chains. *)
Definition save_chain (order : list nat -> list nat) (w : written) (a : nat) (s : flat K) (c : zchain) : outcome (data * written) :=
  do (d, w) <- save_flat order w a s;
  do l <- omap (fun e => do z <- vget c (edge_index e); Ok (DBig z)) (edges (fT s));
  Ok (DObj [("surface", d); ("coefficients", DSeq l)], w).
(** CE:296-297, the loop. *)
Fixpoint load_coefficients (s : flat K) (i : nat) (l : list Z) (c : zchain) : outcome zchain :=
  match l with
  | [] => Ok c
  | z :: l =>
    do e <- vget (edges (fT s)) i;
    do x <- zc_add_he (zc_zero s) (positive e);
    do c <- zc_op Z.add c (map (Z.mul z) x);
    load_coefficients s (S i) l c
  end.
(** CE:288-298. *)
Definition load_chain (k : reading) (d : data) : outcome (flat K * zchain * reading) :=
  do x <- field d "surface";
  do (s, k) <- load_flat k x;
  do l <- field d "coefficients";
  do l <- as_seq l;
  do l <- omap as_big l;
  do c <- load_coefficients s 0 l (zc_zero s);
  Ok (s, c, k).

(** CE:305-311, saddle connections; the chain writes the surface again. *)
Definition save_sconn (order : list nat -> list nat) (w : written) (a : nat) (x : sconn K) : outcome (data * written) :=
  do (d, w) <- save_flat order w a (sc_surface x);
  do (c, w) <- save_chain order w a (sc_surface x) (sc_chain x);
  Ok (DObj [("surface", d); ("source", save_half_edge (sc_source x)); ("target", save_half_edge (sc_target x)); ("chain", c)], w).
(** CE:313-324. *)
Definition load_sconn (k : reading) (d : data) : outcome (sconn K * reading) :=
  do x <- field d "surface";
  do (s, k) <- load_flat k x;
  do x <- field d "source";
  do source <- load_half_edge x;
  do x <- field d "target";
  do target <- load_half_edge x;
  do x <- field d "chain";
  do (_, c, k) <- load_chain k x;
  Ok (mkSconn s source target c, k).

(** CE:331-336, vertices. *)
Definition save_vertex (v : bits) : outcome data := do l <- selements v; Ok (DObj [("outgoing", DSeq (map save_half_edge l))]).
(** CE:338-343. *)
Definition load_vertex (d : data) : outcome bits :=
  do d <- field d "outgoing"; do l <- as_seq d; do l <- omap load_half_edge l; Ok (sof_list l).

(** CE:350-353, verticals. *)
Definition save_vertical (order : list nat -> list nat) (w : written) (a : nat) (m : vertical K) : outcome (data * written) :=
  do (d, w) <- save_flat order w a (vt_surface m);
  Ok (DObj [("surface", d); ("vector", save_vec (vt_vertical m))], w).
(** CE:355-362. *)
Definition load_vertical (k : reading) (d : data) : outcome (vertical K * reading) :=
  do x <- field d "surface";
  do (s, k) <- load_flat k x;
  do x <- field d "vector";
  do v <- load_vec x;
  do m <- make_vertical s v;
  Ok (m, k).
End serialize.
Arguments data K : clear implicits.
