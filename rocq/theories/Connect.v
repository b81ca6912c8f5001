(** * Saddle connections from a direction

    Model of the static functions of /repo/libflatsurf/src/saddle_connection.cc (SC) that search for a saddle connection given by a vector, and of the part of
    /repo/libflatsurf/src/generic_retriangulation_deformation_relation.cc (GR) that maps a straight path.  The functions that take a Vertical are in Along.v. *)
From Coq Require Import ZArith List Arith Bool.
From Verif Require Import Base HalfEdge Combinatorial ExactReal Vector FlatTri Saddle Search Path Retriangulate.
Import ListNotations.

Section connect.
Context {K : ExactReal}.
Local Notation S := (flat K).
Local Notation V := (vec K).

(** SC:134-147, [inSector] for a vector; the fuel is for the search. *)
Definition sc_in_sector (fuel : nat) (s : S) (source : halfedge) (vector : V) : outcome (sconn K) :=
  do ok <- in_sector_at s source vector;
  if negb ok then Throw else
  do construction <- cn_sector_vectors (cn_sector_at (cn_bound (make_conns s) (bupper vector)) source) vector vector;
  do ret <- search_begin construction fuel;
  if at_end ret then Throw else sdereference construction ret.
(** SC:173-176, [inPlane] for a vector. *)
Definition sc_in_plane (fuel : nat) (s : S) (plane : halfedge) (vector : V) : outcome (sconn K) :=
  do source <- sector_plane fuel s plane vector; sc_in_sector fuel s source vector.
(** SC:178-183, [inPlane] for a chain. *)
Definition sc_in_plane_chain (fuel : nat) (s : S) (sourcePlane targetPlane : halfedge) (chain : zchain) : outcome (sconn K) :=
  do vector <- zc_vector s chain;
  do source <- sector_plane fuel s sourcePlane vector;
  do target <- sector_plane fuel s targetPlane (vneg vector);
  Ok (mkSconn s source target chain).
(** SC:185-188, [clockwise]. *)
Definition sc_clockwise (fuel : nat) (clockwiseFrom : sconn K) (vector : V) : outcome (sconn K) :=
  do v <- sc_vector clockwiseFrom;
  do source <- sector_from fuel (sc_surface clockwiseFrom) (sc_source clockwiseFrom) v CLOCKWISE vector true;
  sc_in_sector fuel (sc_surface clockwiseFrom) source vector.
(** SC:190-195, [counterclockwise] for a chain. *)
Definition sc_counterclockwise (fuel : nat) (s : S) (source target : halfedge) (chain : zchain) : outcome (sconn K) :=
  do vector <- zc_vector s chain;
  do source <- sector_turn fuel s source COUNTERCLOCKWISE vector false;
  do target <- sector_turn fuel s target COUNTERCLOCKWISE (vneg vector) false;
  Ok (mkSconn s source target chain).

(** GR:185-204, the loop of [operator()(HalfEdge, HalfEdge, Vector)]; [sofar] is [vector_]. *)
Fixpoint follow (fuel : nat) (s : S) (source : halfedge) (vector sofar : V) (image : path K) : outcome (path K) :=
  match fuel with
  | O => OutOfFuel
  | Datatypes.S k =>
    do start <- from_he s source;
    do sector <- sector_from fuel s source start COUNTERCLOCKWISE vector false;
    do x <- sc_in_sector fuel s sector vector;
    do w <- sc_vector x;
    let sofar := vadd sofar w in
    let image := image ++ [x] in
    if veqb sofar vector then Ok image else
    do source <- nextAtVertex (fT s) (sc_target x);
    follow k s source vector sofar image
  end.
(** GR:174-206, [operator()(HalfEdge, HalfEdge, Vector)]; the relations are the ones of the vertices at which [source] and [target] start, see [gr_source]. *)
Definition gr_segment (fuel : nat) (s : S) (atSource atTarget : option (sconn K * sconn K)) (source target : halfedge) (vector : V) : outcome (option (path K)) :=
  do source_ <- gr_source fuel atSource source vector;
  match source_ with
  | None => Ok None
  | Some source_ =>
    do target_ <- gr_source fuel atTarget target (vneg vector);
    match target_ with
    | None => Ok None
    | Some _ => do image <- follow fuel s source_ vector vzero []; Ok (Some image)
    end
  end.
End connect.
