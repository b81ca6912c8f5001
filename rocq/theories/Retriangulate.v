(** * Directions in retriangulations

    Model of the parts of /repo/libflatsurf/src/generic_retriangulation_deformation_relation.cc (GR) that transfer a direction at a vertex
    of the domain to the codomain.  Not modelled: how vertices are related by a search for saddle connections (GR:241-302), the relation of
    the vertex is an argument here. *)
From Coq Require Import ZArith List Arith Bool.
From Verif Require Import Base HalfEdge Combinatorial ExactReal Vector FlatTri Saddle Point.
Import ListNotations.

Section retriangulate.
Context {K : ExactReal}.
Local Notation S := (flat K).
Local Notation V := (vec K).

(** GR:310-324, [turn] from one direction to another. *)
Fixpoint turn_to (fuel : nat) (s : S) (source : halfedge) (from to : V) : outcome halfedge :=
  match fuel with
  | O => OutOfFuel
  | Datatypes.S k =>
    if ccw_eqb (ccw from to) COLLINEAR && orientation_eqb (orientation from to) SAME then Ok source else
    do found <- (if ccw_eqb (ccw from to) COUNTERCLOCKWISE
                 then do next <- nextAtVertex (fT s) source; do w <- from_he s next; Ok (ccw_eqb (ccw w to) CLOCKWISE)
                 else Ok false);
    if found : bool then Ok source else
    do source <- nextAtVertex (fT s) source;
    do from <- from_he s source;
    turn_to k s source from to
  end.

(** GR:342-347, one of the loops that turn until the half edge is on the given side of the direction. *)
Fixpoint turn_until (side : CCW) (fuel : nat) (s : S) (source : halfedge) (direction : V) : outcome halfedge :=
  match fuel with
  | O => OutOfFuel
  | Datatypes.S k =>
    do w <- from_he s source;
    if negb (ccw_eqb (ccw direction w) side) then do source <- nextAtVertex (fT s) source; turn_until side k s source direction else Ok source
  end.
(** GR:340-351, [turn] by a number of full turns. *)
Fixpoint full_turns (angle : nat) (fuel : nat) (s : S) (source : halfedge) (direction : V) : outcome halfedge :=
  match angle with
  | O => Ok source
  | Datatypes.S k =>
    do source <- turn_until COUNTERCLOCKWISE fuel s source direction;
    do source <- turn_until CLOCKWISE fuel s source direction;
    do source <- turn_until COUNTERCLOCKWISE fuel s source direction;
    do source <- previousAtVertex (fT s) source;
    full_turns k fuel s source direction
  end.

(** GR:210-238, [source]: [relation] are the saddle connections of domain and codomain that are known to correspond, starting at the vertex. *)
Definition gr_source (fuel : nat) (relation : option (sconn K * sconn K)) (source : halfedge) (vector : V) : outcome (option halfedge) :=
  match relation with
  | None => Ok None
  | Some (basepreimage, baseimage) =>
    do angle <- sc_angle_to basepreimage source vector;
    do w <- sc_vector baseimage;
    do h <- full_turns angle fuel (sc_surface baseimage) (sc_source baseimage) w;
    do h <- turn_to fuel (sc_surface baseimage) h w vector;
    Ok (Some h)
  end.
End retriangulate.
