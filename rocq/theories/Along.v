(** * Saddle connections in the direction of a Vertical

    Model of the static functions of /repo/libflatsurf/src/saddle_connection.cc (SC) that search for a saddle connection in the direction of a Vertical.  Of the Vertical only its
    vector (vertical.hpp:104) is used; that it is not zero is a hypothesis of the theorems. *)
From Coq Require Import ZArith List Arith Bool.
From Verif Require Import Base HalfEdge Combinatorial ExactReal Vector FlatTri Saddle Search ByLength.
Import ListNotations.

Section along.
Context {K : ExactReal}.
Local Notation S := (flat K).
Local Notation V := (vec K).
(** [std::sort], see ByLength.v. *)
Variable sort : list (sconn K) -> list (sconn K).

(** SC:149-161, [inSector] for a Vertical; there is no bound on the length, and the result of [begin] is not compared to [end]. *)
Definition along_sector (fuel : nat) (s : S) (source : halfedge) (direction : V) : outcome (sconn K) :=
  do ok <- in_sector_at s source direction;
  if negb ok then Throw else
  do construction <- cn_sector_vectors (cn_sector_at (make_conns s) source) direction direction;
  do ret <- bbegin sort construction fuel;
  bdereference ret.
(** SC:168-171, [inPlane] for a Vertical. *)
Definition along_plane (fuel : nat) (s : S) (plane : halfedge) (direction : V) : outcome (sconn K) :=
  do source <- sector_plane fuel s plane direction; along_sector fuel s source direction.
(** SC:197-200, [counterclockwise] for a Vertical. *)
Definition along_counterclockwise (fuel : nat) (s : S) (source : sconn K) (direction : V) : outcome (sconn K) :=
  do v <- sc_vector source;
  do sector <- sector_from fuel s (sc_source source) v COUNTERCLOCKWISE direction false;
  along_sector fuel s sector direction.
(** SC:202-207, [alongVertical]. *)
Definition along_vertical (fuel : nat) (s : S) (direction : V) (plane : halfedge) : outcome (sconn K) :=
  do ok <- in_half_plane s plane direction;
  if negb ok then Throw else
  do source <- sector_plane fuel s plane direction; along_sector fuel s source direction.
End along.
