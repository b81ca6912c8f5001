(** * Sectors in a half plane

    Model of /repo/libflatsurf/src/flat_triangulation.cc (FT) 856-871, [sector(plane, vertical, direction)], and of the function of /repo/libflatsurf/src/saddle_connection.cc (SC) that
    uses it.  Of the Vertical only its vector (vertical.hpp:104) is used. *)
From Coq Require Import ZArith List Arith Bool.
From Verif Require Import Base HalfEdge Combinatorial ExactReal Vector FlatTri Saddle Search Connect.
Import ListNotations.

Section half_plane.
Context {K : ExactReal}.
Local Notation F := (flat K).
Local Notation V := (vec K).

(** FT:863-864, the loop that turns clockwise. *)
Fixpoint leave_half_plane (fuel : nat) (s : F) (vertical : V) (plane : halfedge) : outcome halfedge :=
  match fuel with
  | O => OutOfFuel
  | S k => do ok <- in_half_plane s plane vertical; if (ok : bool) then do plane <- previousAtVertex (fT s) plane; leave_half_plane k s vertical plane else Ok plane
  end.
(** FT:866-867, the loop that turns counterclockwise. *)
Fixpoint find_sector (fuel : nat) (s : F) (direction : V) (plane : halfedge) : outcome halfedge :=
  match fuel with
  | O => OutOfFuel
  | S k => do ok <- in_sector_at s plane direction; if (ok : bool) then Ok plane else do plane <- nextAtVertex (fT s) plane; find_sector k s direction plane
  end.
(** FT:856-870, [sector]. *)
Definition sector_half_plane (fuel : nat) (s : F) (plane : halfedge) (vertical direction : V) : outcome halfedge :=
  do ok <- in_half_plane s plane vertical;
  if negb ok then Throw else
  if negb (orientation_eqb (orientation direction vertical) SAME) then Throw else
  do plane <- leave_half_plane fuel s vertical plane;
  find_sector fuel s direction plane.
(** SC:163-166, [inHalfPlane]. *)
Definition sc_in_half_plane (fuel : nat) (s : F) (side : halfedge) (vertical vector : V) : outcome (sconn K) :=
  do source <- sector_half_plane fuel s side vertical vector; sc_in_sector fuel s source vector.
End half_plane.
