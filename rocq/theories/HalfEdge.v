(** * Half edges and edges

    Model of /repo/libflatsurf/src/half_edge.cc and /repo/libflatsurf/src/edge.cc. *)

From Coq Require Import ZArith Arith Lia Bool.

(** A half edge is represented by its field [idx]
    (/repo/libflatsurf/flatsurf/half_edge.hpp, member [idx]).  The invalid
    half edge [HalfEdge()] with index 2^64-1 (half_edge.cc:43-44) is not a
    value of this type; places where it can occur use [option]. *)
Notation halfedge := nat (only parsing).

(** half_edge.cc:34-37, [HalfEdge::HalfEdge(const int id)].
    Simplification: ids are unbounded integers (the C++ arithmetic on [int] does
    not overflow for |id| <= 2^30). *)
Definition he_of_id (id : Z) : halfedge :=
  Z.to_nat (if (0 <? id)%Z then 2 * (id - 1) else -2 * id - 1)%Z.

(** half_edge.cc:46-49, [HalfEdge::id]. *)
Definition he_id (h : halfedge) : Z :=
  ((if Nat.eqb (h mod 2) 0 then 1 else -1) * (Z.of_nat (h / 2) + 1))%Z.

(** half_edge.cc:51-53, [HalfEdge::operator-], [idx ^ 1]. *)
Definition neg (h : halfedge) : halfedge := Nat.lxor h 1.

(** half_edge.cc:39-41, [HalfEdge::fromIndex]; half_edge.cc:65-68 [index]. *)
Definition he_from_index (i : nat) : halfedge := i.
Definition he_index (h : halfedge) : nat := h.

(** An edge holds one of its half edges, edge.cc:35-36
    [Edge::Edge(HalfEdge e) : id(e.index() < (-e).index() ? e : -e)]. *)
Notation edge := nat (only parsing).
Definition edge_of (h : halfedge) : edge :=
  if he_index h <? he_index (neg h) then h else neg h.

(** edge.cc:42 [positive], edge.cc:44 [negative]. *)
Definition positive (e : edge) : halfedge := e.
Definition negative (e : edge) : halfedge := neg e.

(** edge.cc:46-49 [Edge::index]. *)
Definition edge_index (e : edge) : nat := e / 2.

(** edge.cc:38-40 [Edge::fromIndex]. *)
Definition edge_from_index (i : nat) : edge :=
  edge_of (he_of_id (Z.of_nat i + 1)).
