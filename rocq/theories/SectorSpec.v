(** * What restricted collections of saddle connections are *)
From Coq Require Import ZArith Reals List Arith.
From Verif Require Import Base HalfEdge Combinatorial CombinatorialSpec ExactReal Vector PlaneSpec FlatTri FlatSpec ChainSpec Saddle SaddleSpec Search SearchSpec.
Import ListNotations.
Local Open Scope R_scope.

Section sectors.
Context {K : ExactReal}.
(** What remains of the part of a sector: the new parts and which directions they contain. *)
Definition restricted (s : flat K) (x : ssector K) (b e : pt) (l : list (ssector K)) : Prop :=
  (forall y, In y l -> sec_source y = sec_source x /\ part_ok s y) /\
  (forall v, in_sector v (vv s (sec_source x)) (vv s (fV s (sec_source x))) -> (exists y, In y l /\ in_part y v) <-> in_part x v /\ in_sector v b e) /\
  (forall v i j y z, in_sector v (vv s (sec_source x)) (vv s (fV s (sec_source x))) -> nth_error l i = Some y -> nth_error l j = Some z -> in_part y v -> in_part z v -> i = j).

(** The connection [v] in the sector at [h], which is in the sector at [g] when seen from its end, is in the collection. *)
Definition found (cs : conns K) (h : nat) (v : pt) (g : nat) : Prop := exists x, In x (cn_sectors cs) /\ sec_source x = h /\ wanted cs x v g.
(** No connection is in both parts. *)
Definition apart (cs : conns K) (x y : ssector K) : Prop := forall v g g', sec_source x = sec_source y -> wanted cs x v g -> wanted cs y v g' -> False.
Definition nonzero_part (x : ssector K) : Prop := match sec_sector x with None => True | Some (b, e) => vden b <> (0, 0) /\ vden e <> (0, 0) end.

(** The collection consists of the connections in [D], each of them once. *)
Record collection (n : nat) (cs : conns K) (D : nat -> pt -> nat -> Prop) : Prop := mkCollection {
  co_surface : flat_surface n (cn_surface cs);
  co_edges : forall h, (h < n)%nat -> vv (cn_surface cs) h <> (0, 0);
  co_sectors : sectors_ok n (cn_surface cs) (cn_sectors cs);
  co_nonzero : forall x, In x (cn_sectors cs) -> nonzero_part x;
  co_lower : (0 <= cn_lower cs)%Z;
  co_radius : match cn_radius cs with None => True | Some r => (0 <= r)%Z end;
  co_apart : ForallOrdPairs (apart cs) (cn_sectors cs);
  co_found : forall h v g, found cs h v g <-> D h v g }.

(** Turning from the direction [b] in the sector at [hb] around the vertex we meet the direction [v] in the sector at [h], at the start or before we meet
    the direction [e] in the sector at [he]. *)
Definition turns_between (n : nat) (s : flat K) (hb : nat) (b : pt) (he : nat) (e : pt) (h : nat) (v : pt) : Prop :=
  exists a c, total_turn n s hb b h v a /\ total_turn n s hb b he e c /\ (a < c \/ (a = 0 /\ c = 0)).
End sectors.
