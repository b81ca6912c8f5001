(** * C01: half edge ids and indexes round trip *)
From Coq Require Import ZArith Arith.
From Verif Require Import HalfEdge HalfEdgeFacts.

(** [HalfEdge(id).id() == id] for every nonzero id. *)
Theorem C01_id_round_trip : forall id : Z, id <> 0%Z -> he_id (he_of_id id) = id.
Proof. exact id_round_trip. Qed.
Print Assumptions C01_id_round_trip.

(** Every index is the index of exactly one id, and that id is not zero. *)
Theorem C01_index_round_trip :
  forall h : halfedge, he_of_id (he_id h) = h /\ he_id h <> 0%Z.
Proof. exact (fun h => conj (index_round_trip h) (he_id_nonzero h)). Qed.
Print Assumptions C01_index_round_trip.

(** [(-h).id() == -h.id()], [-(-h) == h], [-h != h]. *)
Theorem C01_negation :
  forall h : halfedge, he_id (neg h) = (- he_id h)%Z /\ neg (neg h) = h /\ neg h <> h.
Proof. exact (fun h => conj (he_id_neg h) (conj (neg_neg h) (neg_ne h))). Qed.
Print Assumptions C01_negation.

(** Two half edges belong to the same edge iff they are equal or opposite. *)
Theorem C01_edge_identifies_opposites :
  forall g h : halfedge, edge_of g = edge_of h <-> (g = h \/ g = neg h).
Proof. exact edge_of_eq. Qed.
Print Assumptions C01_edge_identifies_opposites.

(** The positive half edge of an edge has positive id, the negative one its
    opposite; the edge index is the 0-based number of the edge. *)
Theorem C01_edge_positive :
  forall h : halfedge,
    he_id (positive (edge_of h)) = Z.abs (he_id h) /\
    he_id (negative (edge_of h)) = (- Z.abs (he_id h))%Z /\
    Z.of_nat (edge_index (edge_of h)) = (Z.abs (he_id h) - 1)%Z.
Proof.
  intros h. unfold positive, negative, edge_index. rewrite he_id_neg, edge_of_even.
  rewrite he_id_even. destruct (he_cases h) as [n [-> | ->]];
  rewrite ?div2_even, ?div2_odd, ?he_id_even, ?he_id_odd, ?div2_even;
  repeat split; Lia.lia.
Qed.
Print Assumptions C01_edge_positive.

Theorem C01_edge_index_round_trip :
  (forall i, edge_index (edge_from_index i) = i) /\
  (forall h, edge_from_index (edge_index (edge_of h)) = edge_of h).
Proof. exact (conj edge_index_from_index edge_from_index_index). Qed.
Print Assumptions C01_edge_index_round_trip.

Example C01_ex : he_of_id (-7) = 13 /\ he_id 13 = (-7)%Z /\ neg 13 = 12 /\ edge_of 13 = 12 /\ edge_index 12 = 6.
Proof. repeat split. Qed.
