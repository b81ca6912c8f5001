(** * What saddle connections and turns between them are *)
From Coq Require Import ZArith Reals List Arith.
From Verif Require Import Base HalfEdge Combinatorial CombinatorialSpec ExactReal Vector PlaneSpec FlatTri FlatSpec PermCycles ChainSpec Saddle.
Import ListNotations.
Local Open Scope R_scope.

Section saddle.
Context {K : ExactReal}.

(** The vector of a chain that is given by the list of its coefficients. *)
Definition cvector (n : nat) (s : flat K) (c : list Z) : pt := chain_vector n s (fun i => nth i c 0%Z).
(** The vector of a saddle connection. *)
Definition sv (n : nat) (x : sconn K) : pt := cvector n (sc_surface x) (sc_chain x).
(** The data of a saddle connection refer to the half edges and edges of its surface. *)
Definition sc_valid (n : nat) (x : sconn K) : Prop :=
  flat_surface n (sc_surface x) /\ (sc_source x < n)%nat /\ (sc_target x < n)%nat /\ length (sc_chain x) = (n / 2)%nat.

(** The angle between the half edge [h] and the half edge that we reach from it with [j] steps around the vertex. *)
Definition turned (s : flat K) (alpha : nat -> R) (h j : nat) : R := rsum (map (fun i => alpha (Nat.iter i (fV s) h)) (seq 0 j)).
(** Turning counterclockwise from the direction [u] in the sector at [h] to the direction [v] in the sector at [g] is by the
    angle [a], which is less than the total angle at the vertex. *)
Definition total_turn (n : nat) (s : flat K) (h : nat) (u : pt) (g : nat) (v : pt) (a : R) : Prop :=
  exists alpha ou ov j p,
    (forall i, turn (vv s (Nat.iter i (fV s) h)) (vv s (Nat.iter (S i) (fV s) h)) (alpha (Nat.iter i (fV s) h))) /\
    turn (vv s h) u ou /\ turn (vv s g) v ov /\ Nat.iter j (fV s) h = g /\ period (fV s) h p /\
    a = turned s alpha h j + ov - ou /\ 0 <= a < turned s alpha h p.
End saddle.
