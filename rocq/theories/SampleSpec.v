(** * What is expected of a sample of saddle connections *)
From Coq Require Import ZArith Reals List Arith.
From Verif Require Import Base HalfEdge Combinatorial CombinatorialSpec ExactReal Vector PlaneSpec FlatTri FlatSpec Saddle SaddleSpec Search SearchSpec.
Import ListNotations.
Local Open Scope R_scope.

Section sample.
Context {K : ExactReal} (n : nat).
(** The sectors are complete, i.e., from a half edge to the next one around the vertex, and there are no repetitions. *)
Definition whole_sectors (cs : conns K) : Prop :=
  (forall x, In x (cn_sectors cs) -> (sec_source x < n)%nat /\ sec_sector x = None) /\ NoDup (map (@sec_source K) (cn_sectors cs)).
(** A random choice: it picks one of the sectors. *)
Definition possible_choice (cs : conns K) (c : nat * (nat -> bool)) : Prop := (fst c < length (cn_sectors cs))%nat.
(** A saddle connection of the surface in the sector at [h] that is long enough, and not the half edge [h]. *)
Definition sampled (cs : conns K) (h : nat) (x : sconn K) : Prop :=
  sc_valid n x /\ sc_surface x = cn_surface cs /\ sc_source x = h /\ connection (cn_surface cs) h (sv n x) (sc_target x) /\ sv n x <> vv (cn_surface cs) h /\
  IZR (cn_lower cs) < pdot (sv n x) (sv n x).
(** Two connections are the same if they start in the same sector with the same vector. *)
Definition key (x : sconn K) : nat * pt := (sc_source x, sv n x).
End sample.
