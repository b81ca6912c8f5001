(** * What a triangulation is, independently of the implementation *)
From Coq Require Import List Arith Bool.
From Verif Require Import Base HalfEdge Perm PermSpec IndexedSet Combinatorial.
Import ListNotations.

(** Reading the tables of the permutations as functions; only used on
    half edges of the surface. *)
Definition nF (t : tri) (e : nat) : nat := nth e (fwd (tF t)) 0.
Definition nV (t : tri) (e : nat) : nat := nth e (fwd (tV t)) 0.

(** Two half edges start at the same vertex. *)
Definition same_vertex (t : tri) (x y : nat) : Prop := exists k, Nat.iter k (nV t) x = y.

(** The cached vertices are the orbits of [nextAtVertex]. *)
Definition vertices_correct (n : nat) (t : tri) : Prop :=
  (forall x, x < n -> exists i, i < length (tverts t) /\ scontains (nth i (tverts t) []) x = true) /\
  (forall i, i < length (tverts t) -> exists x, x < n /\ scontains (nth i (tverts t) []) x = true) /\
  (forall i j x, i < length (tverts t) -> j < length (tverts t) ->
     scontains (nth i (tverts t) []) x = true -> scontains (nth j (tverts t) []) x = true -> i = j) /\
  (forall i x y, i < length (tverts t) -> scontains (nth i (tverts t) []) x = true ->
     (scontains (nth i (tverts t) []) y = true <-> (x < n /\ y < n /\ same_vertex t x y))).

(** [t] is a triangulation with half edges 0..n-1. *)
Record well_formed (n : nat) (t : tri) : Prop := {
  wf_even : exists m, n = 2 * m;
  wf_V : is_perm n (tV t);
  wf_F : is_perm n (tF t);
  (* every face is a triangle; boundary half edges form trivial faces *)
  wf_triangle : forall e, e < n -> nF t (nF t (nF t e)) = e;
  (* turning around a vertex is consistent with walking around faces *)
  wf_link : forall e, e < n -> nF t e <> e -> nF t (neg (nV t e)) = e;
  wf_vertices : vertices_correct n t
}.

(** [e] and [-e] are in two different triangles. *)
Definition flippable (n : nat) (t : tri) (e : nat) : Prop :=
  e < n /\ nF t e <> e /\ nF t (neg e) <> neg e /\ nF t e <> neg e /\ nF t (nF t e) <> neg e.

(** Exchange two half edges. *)
Definition exchange (x y i : nat) : nat := if i =? x then y else if i =? y then x else i.

(** The faces after replacing [(e a b)(-e c d)] by [(a -e d)(c e b)]. *)
Definition flipped_faces (n : nat) (t t' : tri) (e : nat) : Prop :=
  let a := nF t e in let b := nF t a in let c := nF t (neg e) in let d := nF t c in
  nF t' a = neg e /\ nF t' (neg e) = d /\ nF t' d = a /\
  nF t' c = e /\ nF t' e = b /\ nF t' b = c /\
  forall i, i < n -> ~ In i [e; a; b; neg e; c; d] -> nF t' i = nF t i.

(** A square torus: faces (1 2 3)(-1 -2 -3), one vertex. *)
Definition torus_cycles : list (list nat) := [[0; 5; 2; 1; 4; 3]].
(** A single triangle with boundary: face (1 2 3), boundary -1, -2, -3. *)
Definition triangle_cycles : list (list nat) := [[0; 5]; [2; 1]; [4; 3]].

(** [b] is the first boundary half edge met when turning around the vertex of [e], starting at [e]. *)
Definition first_boundary (t : tri) (e b : nat) : Prop :=
  exists k, Nat.iter k (nV t) e = b /\ nF t b = b /\
    forall j, j < k -> nF t (Nat.iter j (nV t) e) <> Nat.iter j (nV t) e.

(** The faces after slitting [e] open: in the face of [e], the new half edge [n]
    takes the place of [e]; [e] and [-n] = [n + 1] are boundary. *)
Definition slit_faces (n : nat) (t t' : tri) (e : nat) : Prop :=
  nF t' e = e /\ nF t' (n + 1) = n + 1 /\
  nF t' n = nF t e /\ nF t' (nF t e) = nF t (nF t e) /\ nF t' (nF t (nF t e)) = n /\
  forall i, i < n -> i <> e -> i <> nF t (nF t e) -> nF t' i = nF t i.

(** The permutation [r] sends the two half edges of an edge to the two half edges of an edge. *)
Definition respects_edges (n : nat) (r : nat -> nat) : Prop := forall e, e < n -> r (neg e) = neg (r e).

(** The faces after putting a vertex into the face [(e f g)]; the new half edges
    [a] = [n], [b] = [n + 2], [c] = [n + 4] start at the new vertex. *)
Definition inserted_faces (n : nat) (t t' : tri) (e : nat) : Prop :=
  let f := nF t e in let g := nF t f in let a := n in let b := n + 2 in let c := n + 4 in
  nF t' a = e /\ nF t' e = neg b /\ nF t' (neg b) = a /\
  nF t' b = f /\ nF t' f = neg c /\ nF t' (neg c) = b /\
  nF t' c = g /\ nF t' g = neg a /\ nF t' (neg a) = c /\
  forall i, i < n -> ~ In i [e; f; g] -> nF t' i = nF t i.
