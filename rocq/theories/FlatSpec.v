(** * What a flat triangulation is *)
From Coq Require Import Reals List Arith.
From Verif Require Import Base HalfEdge Perm IndexedSet Combinatorial CombinatorialSpec ExactReal Vector PlaneSpec FlatTri.
Import ListNotations.
Local Open Scope R_scope.

(** The vector of a half edge as a vector in the real plane. *)
Definition vv {K : ExactReal} (s : flat K) (e : nat) : pt := vden (nth e (fvec s) vzero).
(** The face permutation of the surface. *)
Definition fF {K : ExactReal} (s : flat K) (e : nat) : nat := nF (fT s) e.

(** The vectors of each triangle close up and turn counterclockwise. *)
Definition triangles_flat {K : ExactReal} (n : nat) (s : flat K) : Prop :=
  forall e, (e < n)%nat -> fF s e <> e ->
    padd (padd (vv s e) (vv s (fF s e))) (vv s (fF s (fF s e))) = (0, 0) /\ 0 < pdet (vv s e) (vv s (fF s e)).

(** [s] is a surface with half edges 0..n-1 that is made from triangles in the
    plane by gluing sides with translations. *)
Record flat_surface {K : ExactReal} (n : nat) (s : flat K) : Prop := {
  fs_wf : well_formed n (fT s);
  fs_length : length (fvec s) = n;
  fs_odd : forall e, (e < n)%nat -> vv s (neg e) = pneg (vv s e);
  fs_flat : triangles_flat n s
}.

(** Both [e] and [-e] are sides of triangles and these two triangles form a strictly convex quadrilateral. *)
Definition can_flip {K : ExactReal} (n : nat) (s : flat K) (e : nat) : Prop :=
  (e < n)%nat /\ fF s e <> e /\ fF s (neg e) <> neg e /\
  let a := fF s e in let b := fF s a in let c := fF s (neg e) in let d := fF s c in
  0 < pdet (vv s d) (vv s a) /\ 0 < pdet (vv s b) (vv s c).

(** Representatives of the triangles: each triangle contains exactly one of the half edges in [reps]. *)
Definition one_per_triangle {K : ExactReal} (n : nat) (s : flat K) (reps : list nat) : Prop :=
  NoDup reps /\ (forall r, In r reps -> (r < n)%nat /\ fF s r <> r) /\
  (forall r, In r reps -> ~ In (fF s r) reps /\ ~ In (fF s (fF s r)) reps) /\
  (forall e, (e < n)%nat -> fF s e <> e -> In e reps \/ In (fF s e) reps \/ In (fF s (fF s e)) reps).

Fixpoint rsum (l : list R) : R := match l with [] => 0 | x :: r => x + rsum r end.

(** Twice the area of the triangle at [e]. *)
Definition triangle_area2 {K : ExactReal} (s : flat K) (e : nat) : R := pdet (vv s e) (vv s (fF s e)).

(** No half edge is at the boundary. *)
Definition closed_surface {K : ExactReal} (n : nat) (s : flat K) : Prop := forall e, (e < n)%nat -> fF s e <> e.

(** The linear map with rows (a, b), (c, d). *)
Definition papply (a b c d : R) (p : pt) : pt := (a * fst p + b * snd p, c * fst p + d * snd p).

Definition dist2 (p q : pt) : R := pdot (padd p (pneg q)) (padd p (pneg q)).

(** The triangle at [h], with the start of [h] at the origin, is inscribed in the circle around [o] with square of the radius [r2]. *)
Definition circumscribed {K : ExactReal} (s : flat K) (h : nat) (o : pt) (r2 : R) : Prop :=
  dist2 (0, 0) o = r2 /\ dist2 (vv s h) o = r2 /\ dist2 (padd (vv s h) (vv s (fF s h))) o = r2.
(** The corner opposite of [h] in the triangle at [-h], in the same coordinates. *)
Definition opposite_corner {K : ExactReal} (s : flat K) (h : nat) : pt := vv s (fF s (neg h)).

(** All coordinates are multiples of 1/N. *)
Definition lattice {K : ExactReal} (n : nat) (s : flat K) (N : Z) : Prop :=
  (0 < N)%Z /\ forall e, (e < n)%nat -> exists x y : Z, pscale (IZR N) (vv s e) = (IZR x, IZR y).

(** The vector of the half edge [h] when vectors are given for the positive half edges. *)
Definition side {K : ExactReal} (vs : list (vec K)) (h : nat) : pt :=
  let p := vden (nth (h / 2) vs vzero) in if Nat.even h then p else pneg p.

(** Vectors that turn the triangulation [t] into a flat surface. *)
Definition suitable {K : ExactReal} (n : nat) (t : tri) (vs : list (vec K)) : Prop :=
  length vs = (n / 2)%nat /\ forall e, (e < n)%nat -> nF t e <> e ->
    padd (padd (side vs e) (side vs (nF t e))) (side vs (nF t (nF t e))) = (0, 0) /\ 0 < pdet (side vs e) (side vs (nF t e)).

(** ** Vertices *)
(** The next half edge when turning counterclockwise around a vertex. *)
Definition fV {K : ExactReal} (s : flat K) (h : nat) : nat := nV (fT s) h.
(** The half edges that start at a vertex. *)
Definition members (n : nat) (v : bits) : list nat := filter (scontains v) (seq 0 n).
(** No half edge at the vertex is boundary. *)
Definition inner_vertex {K : ExactReal} (s : flat K) (v : bits) : Prop := forall h, scontains v h = true -> fF s h <> h.
(** [alpha h] is the angle between [h] and the next half edge at the vertex. *)
Definition corners {K : ExactReal} (n : nat) (s : flat K) (v : bits) (alpha : nat -> R) : Prop :=
  forall h, (h < n)%nat -> scontains v h = true -> turn (vv s h) (vv s (fV s h)) (alpha h).
(** The direction [d] lies in the sector between [h] (included) and the next half edge. *)
Definition sector_contains {K : ExactReal} (s : flat K) (h : nat) (d : pt) : Prop := in_sector d (vv s h) (vv s (fV s h)).
(** [e] is the first sector that contains [d] when walking the sectors, starting at [start], in counterclockwise direction. *)
Definition first_ccw {K : ExactReal} (s : flat K) (start : nat) (d : pt) (e : nat) : Prop :=
  exists k, Nat.iter k (fV s) start = e /\ sector_contains s e d /\
    forall j, (j < k)%nat -> ~ sector_contains s (Nat.iter j (fV s) start) d.
(** ... in clockwise direction. *)
Definition first_cw {K : ExactReal} (s : flat K) (start : nat) (d : pt) (e : nat) : Prop :=
  exists k, Nat.iter k (fV s) e = start /\ sector_contains s e d /\
    forall j, (0 < j <= k)%nat -> ~ sector_contains s (Nat.iter j (fV s) e) d.
Definition same_direction (u v : pt) : Prop := exists r, 0 < r /\ v = pscale r u.
(** No half edge at the vertex where [h] starts is boundary. *)
Definition inner_at {K : ExactReal} (s : flat K) (h : nat) : Prop := forall x, same_vertex (fT s) h x -> fF s x <> x.
(** Walking counterclockwise from the half edge [h] to the direction [d]; if [d] is the direction of [h] then this is the
    initial sector unless [exclude] is set. *)
Definition turns_ccw {K : ExactReal} (s : flat K) (h : nat) (d : pt) (exclude : bool) (e : nat) : Prop :=
  (same_direction (vv s h) d /\ exclude = true -> first_ccw s (fV s h) d e) /\
  (~ (same_direction (vv s h) d /\ exclude = true) -> first_ccw s h d e).
(** The same walking clockwise, where the sector at [h] is not visited unless [d] is the direction of [h]. *)
Definition turns_cw {K : ExactReal} (n : nat) (s : flat K) (h : nat) (d : pt) (exclude : bool) (e : nat) : Prop :=
  (same_direction (vv s h) d /\ exclude = false -> e = h) /\
  (~ (same_direction (vv s h) d /\ exclude = false) -> exists p, (p < n)%nat /\ fV s p = h /\ first_cw s p d e).
(** Walking counterclockwise from the direction [v] in the sector at [h] to the direction [d]. *)
Definition reaches_ccw {K : ExactReal} (s : flat K) (h : nat) (v d : pt) (exclude : bool) (e : nat) : Prop :=
  let stays := sector_contains s h d /\ (0 < pdet v d \/ (same_direction v d /\ exclude = false)) in
  (stays -> e = h) /\ (~ stays -> first_ccw s (fV s h) d e).
(** The same walking clockwise. *)
Definition reaches_cw {K : ExactReal} (n : nat) (s : flat K) (h : nat) (v d : pt) (exclude : bool) (e : nat) : Prop :=
  let stays := sector_contains s h d /\ (pdet v d < 0 \/ (same_direction v d /\ exclude = false)) in
  (stays -> e = h) /\ (~ stays -> exists p, (p < n)%nat /\ fV s p = h /\ first_cw s p d e).
