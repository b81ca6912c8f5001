(** * Where a vertex ends up when it is moved along a vector *)
From Coq Require Import Reals List Arith.
From Verif Require Import Base HalfEdge Combinatorial CombinatorialSpec ExactReal Vector PlaneSpec FlatTri FlatSpec SearchSpec Point PointSpec.
Import ListNotations.
Local Open Scope R_scope.

Section translate.
Context {K : ExactReal}.
Variables (n : nat) (s : flat K).

(** The vertex is at the origin, and the surface is unfolded into the plane; then [h] starts at [p].  The direction [v] lies strictly between the start
    and the end of [h]; with [left], also when it passes the start of [h] on its left. *)
Definition passes (left : bool) (p : pt) (h : nat) (v : pt) : Prop :=
  (if left then 0 <= pdet p v else 0 < pdet p v) /\ 0 < pdet v (padd p (vv s h)).
(** In the triangle on the other side of [h], the point [v] of the plane has the weights [w]. *)
Definition found (p : pt) (h : nat) (v : pt) (w : R * R * R) : Prop := weights w /\ padd p (place s (fF s (neg h)) w) = v.
(** The segment from the origin to [v] crosses [h]; going on from triangle to triangle, it ends at the point [r] of the surface. *)
Inductive goes (left : bool) : pt -> nat -> pt -> rep -> Prop :=
| goes_here p h v w : passes left p h v -> found p h v w -> goes left p h v (fF s (neg h), w)
| goes_right p h v r : passes left p h v -> (forall w, ~ found p h v w) -> goes left p (fF s (neg h)) v r -> goes left p h v r
| goes_left p h v r : passes left p h v -> (forall w, ~ found p h v w) ->
    goes left (padd p (vv s (fF s (neg h)))) (fF s (fF s (neg h))) v r -> goes left p h v r.

(** The total angle at the vertex where [g] starts is 2π: each direction is in exactly one of the sectors there. *)
Definition marked (g : nat) : Prop :=
  forall d, d <> (0, 0) -> exists! g', (g' < n)%nat /\ same_vertex (fT s) g g' /\ sector_contains s g' d.

(** The vertex where [h] starts, moved along [v] into the sector at [h], ends at [r]. *)
Inductive ends_at : nat -> pt -> rep -> Prop :=
(** It stays in the triangle. *)
| ends_here h v w : weights w -> place s h w = v -> ends_at h v (h, w)
(** It moves straight, without meeting a vertex; along the half edge [h], vertices are passed on the left. *)
| ends_across h v r (left : bool) : (forall w, weights w -> place s h w <> v) ->
    (if left then pdet (vv s h) v = 0 else 0 < pdet (vv s h) v) -> goes left (vv s h) (fF s h) v r -> ends_at h v r
(** It meets a marked point in the direction [u] and goes on from there. *)
| ends_past h u g k g' r : 0 < k -> hits s (vv s h) (fF s h) u g -> marked g ->
    (g' < n)%nat -> same_vertex (fT s) g g' -> sector_contains s g' (pscale k u) -> ends_at g' (pscale k u) r ->
    ends_at h (pscale (1 + k) u) r.
(** ... or it meets a vertex that is not a marked point. *)
Inductive blocked : nat -> pt -> Prop :=
| blocked_here h u g k : 0 < k -> hits s (vv s h) (fF s h) u g -> ~ marked g -> blocked h (pscale (1 + k) u)
| blocked_past h u g k g' : 0 < k -> hits s (vv s h) (fF s h) u g -> marked g ->
    (g' < n)%nat -> same_vertex (fT s) g g' -> sector_contains s g' (pscale k u) -> blocked g' (pscale k u) -> blocked h (pscale (1 + k) u).
End translate.
