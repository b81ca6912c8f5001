(** * What the insertion of a marked point is *)
From Coq Require Import Reals List Arith.
From Verif Require Import Base HalfEdge Combinatorial CombinatorialSpec ExactReal Vector PlaneSpec FlatTri FlatSpec Point PointSpec Insert.
Import ListNotations.
Local Open Scope R_scope.

(** The point at [v] from the start of [e] lies inside of the triangle at [e]. *)
Definition inside {K : ExactReal} (s : flat K) (e : nat) (v : pt) : Prop :=
  0 < pdet (vv s e) v /\ 0 < pdet (vv s (fF s e)) (padd v (pneg (vv s e))) /\ 0 < pdet (vv s (fF s (fF s e))) v.
(** It lies inside of [e] itself. *)
Definition inside_edge {K : ExactReal} (s : flat K) (e : nat) (v : pt) : Prop := exists r, 0 < r < 1 /\ v = pscale r (vv s e).

(** The surface [u] is [s] with a new vertex V inside of the triangle (A B C) at the half edge [e] from A to B, at [v] from A.
    The new half edges [n], [n + 2] and [n + 4] go from V to A, B and C. *)
Record face_inserted {K : ExactReal} (n : nat) (s u : flat K) (e : nat) (v : pt) : Prop := {
  fi_surface : flat_surface (n + 6) u;
  fi_faces : inserted_faces n (fT s) (fT u) e;
  fi_old : forall h, (h < n)%nat -> vv u h = vv s h;
  fi_new : vv u (neg n) = v
}.

(** The faces after putting a vertex V on the half edge [e] from A to B of the triangles [(e f g)] and [(-e x y)] with the vertices
    A B C and B A D.  The new half edges [n], [n + 2] and [n + 4] go from V to A, B and C, and [-e] now goes from V to D. *)
Definition edge_inserted_faces (n : nat) (t t' : tri) (e : nat) : Prop :=
  let f := nF t e in let g := nF t f in let x := nF t (neg e) in let y := nF t x in
  let a := n in let b := (n + 2)%nat in let c := (n + 4)%nat in
  nF t' b = f /\ nF t' f = neg c /\ nF t' (neg c) = b /\
  nF t' c = g /\ nF t' g = neg a /\ nF t' (neg a) = c /\
  nF t' a = x /\ nF t' x = e /\ nF t' e = a /\
  nF t' (neg e) = y /\ nF t' y = neg b /\ nF t' (neg b) = neg e /\
  forall i, (i < n)%nat -> ~ In i [e; f; g; neg e; x; y] -> nF t' i = nF t i.
Record edge_inserted {K : ExactReal} (n : nat) (s u : flat K) (e : nat) (v : pt) : Prop := {
  ei_surface : flat_surface (n + 6) u;
  ei_faces : edge_inserted_faces n (fT s) (fT u) e;
  ei_old : forall h, (h < n)%nat -> h <> e -> h <> neg e -> vv u h = vv s h;
  ei_first : vv u (neg n) = v;
  ei_second : padd v (vv u (n + 2)) = vv s e
}.

(** ** Images of points *)
(** The corners of the triangle before the insertion and where they are when A is at the origin, ... *)
Inductive corner_domain {K : ExactReal} (s : flat K) (e : nat) : nat -> pt -> Prop :=
| cd_A : corner_domain s e e (0, 0)
| cd_B : corner_domain s e (fF s e) (vv s e)
| cd_C : corner_domain s e (fF s (fF s e)) (padd (vv s e) (vv s (fF s e))).
(** ... and the ones of the triangles after the insertion. *)
Inductive corner_in_face {K : ExactReal} (n : nat) (s : flat K) (e : nat) (v : pt) : nat -> pt -> Prop :=
| cf_A h : h = e \/ h = neg n -> corner_in_face n s e v h (0, 0)
| cf_B h : h = fF s e \/ h = neg (n + 2) -> corner_in_face n s e v h (vv s e)
| cf_C h : h = fF s (fF s e) \/ h = neg (n + 4) -> corner_in_face n s e v h (padd (vv s e) (vv s (fF s e)))
| cf_V h : h = n \/ h = (n + 2)%nat \/ h = (n + 4)%nat -> corner_in_face n s e v h v.
(** A point of [s] and a point of [u] that are the same point of the plane. *)
Inductive face_image {K : ExactReal} (n : nat) (s u : flat K) (e : nat) (v : pt) : rep -> rep -> Prop :=
| ff_outside k w : (k < n)%nat -> ~ In k [e; fF s e; fF s (fF s e)] -> weights w -> face_image n s u e v (k, w) (k, w)
| ff_inside k x w k' x' w' : corner_domain s e k x -> corner_in_face n s e v k' x' -> weights w -> weights w' ->
    padd x (place s k w) = padd x' (place u k' w') -> face_image n s u e v (k, w) (k', w').

(** The same when V is on the edge [e]; the corners of both triangles. *)
Inductive corner_on_edge {K : ExactReal} (n : nat) (s : flat K) (e : nat) (v : pt) : nat -> pt -> Prop :=
| ce_A h : h = neg n \/ h = fF s (neg e) -> corner_on_edge n s e v h (0, 0)
| ce_B h : h = fF s e \/ h = neg (n + 2) -> corner_on_edge n s e v h (vv s e)
| ce_C h : h = fF s (fF s e) \/ h = neg (n + 4) -> corner_on_edge n s e v h (padd (vv s e) (vv s (fF s e)))
| ce_D h : h = e \/ h = fF s (fF s (neg e)) -> corner_on_edge n s e v h (vv s (fF s (neg e)))
| ce_V h : h = n \/ h = (n + 2)%nat \/ h = (n + 4)%nat \/ h = neg e -> corner_on_edge n s e v h v.
Inductive edge_image {K : ExactReal} (n : nat) (s u : flat K) (e : nat) (v : pt) : rep -> rep -> Prop :=
| fe_outside k w : (k < n)%nat -> ~ In k (around_edge s e) -> weights w -> edge_image n s u e v (k, w) (k, w)
| fe_inside k x w k' x' w' : corner_before s e k x -> corner_on_edge n s e v k' x' -> weights w -> weights w' ->
    padd x (place s k w) = padd x' (place u k' w') -> edge_image n s u e v (k, w) (k', w').

(** ** Flips on the way *)
(** The direction [v] at the half edge [h] of a surface, carried along flips of other edges and when turning to the sector that
    contains it. *)
Inductive carried {K : ExactReal} (v : pt) : list nat -> flat K -> nat -> flat K -> nat -> Prop :=
| ca_same s h : carried v [] s h s h
| ca_flip s s0 e s1 h l s' h' : e <> h -> e <> neg h -> fclone s = Ok s0 -> fflip s0 e = (s1, Ok tt) -> carried v l s1 h s' h' ->
    carried v (e :: l) s h s' h'
| ca_turn s h h1 l s' h' : 0 <= pdet (vv s h) v -> first_ccw s h v h1 -> carried v l s h1 s' h' -> carried v l s h s' h'.
