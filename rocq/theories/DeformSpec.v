(** * What deformations should do *)
From Coq Require Import ZArith Reals List Arith.
From Verif Require Import Base HalfEdge Perm PermFacts Combinatorial CombinatorialOps ExactReal Vector PlaneSpec FlatTri FlatSpec Point PointSpec Saddle SaddleSpec Deform.
Import ListNotations.
Local Open Scope R_scope.

Section spec.
Context {K : ExactReal}.
Implicit Types s u : flat K.

(** A translation surface without boundary. *)
Definition closed_flat (n : nat) s : Prop := flat_surface n s /\ closed_surface n s.
(** Two triangulations that are the same. *)
Definition same_surface (n : nat) s u : Prop := forall h, (h < n)%nat -> fF u h = fF s h /\ fV u h = fV s h /\ vv u h = vv s h.

(** The vector of a saddle connection: the vector of its chain. *)
Definition sdir (n : nat) (x : segment K) : pt := cvector n (sg_over x) (sg_chain x).
(** [x] has a vector and leaves its source and its target into sectors that contain this vector. *)
Definition departs (n : nat) (x : segment K) : Prop :=
  closed_flat n (sg_surface x) /\ closed_flat n (sg_over x) /\ length (sg_chain x) = (n / 2)%nat /\
  (sg_source x < n)%nat /\ (sg_target x < n)%nat /\ sdir n x <> (0, 0) /\
  sector_contains (sg_surface x) (sg_source x) (sdir n x) /\ sector_contains (sg_surface x) (sg_target x) (pneg (sdir n x)).
(** It is a saddle connection of [s], and so is its chain. *)
Definition seg_on (n : nat) s (x : segment K) : Prop :=
  departs n x /\ same_surface n (sg_surface x) s /\ same_surface n (sg_over x) s.

(** The direction [d] leaves a vertex in the sector at [h] of [s]; when the edge [e] is flipped, the same direction is in the sector at [h']: either the
    sector at [h] is still there (or has become larger), or [h] was the edge and the sector before it has become larger, or the sector at [h] has been cut by the new edge [h']. *)
Definition same_corner s u (e h h' : nat) (d : pt) : Prop :=
  sector_contains s h d /\ sector_contains u h' d /\
  ((h' = h /\ h <> e /\ h <> neg e) \/ ((h = e \/ h = neg e) /\ fV s h' = h) \/ ((h' = e \/ h' = neg e) /\ fV u h = h')).

(** The same for a linear map of determinant [det] followed by renaming each half edge [h] to [sigma h]: when orientation is reversed, then the sector between [h] and the next half edge is
    mapped to the sector that starts at the image of that next half edge; directions along [h] are mapped to directions along the image of [h]. *)
Definition corner_image s (sigma : nat -> nat) (det : R) (h : nat) (d : pt) (h' : nat) : Prop :=
  (0 < det -> h' = sigma h) /\
  (det < 0 -> pdet (vv s h) d = 0 -> h' = sigma h) /\
  (det < 0 -> pdet (vv s h) d <> 0 -> h' = sigma (fV s h)).

(** The renaming that a relabeling uses. *)
Definition renaming (n : nat) (r : perm) : Prop := wfp n r /\ edge_map n r.

(** The deformations of closed surfaces that can be made with [relabel], [applyMatrix], [flip], [section], [trivial] and [operator*]. *)
Inductive made (truediv : K -> K -> option K) (fuel n : nat) : relation K -> Prop :=
| made_trivial s : closed_flat n s -> made truediv fuel n (RTrivial s)
| made_flip s u e : closed_flat n s -> (e < n)%nat -> fflip s e = (u, Ok tt) -> made truediv fuel n (RFlip s u e)
| made_linear s a b c d r : closed_flat n s -> deform_matrix s a b c d = Ok r -> made truediv fuel n r
| made_relabel s m r : closed_flat n s -> renaming n m -> deform_relabel s m = Ok r -> made truediv fuel n r
| made_section f r : made truediv fuel n f -> relation_section truediv f = Ok r -> made truediv fuel n r
| made_compose f g r f' g' : made truediv fuel n f -> made truediv fuel n g -> compose fuel f g = Ok (r, f', g') -> made truediv fuel n r.

(** No edges are flipped. *)
Fixpoint no_flips (r : relation K) : Prop :=
  match r with RFlip _ _ _ => False | RComposite l r => no_flips l /\ no_flips r | _ => True end.
(** All linear maps preserve orientation. *)
Fixpoint preserving (r : relation K) : Prop :=
  match r with RLinear _ _ a b c d => 0 < den a * den d - den b * den c | RComposite l r => preserving l /\ preserving r | _ => True end.
End spec.
