(** * What it means for surfaces to be isomorphic *)
From Coq Require Import ZArith Reals List Arith.
From Verif Require Import Base HalfEdge PlaneSpec ExactReal Vector FlatTri FlatSpec DeformSpec Equivalence.

(** The matrices of the groups: the identity, matrices that keep areas, all invertible matrices. *)
Definition in_group (g : GROUP) (a b c d : R) : Prop :=
  match g with
  | TRIVIAL => a = 1%R /\ b = 0%R /\ c = 0%R /\ d = 1%R
  | SL => (a * d - b * c = 1 \/ a * d - b * c = -1)%R
  | GL => (a * d - b * c <> 0)%R
  end.

Section spec.
Context {K : ExactReal}.
Implicit Types s u : flat K.

(** Any half edge can be reached from any other one by going to the other half edge of an edge and to the next half edge of a triangle. *)
Definition connected (n : nat) s : Prop :=
  forall P : nat -> Prop, (exists x, x < n /\ P x) -> (forall x, x < n -> P x -> P (neg x) /\ P (fF s x)) -> forall x, x < n -> P x.
(** A closed connected surface. *)
Definition closed_connected (n : nat) s : Prop := closed_flat n s /\ connected n s /\ 0 < n.

(** A bijection between the half edges that respects edges. *)
Definition edge_bijection (n m : nat) (f : nat -> nat) : Prop :=
  (exists g, (forall x, x < n -> f x < m /\ g (f x) = x) /\ (forall y, y < m -> g y < n /\ f (g y) = y)) /\
  (forall x, x < n -> f (neg x) = neg (f x)).
(** The triangles of [s] are glued like the triangles of [u]. *)
Definition same_gluing (n m : nat) s u (f : nat -> nat) : Prop :=
  edge_bijection n m f /\ (forall x, x < n -> f (fF s x) = fF u (f x)).
(** The triangles of [s] are glued like the triangles of [u] seen in a mirror: going around a vertex of [s] counterclockwise is going around a vertex of [u] clockwise. *)
Definition mirror_gluing (n m : nat) s u (f : nat -> nat) : Prop :=
  edge_bijection n m f /\ (forall x, x < n -> fV u (f (fV s x)) = f x).
(** [f] is induced by a map that is given by a matrix in each triangle. *)
Definition affine_gluing (n m : nat) s u (a b c d : R) (f : nat -> nat) : Prop :=
  (forall x, x < n -> vv u (f x) = papply a b c d (vv s x)) /\
  ((0 < a * d - b * c)%R /\ same_gluing n m s u f \/ (a * d - b * c < 0)%R /\ mirror_gluing n m s u f).
(** [f] is induced by a matrix of the group [g], which keeps the orientation if [oriented]. *)
Definition linear_isomorphism (g : GROUP) (oriented : bool) (n m : nat) s u (f : nat -> nat) : Prop :=
  exists a b c d, affine_gluing n m s u a b c d f /\ in_group g a b c d /\ (oriented = true -> (0 < a * d - b * c)%R).
End spec.
