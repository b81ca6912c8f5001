(** * Deforming a surface by shifting its vertices *)
From Coq Require Import ZArith QArith Reals List Arith.
From Verif Require Import Base HalfEdge Perm IndexedSet Combinatorial CombinatorialSpec ExactReal Vector PlaneSpec Arb Quadratic QuadraticSpec FlatTri FlatSpec.
Import ListNotations.
Local Open Scope R_scope.

Section deformation.
Context {K : ExactReal}.
Variable n : nat.

(** The shift of a half edge as a vector in the real plane. *)
Definition dd (d : list (vec K)) (h : nat) : pt := vden (nth h d vzero).

(** A shift of the half edges of [s]: opposite half edges are shifted by opposite vectors and the sides of a triangle still close up. *)
Definition shift_of (s : flat K) (d : list (vec K)) : Prop :=
  length d = n /\ (forall e, (e < n)%nat -> dd d (neg e) = pneg (dd d e)) /\
  (forall e, (e < n)%nat -> padd (padd (dd d e) (dd d (fF s e))) (dd d (fF s (fF s e))) = (0, 0)).

(** The vector of the half edge [h] at the time [t]. *)
Definition moving (s : flat K) (d : list (vec K)) (t : R) (h : nat) : pt := padd (vv s h) (pscale t (dd d h)).

(** All triangles are nondegenerate and turn counterclockwise until time [c]. *)
Definition positive_until (s : flat K) (d : list (vec K)) (c : R) : Prop :=
  forall t e, 0 <= t <= c -> (e < n)%nat -> 0 < pdet (moving s d t e) (moving s d t (fF s e)).
(** No edge shrinks to a point. *)
Definition none_vanishes (s : flat K) (d : list (vec K)) : Prop :=
  forall t e, 0 <= t <= 1 -> (e < n)%nat -> moving s d t e <> (0, 0).

(** [s2] is [s1] at the time [c], and [d2] is the part of the shift that remains. *)
Definition moved_to (s1 : flat K) (d1 : list (vec K)) (c : R) (s2 : flat K) (d2 : list (vec K)) : Prop :=
  flat_surface n s2 /\ shift_of s2 d2 /\
  forall e, (e < n)%nat -> fF s2 e = fF s1 e /\ fV s2 e = fV s1 e /\ vv s2 e = moving s1 d1 c e /\ dd d2 e = pscale (1 - c) (dd d1 e).
(** [s2] is [s1] with the edge [e] replaced by the other diagonal of the convex quadrilateral formed by its two triangles. *)
Definition flipped_to (s1 : flat K) (d1 : list (vec K)) (e : nat) (s2 : flat K) (d2 : list (vec K)) : Prop :=
  can_flip n s1 e /\ flat_surface n s2 /\ shift_of s2 d2 /\ flipped_faces n (fT s1) (fT s2) e /\
  vv s2 e = pneg (padd (vv s1 (fF s1 (fF s1 e))) (vv s1 (fF s1 (neg e)))) /\
  dd d2 e = pneg (padd (dd d1 (fF s1 (fF s1 e))) (dd d1 (fF s1 (neg e)))) /\
  forall i, (i < n)%nat -> i <> e -> i <> neg e -> vv s2 i = vv s1 i /\ dd d2 i = dd d1 i.

(** The surface [s] with the shift [d] is deformed continuously to the surface [s'], where the shift [d'] remains.  The triangulation
    changes by flips. *)
Inductive deforms (s : flat K) (d : list (vec K)) : flat K -> list (vec K) -> Prop :=
| deforms_start : deforms s d s d
| deforms_move s1 d1 c s2 d2 : deforms s d s1 d1 -> 0 < c <= 1 -> positive_until s1 d1 c -> moved_to s1 d1 c s2 d2 -> deforms s d s2 d2
| deforms_flip s1 d1 e s2 d2 : deforms s d s1 d1 -> flipped_to s1 d1 e s2 d2 -> deforms s d s2 d2.

(** Nothing remains to be shifted. *)
Definition done (d : list (vec K)) : Prop := forall h, (h < n)%nat -> dd d h = (0, 0).
End deformation.

(** ** The arithmetic *)
(** The approximations contain the exact value. *)
Definition approximates {K : ExactReal} (approx : Z -> K -> ball) : Prop := forall prec x, within (den x) (approx prec x).
(** Division by integers is exact. *)
Definition divides {K : ExactReal} (quot : K -> Z -> K) : Prop := forall x z, z <> 0%Z -> den (quot x z) * IZR z = den x.
(** The first zeros of the polynomials [P] are found and compared correctly whenever an answer is given. *)
Definition reliable {K : ExactReal} (o : solver K) (P : quad K -> Prop) : Prop :=
  (forall fuel p prec b t, P p -> root o fuel p prec = Ok (Some b) -> critical p t -> enclosed t b) /\
  (forall fuel p q r t u, P p -> P q -> qless o fuel p q = Ok r -> critical p t -> critical q u -> (r = true <-> t < u)).
