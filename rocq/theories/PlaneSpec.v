(** * The Euclidean plane: what vectors, orientations and sectors are *)
From Coq Require Import Reals.
From Verif Require Import ExactReal Vector.
Local Open Scope R_scope.

Definition pt : Type := (R * R)%type.
Definition pdet (u v : pt) : R := fst u * snd v - snd u * fst v.
Definition pdot (u v : pt) : R := fst u * fst v + snd u * snd v.
Definition padd (u v : pt) : pt := (fst u + fst v, snd u + snd v).
Definition pneg (u : pt) : pt := (- fst u, - snd u).
Definition pscale (r : R) (u : pt) : pt := (r * fst u, r * snd u).
Definition plength (u : pt) : R := sqrt (pdot u u).

(** Rotation by an angle, counterclockwise. *)
Definition protate (a : R) (u : pt) : pt := (cos a * fst u - sin a * snd u, sin a * fst u + cos a * snd u).

(** Turning counterclockwise from the direction [u], we meet the direction of [v] at the angle [a]. *)
Definition turn (u v : pt) (a : R) : Prop := 0 <= a < 2 * PI /\ exists r, 0 < r /\ v = pscale r (protate a u).

(** Turning counterclockwise from [b] we meet [v], at the start or before we meet [e].
    When [b] and [e] have the same direction the sector consists of that direction. *)
Definition in_sector (v b e : pt) : Prop :=
  exists a c, turn b v a /\ turn b e c /\ (a < c \/ (a = 0 /\ c = 0)).

(** The denotation of a vector. *)
Definition vden {K : ExactReal} (v : vec K) : pt := (den (vx v), den (vy v)).
