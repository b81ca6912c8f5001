(** * What the saddle connections of a surface are *)
From Coq Require Import ZArith Reals List Arith.
From Verif Require Import Base HalfEdge Combinatorial CombinatorialSpec ExactReal Vector PlaneSpec FlatTri FlatSpec ChainSpec Saddle SaddleSpec Search.
Import ListNotations.
Local Open Scope R_scope.

Section search.
Context {K : ExactReal}.
Variable s : flat K.

(** A vertex is at the origin, and the surface is unfolded into the plane; then [h] starts at [p].  The direction [v] lies strictly between
    the start and the end of [h]. *)
Definition crosses (p : pt) (h : nat) (v : pt) : Prop := 0 < pdet p v /\ 0 < pdet v (padd p (vv s h)).
(** The ray from the origin in the direction [v] crosses [h], which starts at [p], into the triangle on the other side; the first vertex on it is at
    [v] and, seen from there, the origin is in the sector at [g]. *)
Inductive hits : pt -> nat -> pt -> nat -> Prop :=
| hits_vertex p h : fF s (neg h) <> neg h -> crosses p h (padd p (vv s (fF s (neg h)))) ->
    hits p h (padd p (vv s (fF s (neg h)))) (fF s (fF s (neg h)))
| hits_right p h v g : fF s (neg h) <> neg h -> crosses p h v -> hits p (fF s (neg h)) v g -> hits p h v g
| hits_left p h v g : fF s (neg h) <> neg h -> crosses p h v -> hits (padd p (vv s (fF s (neg h)))) (fF s (fF s (neg h))) v g -> hits p h v g.
(** There is a saddle connection [v] in the sector between [h] (included) and the next half edge around the vertex; seen from
    its end it is in the sector at [g]. *)
Definition connection (h : nat) (v : pt) (g : nat) : Prop :=
  fF s h <> h /\ ((v = vv s h /\ g = neg h) \/ hits (vv s h) (fF s h) v g).

(** Moves from triangle to triangle: the half edge and where it ends. *)
Definition moved (m : move) (x : nat * pt) : nat * pt :=
  match m with
  | GOTO_NEXT_EDGE => (fF s (fst x), padd (snd x) (vv s (fF s (fst x))))
  | GOTO_OTHER_FACE => (neg (fst x), padd (snd x) (vv s (neg (fst x))))
  | GOTO_PREVIOUS_EDGE => (fF s (fF s (fst x)), padd (snd x) (pneg (vv s (fst x))))
  end.
Definition moved_all (l : list move) (x : nat * pt) : nat * pt := fold_left (fun x m => moved m x) l x.
(** Moves within a face are in a triangle. *)
Fixpoint possible (l : list move) (x : nat * pt) : Prop :=
  match l with
  | [] => True
  | m :: l => (match m with GOTO_OTHER_FACE => True | _ => fF s (fst x) <> fst x end) /\ possible l (moved m x)
  end.
End search.

Section sectors.
Context {K : ExactReal}.
(** The direction [v] is in the part of the sector at its source. *)
Definition in_part (x : ssector K) (v : pt) : Prop := match sec_sector x with None => True | Some (b, e) => in_sector v (vden b) (vden e) end.
(** The part is between the half edge and the next half edge around the vertex. *)
Definition part_ok (s : flat K) (x : ssector K) : Prop :=
  match sec_sector x with
  | None => True
  | Some (b, e) =>
    let u := vv s (sec_source x) in let w := vv s (fV s (sec_source x)) in
    0 <= pdet u (vden b) /\ 0 < pdet (vden b) w /\ 0 <= pdet u (vden e) /\ 0 <= pdet (vden e) w /\ 0 <= pdet (vden b) (vden e) /\
    vden e <> (0, 0)
  end.
Definition sectors_ok (n : nat) (s : flat K) (l : list (ssector K)) : Prop :=
  forall x, In x l -> (sec_source x < n)%nat /\ (fF s (sec_source x) <> sec_source x -> part_ok s x).
(** What is to be found in a sector: the connections in the right directions of suitable length. *)
Definition wanted (cs : conns K) (x : ssector K) (v : pt) (g : nat) : Prop :=
  connection (cn_surface cs) (sec_source x) v g /\ in_part x v /\
  IZR (cn_lower cs) < pdot v v /\ match cn_radius cs with None => True | Some r => pdot v v <= IZR r end.
End sectors.
