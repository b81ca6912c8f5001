(** * What the images of paths should be when vertices are shifted *)
From Coq Require Import ZArith Reals List Arith.
From Verif Require Import Base HalfEdge Combinatorial CombinatorialSpec ExactReal Vector PlaneSpec FlatTri FlatSpec ChainSpec Saddle SaddleSpec SearchSpec CrossingsSpec.
Import ListNotations.

Section group.
Context {G : Type} (mul : G -> G -> G) (one : G) (inv : G -> G).
Definition group : Prop :=
  (forall a b c, mul a (mul b c) = mul (mul a b) c) /\ (forall a, mul one a = a) /\ (forall a, mul a one = a) /\
  (forall a, mul (inv a) a = one) /\ (forall a, mul a (inv a) = one).
Definition product (l : list G) : G := fold_right mul one l.

Context {K : ExactReal} (n : nat) (s : flat K).
(** To each half edge belongs an element of the group, such that going back along a half edge or around a triangle gives nothing. *)
Definition cocycle (d : nat -> G) : Prop :=
  (forall h, h < n -> d (neg h) = inv (d h)) /\ (forall h, h < n -> mul (d h) (mul (d (fF s h)) (d (fF s (fF s h)))) = one).
(** The triangles that are passed by a saddle connection are unfolded with [d] as their sides.  The half edge [h] starts at [p] and is crossed
    into the triangle on the other side, then the half edges [l] are crossed; this is where the last triangle has its third vertex. *)
Fixpoint unfolded (d : nat -> G) (p : G) (h : nat) (l : list nat) : G :=
  match l with
  | [] => mul p (d (fF s (neg h)))
  | g :: l => if g =? fF s (neg h) then unfolded d p g l else unfolded d (mul p (d (fF s (neg h)))) g l
  end.
(** The end of the saddle connection in the sector at [h] that crosses [l]. *)
Definition unfolded_end (d : nat -> G) (h : nat) (l : list nat) : G :=
  match l with [] => d h | g :: l => unfolded d (d h) g l end.
End group.

Section path.
Context {K : ExactReal}.
(** The half edges [l] lead from the vertex at [a] to the vertex at [b]. *)
Fixpoint route (n : nat) (s : flat K) (a : nat) (l : list nat) (b : nat) : Prop :=
  match l with [] => same_vertex (fT s) a b | h :: l => h < n /\ same_vertex (fT s) a h /\ route n s (neg h) l b end.
(** The saddle connections [p] lead from the vertex at [a] to the vertex at [b]. *)
Fixpoint leads_to (s : flat K) (a : nat) (p : list (sconn K)) (b : nat) : Prop :=
  match p with [] => same_vertex (fT s) a b | x :: p => sc_surface x = s /\ same_vertex (fT s) a (sc_source x) /\ leads_to s (sc_target x) p b end.
(** The half edges [l] are a path that can be pulled tight to the saddle connection [v] in the sector at [h] (in the triangles that it passes):
    they have the same product, whatever the group is. *)
Definition homotopic (n : nat) (s : flat K) (h : nat) (v : pt) (l : list nat) : Prop :=
  exists c, crossed s h v c /\ forall (G : Type) (mul : G -> G -> G) one inv d, group mul one inv -> cocycle mul one inv n s d ->
    product mul one (map d l) = unfolded_end mul s d h (map snd c).
(** A saddle connection of the surface. *)
Definition segment_of (n : nat) (s : flat K) (x : sconn K) : Prop :=
  sc_surface x = s /\ sc_valid n x /\ connection s (sc_source x) (sv n x) (sc_target x).
(** The vector from the start of a path to its end. *)
Definition total (n : nat) (p : list (sconn K)) : pt := fold_right padd (0, 0)%R (map (sv n) p).
End path.
