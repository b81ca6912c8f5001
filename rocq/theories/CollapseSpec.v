(** * What a triangulation is after an edge has been collapsed *)
From Coq Require Import List Arith.
From Verif Require Import Base HalfEdge Perm IndexedSet Combinatorial CombinatorialSpec.
Import ListNotations.

Section collapse.
Variables (n : nat) (t : tri) (e : nat).
(** The triangles of [e] and [-e] are [(e x p)] and [(-e c q)]. *)
Definition side_x : nat := nF t e.
Definition side_p : nat := nF t (nF t e).
Definition side_c : nat := nF t (neg e).
Definition side_q : nat := nF t (nF t (neg e)).

(** The sides of the two triangles are five different edges. *)
Definition five_edges : Prop :=
  NoDup [e; neg e; side_x; neg side_x; side_p; neg side_p; side_c; neg side_c; side_q; neg side_q].
(** The two triangles have five different edges as sides, or four; with four, they form a cylinder whose boundary is two of its sides. *)
Definition collapsible : Prop :=
  five_edges \/
  (side_c = neg side_x /\ NoDup [e; neg e; side_x; neg side_x; side_p; neg side_p; side_q; neg side_q]) \/
  (side_q = neg side_p /\ NoDup [e; neg e; side_x; neg side_x; side_p; neg side_p; side_c; neg side_c]).
(** There is no boundary. *)
Definition no_boundary : Prop := forall h, h < n -> nF t h <> h.

(** The half edges of the two triangles. *)
Definition vanishes (h : nat) : Prop := In h [e; side_x; side_p; neg e; side_c; side_q].
(** The half edges that are dropped: when [e] is a point, [x] and [-p], and [-q] and [c], are the same; one of each is kept. *)
Definition dropped (h : nat) : Prop := In h [e; neg e; side_x; neg side_x; side_q; neg side_q].
(** The half edges that are kept for [-x] and [-q].  If the triangles have two sides in common, then all of [-x], [p], [-q], [c] that remain are the same. *)
Definition keep_p : nat := if side_p =? neg side_q then side_c else side_p.
Definition keep_c : nat := if side_c =? neg side_x then side_p else side_c.
(** The half edge that stands for a half edge of the other triangles. *)
Definition rep (h : nat) : nat := if h =? neg side_x then keep_p else if h =? neg side_q then keep_c else h.

(** [t'] has the triangles of [t] except for the two at [e]; [label] is the new label of the half edges that are not dropped. *)
Definition collapsed (t' : tri) (label : nat -> nat) : Prop :=
  (forall h, h < n -> ~ dropped h -> label h < n - 6 /\ label (neg h) = neg (label h)) /\
  (forall h g, h < n -> g < n -> ~ dropped h -> ~ dropped g -> label h = label g -> h = g) /\
  (forall i, i < n - 6 -> exists h, h < n /\ ~ dropped h /\ label h = i) /\
  (forall h, h < n -> ~ vanishes h -> nF t' (label (rep h)) = label (rep (nF t h))).

(** The half edges start at the same vertex once the ends of [e] are identified. *)
Definition merged (h g : nat) : Prop :=
  same_vertex t h g \/ ((same_vertex t e h \/ same_vertex t (neg e) h) /\ (same_vertex t e g \/ same_vertex t (neg e) g)).
End collapse.
