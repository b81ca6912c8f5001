(** * Interval exchange transformations

    Model of /repo/libflatsurf/src/interval_exchange_transformation.cc (IE) and of the contours of contour_component.cc (CC), for surfaces that are
    not collapsed.  The object of the library intervalxt that is built from the labels of two contours is represented by the two lists of labels. *)
From Coq Require Import ZArith List Arith Bool.
From Verif Require Import Base HalfEdge Combinatorial ExactReal Vector FlatTri Saddle Vertical Lengths.
Import ListNotations.

Section iet.
Context {K : ExactReal}.
Local Notation S := (flat K).
Local Notation V := (vec K).

(** CC:176-199, [makeContour]; the half edges that are appended to the contour are returned. *)
Fixpoint make_contour (fuel : nat) (m : vertical K) (source : halfedge) : outcome (list halfedge * vertical K) :=
  match fuel with
  | O => OutOfFuel
  | Datatypes.S k =>
    do (c, m) <- classify_face 3 m source;
    match c with
    | BACKWARD =>
      do g <- previousInFace (fT (vt_surface m)) source;
      do (l, m) <- make_contour k m (neg g);
      do f <- nextInFace (fT (vt_surface m)) source;
      do (r, m) <- make_contour k m (neg f);
      Ok (l ++ r, m)
    | FORWARD | COLLAPSED_TO_TWO_FACES => Ok ([source], m)
    | _ => Throw
    end
  end.

(** impl/interval_exchange_transformation.impl.hpp:56-61, the members. *)
Record iet := mkIet {
  ie_surface : S;
  ie_lengths : lengths K;
  ie_top : list nat;
  ie_bottom : list nat
}.

(** IE:192-198, the connections of the edges in the top contour. *)
Fixpoint contour_lengths (s : S) (top : list halfedge) (l : list (option (@sconn K))) : outcome (list (option (@sconn K))) :=
  match top with
  | [] => Ok l
  | e :: r => do c <- sc_half_edge s e; do l <- vset l (edge_index (edge_of e)) (Some c); contour_lengths s r l
  end.
(** The number of times that a half edge is in a list. *)
Definition occurrences (e : halfedge) (l : list halfedge) : nat := length (filter (Nat.eqb e) l).
(** IE:217, equality of multisets. *)
Definition same_multiset (l r : list halfedge) : bool := forallb (fun e => occurrences e l =? occurrences e r) (l ++ r).
(** IE:211-215, [connected]; decrementing the end of an empty vector is UB. *)
Fixpoint connected_contour (t : tri) (l : list halfedge) : outcome bool :=
  match l with
  | [] => UB
  | [_] => Ok true
  | e :: (f :: _) as r =>
    do v <- vertex_target t e;
    do w <- vertex_source t f;
    if vertex_eqb v w then connected_contour t r else Ok false
  end.
(** IE:60-63 and IE:181-221, the constructor from two contours. *)
Definition make_iet (s : S) (vertical : V) (top bottom : list halfedge) : outcome iet :=
  do nonzero <- contour_lengths s top (repeat None (tsize (fT s) / 2));
  do m <- make_vertical s vertical;
  do l <- make_lengths m nonzero;
  let labels := map (fun e => edge_index (edge_of e)) in
  if negb (same_multiset top bottom) then Throw else
  do c <- connected_contour (fT s) top;
  if negb c then Throw else
  do c <- connected_contour (fT s) bottom;
  if negb c then Throw else
  Ok (mkIet s l (labels top) (labels bottom)).

(** IE:68-80, the two contours of a large half edge. *)
Definition large_contours (fuel : nat) (s : S) (vertical : V) (source : halfedge) : outcome (list halfedge * list halfedge) :=
  do m <- make_vertical s vertical;
  do (l, _) <- large m source;
  if negb l then Throw else
  do m <- make_vertical s vertical;
  do (top, _) <- make_contour fuel m source;
  do m <- make_vertical s (vneg vertical);
  do (bottom, _) <- make_contour fuel m (neg source);
  Ok (top, map neg (rev bottom)).
(** IE:65-82, the constructor from a large half edge. *)
Definition iet_from_large (fuel : nat) (s : S) (vertical : V) (source : halfedge) : outcome iet :=
  do (top, bottom) <- large_contours fuel s vertical source;
  make_iet s vertical top bottom.

(** IE:146-149, [edge]; the index of the edge is the label. *)
Definition iet_edge (t : iet) (label : nat) : nat := label.
(** IE:176-178, [operator[]]. *)
Definition iet_connection (t : iet) (label : nat) : outcome (@sconn K) :=
  do o <- vget (le_lengths (ie_lengths t)) label;
  match o with Some c => Ok c | None => UB end.
(** IE:164-169, the inner loop of [forget]: the labels are numbered in the order of the top contour. *)
Fixpoint position (label : nat) (l : list nat) : option nat :=
  match l with
  | [] => None
  | x :: r => if x =? label then Some 0 else option_map Datatypes.S (position label r)
  end.
Fixpoint forget_bottom (top bottom : list nat) : list nat :=
  match bottom with
  | [] => []
  | b :: r => match position b top with Some i => i :: forget_bottom top r | None => forget_bottom top r end
  end.
(** IE:151-174, [forget]: the lengths of the intervals from left to right and the order of the intervals at the bottom. *)
Definition iet_forget (t : iet) : outcome (list K * list nat) :=
  do l <- omap (get_length (ie_lengths t)) (ie_top t);
  Ok (l, forget_bottom (ie_top t) (ie_bottom t)).
End iet.
Arguments iet K : clear implicits.
