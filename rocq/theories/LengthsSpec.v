(** * What the lengths of an interval exchange transformation are *)
From Coq Require Import ZArith Reals List Arith.
From Verif Require Import Base HalfEdge ExactReal Vector PlaneSpec FlatTri FlatSpec Saddle SaddleSpec Vertical VerticalSpec Lengths LengthsSubtract.
Import ListNotations.
Local Open Scope R_scope.

Section spec.
Context {K : ExactReal}.
Local Notation conn := (@sconn K).

(** A saddle connection in the surface [s]. *)
Definition on (n : nat) (s : flat K) (c : conn) : Prop := sc_valid n c /\ sc_surface c = s.
(** How far a saddle connection goes to the right when [v] points up. *)
Definition conn_width (n : nat) (v : pt) (c : conn) : R := pdet (sv n c) v.
(** The width of the connection of a label. *)
Definition label_width (n : nat) (v : pt) (l : list (option conn)) (label : nat) : R :=
  match nth label l None with Some c => conn_width n v c | None => 0 end.

(** The connections across the intervals of a contour up to the label [last]. *)
Fixpoint until (last : nat) (contour : list (nat * list conn)) : list (list conn) :=
  match contour with
  | [] => []
  | (label, cross) :: r => cross :: if (label =? last)%nat then [] else until last r
  end.
(** The path from the left end of the minuend to the right end of the last subtrahend: down on the left and then to the right. *)
Definition path_across (onTop : bool) (left : list conn) (contour : list (nat * list conn)) (last : nat) : list conn :=
  if onTop then rev left ++ concat (until last contour)
  else map sc_neg left ++ concat (map (fun cross => map sc_neg (rev cross)) (until last contour)).
(** How far a path goes to the right. *)
Definition conn_widths (n : nat) (v : pt) (l : list conn) : R := rsum (map (conn_width n v) l).
(** The half edge at the end of a path. *)
Definition path_end (start : nat) (l : list conn) : nat := last (map sc_target l) start.

(** The sectors at [h] and [g] have directions in the same half plane to the left of [v] at the same vertex: the half plane begins in the sector at [e]. *)
Definition same_left_plane (s : flat K) (v : pt) (h g : nat) : Prop :=
  exists e a b, Nat.iter a (fV s) e = h /\ Nat.iter b (fV s) e = g /\ 0 <= rightwards s v e /\
    forall i, (0 < i <= a \/ 0 < i <= b)%nat -> rightwards s v (Nat.iter i (fV s) e) < 0.
(** Turning clockwise from [h], the half edge [e] is the first that points to the right. *)
Definition first_right (s : flat K) (v : pt) (h e : nat) : Prop :=
  exists a, Nat.iter a (fV s) e = h /\ 0 < rightwards s v e /\ forall i, (0 < i <= a)%nat -> rightwards s v (Nat.iter i (fV s) e) <= 0.

(** Lengths that are made from a vertical by pushing, popping, and subtracting; no subtraction makes a length zero or negative. *)
Inductive lengths_history (n : nat) (s : flat K) (V : vec K) : lengths K -> Prop :=
| lh_made m c l : make_vertical s V = Ok m -> (forall x, In (Some x) c -> on n s x) -> make_lengths m c = Ok l -> lengths_history n s V l
| lh_push l label l' : lengths_history n s V l -> push l label = Ok l' -> lengths_history n s V l'
| lh_pop l l' : lengths_history n s V l -> pop l = Ok l' -> lengths_history n s V l'
| lh_subtract l fuel minuend onTop left contour iterations l' : lengths_history n s V l -> (n + 1 < fuel)%nat ->
    (forall x, In x left \/ (exists cross, In x (snd cross) /\ In cross contour) -> on n s x) ->
    0 < label_width n (vden V) (le_lengths l) minuend - IZR iterations * conn_widths n (vden V) (path_across onTop left contour (hd 0%nat (le_stack l))) ->
    subtract_iterations fuel l minuend onTop left contour iterations = Ok l' -> lengths_history n s V l'.
End spec.
