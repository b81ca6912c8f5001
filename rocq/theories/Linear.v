(** * Deformations by linear maps

    Model of /repo/libflatsurf/src/linear_deformation_relation.cc (LDR) without the images of paths.
    The exact division [truediv] is a parameter, see [exact_division] in PointSpec.v. *)
From Coq Require Import ZArith List Arith Bool.
From Verif Require Import Base HalfEdge Perm IndexedSet Combinatorial ExactReal Vector FlatTri Point.
Import ListNotations.

Section linear.
Context {K : ExactReal}.
(** LDR:119-131, [truediv]. *)
Variable truediv : K -> K -> option K.

(** LDR:56-69, [section]: the matrix of the section. *)
Definition linear_section (a b c d : K) : outcome (K * K * K * K) :=
  let det := (a * d - b * c)%X in
  match truediv a det, truediv b det, truediv c det, truediv d det with
  | Some aa, Some bb, Some cc, Some dd => Ok (aa, bb, cc, dd)
  | _, _, _, _ => Throw
  end.

(** LDR:75, [positive]: all that the images of paths use of the matrix. *)
Definition linear_positive (a b c d : K) : bool := (0 <? a * d - b * c)%X.

(** LDR:102-106, the image of a point; [s] is the domain and [u] the codomain. *)
Definition linear_point (s u : flat K) (p : point K) : outcome (point K) :=
  do w <- coordinates s p (pface p); make_point_array u (pface p) w.

(** LDR:108-114, [trivial]. *)
Definition linear_trivial (s u : flat K) (a b c d : K) : outcome bool :=
  if (a =? 1)%X && (b =? 0)%X && (c =? 0)%X && (d =? 1)%X then flat_eqb s u else Ok false.
End linear.
