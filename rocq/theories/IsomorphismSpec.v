(** * What an isomorphism of surfaces is *)
From Coq Require Import ZArith Reals List Arith Bool.
From Verif Require Import Base HalfEdge PlaneSpec ExactReal Vector FlatTri FlatSpec DeformSpec EquivalenceSpec.

Section spec.
Context {K : ExactReal}.
Implicit Types s u : flat K.

(** A predicate on matrices that does not depend on the representation of their coefficients. *)
Definition by_value (p : K -> K -> K -> K -> bool) : Prop :=
  forall a b c d a' b' c' d', den a = den a' -> den b = den b' -> den c = den c' -> den d = den d' -> p a b c d = p a' b' c' d'.

(** ** Delaunay cells *)
(** The corners of the two triangles at [x] are on a circle. *)
Definition cocircular s (x : nat) : Prop := exists o r2, circumscribed s x o r2 /\ dist2 (opposite_corner s x) o = r2.
(** The sides of the cells. *)
Definition side (n : nat) s (x : nat) : Prop := x < n /\ ~ cocircular s x.
(** [y] follows [x] on the boundary of a cell: when turning counterclockwise from [y] there are no sides before [-x]. *)
Definition next_side (n : nat) s (x y : nat) : Prop :=
  side n s x /\ side n s y /\ exists k, 0 < k /\ Nat.iter k (fV s) y = neg x /\ forall j, 0 < j < k -> cocircular s (Nat.iter j (fV s) y).
(** A bijection of the sides of the cells that is induced by a matrix and maps cells to cells. *)
Definition cell_isomorphism (n m : nat) s u (a b c d : R) (f : nat -> nat) : Prop :=
  (exists g, (forall x, side n s x -> side m u (f x) /\ g (f x) = x) /\ (forall y, side m u y -> side n s (g y) /\ f (g y) = y)) /\
  (forall x, side n s x -> f (neg x) = neg (f x) /\ vv u (f x) = papply a b c d (vv s x)) /\
  ((0 < a * d - b * c)%R /\ (forall x y, next_side n s x y -> next_side m u (f x) (f y)) \/
   (a * d - b * c < 0)%R /\ (forall x y, next_side n s x y -> next_side m u (neg (f y)) (neg (f x)))).
End spec.
