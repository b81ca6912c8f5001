(** * FlatTriangulation::isomorphism

    Model of /repo/libflatsurf/src/flat_triangulation.cc (FT), lines 953-1098; documented in flatsurf/flat_triangulation.hpp (FTH) 108-118 and flatsurf/isomorphism.hpp.

    The exact division (linear_deformation_relation.cc:120-131) is given by the parameter [truediv], see [exact_division] in PointSpec.v.
    The recursion of [match] and the loops that look for the next half edge of a cell get fuel.
    The deformation that is returned is the composition of a [LinearDeformationRelation] and a [GenericRetriangulationDeformationRelation]; here we return the data these are created from.
    How this deformation acts on points and paths is not modelled. *)
From Coq Require Import ZArith List Arith Bool.
From Verif Require Import Base HalfEdge Perm IndexedSet Combinatorial ExactReal Vector FlatTri.
Import ListNotations.

(** isomorphism.hpp:27-38. *)
Inductive ISOMORPHISM := FACES | DELAUNAY_CELLS.

Section isomorphism.
Context {K : ExactReal}.
Notation F := (flat K).
Variable truediv : K -> K -> option K.
Variable fuel : nat.

(** The arguments of the relations that make up the result (FT:1074-1089): the matrix and the codomain of the linear map, and the half edge of this codomain that is identified with a half edge of the other surface. *)
Record isomorphism_result := mkIso { is_matrix : K * K * K * K; is_linear : F; is_preimage : halfedge; is_image : halfedge }.

(** FT:963-968, [ignore] and [ignoreImage]. *)
Definition ignore (kind : ISOMORPHISM) (s : F) (he : halfedge) : outcome bool :=
  match kind with
  | FACES => Ok false
  | DELAUNAY_CELLS => do d <- delaunay_edge s (edge_of he); Ok (match d with AMBIGUOUS => true | _ => false end)
  end.
(** FT:979-984, the first half edge that is not ignored. *)
Fixpoint first_half_edge (kind : ISOMORPHISM) (s : F) (l : list halfedge) : outcome halfedge :=
  match l with
  | [] => Throw
  | he :: r => do b <- ignore kind s he; if b then first_half_edge kind s r else Ok he
  end.
(** The loops in FT:993-995, FT:1002-1004 and FT:1006-1008. *)
Fixpoint turn_ignoring (k : nat) (kind : ISOMORPHISM) (s : F) (step : halfedge -> outcome halfedge) (e : halfedge) : outcome halfedge :=
  match k with
  | O => OutOfFuel
  | S k =>
    do e <- step e;
    do b <- ignore kind s e;
    if b then turn_ignoring k kind s step e else Ok e
  end.
(** FT:991-997, [nextInCell]. *)
Definition next_in_cell (kind : ISOMORPHISM) (s : F) (e : halfedge) : outcome halfedge := turn_ignoring fuel kind s (previousAtVertex (fT s)) (neg e).
(** FT:999-1011, [nextInImageCell]; [same] is [sgn == 1]. *)
Definition next_in_image_cell (kind : ISOMORPHISM) (same : bool) (u : F) (e : halfedge) : outcome halfedge :=
  turn_ignoring fuel kind u (if same then previousAtVertex (fT u) else nextAtVertex (fT u)) (neg e).

(** [isomorphism[he]] in FT:1047, for a [HalfEdgeMap] given by the entries that have been set. *)
Definition mapped (m : list (halfedge * halfedge)) (he : halfedge) : option halfedge := option_map snd (find (fun p => fst p =? he) m).
Section match_.
Variables (kind : ISOMORPHISM) (same : bool) (s u : F) (a b c d : K) (filter_map : halfedge -> halfedge -> bool).
(** FT:1046-1071, [match]; the entries of the map after the call, and the result. *)
Fixpoint match_ (k : nat) (m : list (halfedge * halfedge)) (from to : halfedge) : outcome (list (halfedge * halfedge) * bool) :=
  match k with
  | O => OutOfFuel
  | S k =>
    match mapped m from with
    | Some h => Ok (m, h =? to)
    | None =>
      if negb (filter_map from to) then Ok (m, false) else
      do v <- from_he s from;
      do w <- from_he u to;
      if negb (reqb (a * vx v + b * vy v)%X (vx w)) then Ok (m, false) else
      if negb (reqb (c * vx v + d * vy v)%X (vy w)) then Ok (m, false) else
      let m := (from, to) :: m in
      do (m, ok) <- match_ k m (neg from) (neg to);
      if negb ok then Ok (m, false) else
      do x <- next_in_cell kind s from;
      do y <- next_in_image_cell kind same u to;
      do (m, ok) <- match_ k m x y;
      if negb ok then Ok (m, false) else
      Ok (m, true)
    end
  end.
End match_.

(** FT:1013-1036, the matrix that maps two half edges of a cell to two half edges of the image cell, if its coefficients exist; [continue] is [None]. *)
Definition matrix_of (kind : ISOMORPHISM) (same : bool) (s u : F) (preimage image : halfedge) : outcome (option (K * K * K * K)) :=
  do v <- from_he s preimage;
  do x <- next_in_cell kind s preimage;
  do w <- from_he s x;
  do v' <- from_he u image;
  do y <- next_in_image_cell kind same u image;
  do w' <- from_he u y;
  let denominator := (vx v * vy w - vy v * vx w)%X in
  Ok (match truediv (vx v' * vy w - vy v * vx w')%X denominator, truediv (vx v * vx w' - vx v' * vx w)%X denominator,
            truediv (vy v' * vy w - vy v * vy w')%X denominator, truediv (vx v * vy w' - vy v' * vx w)%X denominator with
      | Some a, Some b, Some c, Some d => if eqb same (rltb (b * c) (a * d))%X then Some (a, b, c, d) else None
      | _, _, _, _ => None
      end).
(** FT:1074-1083, the codomain of the linear map. *)
Definition linear_codomain (same : bool) (s : F) (m : K * K * K * K) : outcome F :=
  let '(a, b, c, d) := m in
  do t <- (if same then clone (fT s) else reverse (fT s));
  make_flat t (fun e => do v <- from_he s e; Ok (mkVec (vx v * a + vy v * b)%X (vx v * c + vy v * d)%X)).
(** FT:1085-1092, the loop over the half edges of the surface. *)
Fixpoint first_mapped (m : list (halfedge * halfedge)) (l : list halfedge) : outcome (halfedge * halfedge) :=
  match l with
  | [] => Throw
  | he :: r => match mapped m he with Some h => Ok (he, h) | None => first_mapped m r end
  end.
(** FT:990-1093, the body of the loop over the signs. *)
Definition try_image (kind : ISOMORPHISM) (filter_matrix : K -> K -> K -> K -> bool) (filter_map : halfedge -> halfedge -> bool) (s u : F) (preimage image : halfedge) (same : bool) : outcome (option isomorphism_result) :=
  do m <- matrix_of kind same s u preimage image;
  match m with
  | None => Ok None
  | Some (a, b, c, d) =>
    if negb (filter_matrix a b c d) then Ok None else
    do (f, ok) <- match_ kind same s u a b c d filter_map fuel [] preimage image;
    if negb ok then Ok None else
    do l <- linear_codomain same s (a, b, c, d);
    do (he, h) <- first_mapped f (half_edges (fT s));
    Ok (Some (mkIso (a, b, c, d) l he h))
  end.
(** FT:986-1095, the loop over the images. *)
Fixpoint try_images (kind : ISOMORPHISM) (filter_matrix : K -> K -> K -> K -> bool) (filter_map : halfedge -> halfedge -> bool) (s u : F) (preimage : halfedge) (l : list halfedge) : outcome (option isomorphism_result) :=
  match l with
  | [] => Ok None
  | image :: r =>
    do b <- ignore kind u image;
    if b then try_images kind filter_matrix filter_map s u preimage r else
    do x <- try_image kind filter_matrix filter_map s u preimage image true;
    match x with Some i => Ok (Some i) | None =>
    do y <- try_image kind filter_matrix filter_map s u preimage image false;
    match y with Some i => Ok (Some i) | None => try_images kind filter_matrix filter_map s u preimage r end end
  end.
(** FT:953-1098, [isomorphism]. *)
Definition isomorphism (kind : ISOMORPHISM) (filter_matrix : K -> K -> K -> K -> bool) (filter_map : halfedge -> halfedge -> bool) (s u : F) : outcome (option isomorphism_result) :=
  do bs <- has_boundary (fT s);
  do bu <- has_boundary (fT u);
  if negb (eqb bs bu) then Ok None else
  if negb (length (half_edges (fT s)) =? length (half_edges (fT u))) then Ok None else
  if bs then Throw else
  do preimage <- first_half_edge kind s (half_edges (fT s));
  try_images kind filter_matrix filter_map s u preimage (half_edges (fT u)).

(** FTH:116-117, the default arguments. *)
Definition only_identity (a b c d : K) : bool := reqb a (rofZ 1) && reqb b (rofZ 0) && reqb c (rofZ 0) && reqb d (rofZ 1).
Definition any_map (from to : halfedge) : bool := true.
End isomorphism.
