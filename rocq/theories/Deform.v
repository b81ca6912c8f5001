(** * Deformations

    Model of /repo/libflatsurf/src/deformation.cc (DE), deformation_relation.cc (DR), trivial_deformation_relation.cc (TDR),
    flip_deformation_relation.cc (FDR), linear_deformation_relation.cc (LDR), combinatorial_deformation_relation.cc (CDR),
    slit_deformation_relation.cc (SDR) and composite_deformation_relation.cc (PDR).

    Not modelled: insert_marked_point_*_deformation_relation.cc (see Insert.v), generic_retriangulation_deformation_relation.cc and
    shift_deformation_relation.cc.  A point does not hold its surface, see Point.v.  The exact division [truediv] is a parameter, see [exact_division]
    in PointSpec.v. *)
From Coq Require Import ZArith List Arith Bool.
From Verif Require Import Base HalfEdge Perm IndexedSet Combinatorial ExactReal Vector FlatTri Point Linear Saddle.
Import ListNotations.

Section deform.
Context {K : ExactReal}.
Local Notation S := (flat K).
Local Notation V := (vec K).
Local Notation P := (point K).
(** LDR:119-131, [truediv]. *)
Variable truediv : K -> K -> option K.
(** The bound for the number of steps in [sector]. *)
Variable fuel : nat.

(** ** Saddle connections *)
(** impl/saddle_connection.impl.hpp and impl/chain.impl.hpp:57: a saddle connection has a surface, and its chain has a surface which need not be the same. *)
Record segment := mkSegment { sg_surface : S; sg_source : halfedge; sg_target : halfedge; sg_chain : zchain; sg_over : S }.
(** A saddle connection and its chain on the same surface. *)
Definition segment_of (x : sconn K) : segment := mkSegment (sc_surface x) (sc_source x) (sc_target x) (sc_chain x) (sc_surface x).
(** saddle_connection.cc:287-290 with chain.cc:67-69, the vector; it is computed from the surface of the chain. *)
Definition sg_vector (x : segment) : outcome V := zc_vector (sg_over x) (sg_chain x).
(** saddle_connection.cc:106-111, [operator==]. *)
Definition sg_eqb (x y : segment) : outcome bool :=
  do e <- flat_eqb (sg_surface x) (sg_surface y);
  if negb e then Ok false else
  do v <- sg_vector x;
  do w <- sg_vector y;
  Ok (veqb v w && (sg_source x =? sg_source y)).
(** impl/path.impl.hpp, the member [path]. *)
Definition trail := list segment.
(** path.cc:261-264, [operator==]: [std::vector::operator==], element by element. *)
Fixpoint segments_equal (p q : trail) : outcome bool :=
  match p, q with
  | [], [] => Ok true
  | x :: p, y :: q => do b <- sg_eqb x y; if b then segments_equal p q else Ok false
  | _, _ => Ok false
  end.
(** path.cc:261-264, [operator==]. *)
Definition trail_eqb (p q : trail) : outcome bool := if length p =? length q then segments_equal p q else Ok false.

(** ** Relations *)
(** impl/*_deformation_relation.hpp: the classes of relations with their members. *)
Inductive relation :=
| RTrivial (s : S)
| RFlip (s u : S) (e : halfedge)
| RLinear (s u : S) (a b c d : K)
| RCombinatorial (s u : S) (mapping : list (halfedge * halfedge)) (relabeling : bool)
| RSlit (s u : S)
| RComposite (lhs rhs : relation).

(** impl/deformation_relation.hpp, the members [domain] and [codomain]; TDR:31-32, PDR:32-33. *)
Fixpoint domain (r : relation) : S :=
  match r with RTrivial s => s | RFlip s _ _ => s | RLinear s _ _ _ _ _ => s | RCombinatorial s _ _ _ => s | RSlit s _ => s | RComposite _ rhs => domain rhs end.
(** The same, for the codomain. *)
Fixpoint codomain (r : relation) : S :=
  match r with RTrivial s => s | RFlip _ u _ => u | RLinear _ u _ _ _ _ => u | RCombinatorial _ u _ _ => u | RSlit _ u => u | RComposite lhs _ => codomain lhs end.

(** [std::unordered_map::find]; following the iterator at the end is undefined. *)
Definition lookup_map (mapping : list (halfedge * halfedge)) (h : halfedge) : option halfedge :=
  match find (fun p => fst p =? h) mapping with Some (_, g) => Some g | None => None end.
(** CDR:98, 100, 112, 139, [mapping.find(...)->second]. *)
Definition map_to (mapping : list (halfedge * halfedge)) (h : halfedge) : outcome halfedge :=
  match lookup_map mapping h with Some g => Ok g | None => UB end.
(** CDR:49-72, the loop of the constructor. *)
Fixpoint relabels (s u : S) (mapping : list (halfedge * halfedge)) (es : list edge) (relabeling : bool) : outcome bool :=
  match es with
  | [] => Ok relabeling
  | e :: es =>
    match lookup_map mapping (positive e) with
    | None => relabels s u mapping es false
    | Some g =>
      do v <- from_he s (positive e);
      do w <- from_he u g;
      if negb (veqb v w) then Ok false else relabels s u mapping es relabeling
    end
  end.
(** CDR:42-73. *)
Definition make_combinatorial (s u : S) (mapping : list (halfedge * halfedge)) : outcome relation :=
  do b <- relabels s u mapping (edges (fT s)) true; Ok (RCombinatorial s u mapping b).
(** CDR:75-85, the constructor from a permutation. *)
Definition make_combinatorial_perm (s u : S) (r : perm) : outcome relation :=
  do m <- omap (fun h => do g <- papp r h; Ok (h, g)) (seq 0 (psize r)); make_combinatorial s u m.

(** ** Images of points *)
(** CDR:106-116. *)
Definition combinatorial_point (s u : S) (mapping : list (halfedge * halfedge)) (relabeling : bool) (p : P) : outcome P :=
  if negb relabeling then Throw else
  do image <- map_to mapping (pface p);
  do w <- coordinates s p (pface p);
  make_point_array u image w.
(** TDR:39-42, FDR:64-98, LDR:100-104, SDR:39-42, PDR:43-46. *)
Fixpoint relation_point (r : relation) (p : P) : outcome P :=
  match r with
  | RTrivial _ => Ok p
  | RFlip s u e => flip_point s u e p
  | RLinear s u _ _ _ _ => linear_point s u p
  | RCombinatorial s u m b => combinatorial_point s u m b p
  | RSlit _ _ => Throw
  | RComposite lhs rhs => do q <- relation_point rhs p; relation_point lhs q
  end.

(** ** Images of paths *)
(** FDR:46-60. *)
Definition flip_segment (s u : S) (e : halfedge) (x : segment) : outcome segment :=
  do source <- (if (sg_source x =? e) || (sg_source x =? neg e) then previousAtVertex (fT s) (sg_source x) else Ok (sg_source x));
  do target <- (if (sg_target x =? e) || (sg_target x =? neg e) then previousAtVertex (fT s) (sg_target x) else Ok (sg_target x));
  do v <- sg_vector x;
  do source <- sector_turn fuel u source COUNTERCLOCKWISE v false;
  do w <- zc_vector (sg_over x) (zc_neg (sg_chain x));
  do target <- sector_turn fuel u target COUNTERCLOCKWISE w false;
  Ok (mkSegment u source target (sg_chain x) (sg_over x)).
(** LDR:79-80. *)
Fixpoint copy_chain (u : S) (es : list edge) (c : zchain) (d : zchain) : outcome zchain :=
  match es with
  | [] => Ok d
  | e :: es =>
    do z <- vget c (edge_index e);
    do x <- zc_half_edge u (positive e);
    do d <- zc_op Z.add d (map (Z.mul z) x);
    copy_chain u es c d
  end.
(** LDR:77-95. *)
Definition linear_segment (s u : S) (a b c d : K) (x : segment) : outcome segment :=
  do chain <- copy_chain u (edges (fT s)) (sg_chain x) (zc_zero u);
  do source <- (if linear_positive a b c d then Ok (sg_source x) else nextAtVertex (fT s) (sg_source x));
  do target <- (if linear_positive a b c d then Ok (sg_target x) else nextAtVertex (fT s) (sg_target x));
  do v <- zc_vector u chain;
  do source <- sector_turn fuel u source COUNTERCLOCKWISE v false;
  do w <- zc_vector u (zc_neg chain);
  do target <- sector_turn fuel u target COUNTERCLOCKWISE w false;
  Ok (mkSegment u source target chain u).
(** CDR:97-98; the iterator skips coefficients that are zero. *)
Fixpoint map_chain (u : S) (mapping : list (halfedge * halfedge)) (c : zchain) (i : nat) (d : zchain) : outcome zchain :=
  match c with
  | [] => Ok d
  | z :: c =>
    if (z =? 0)%Z then map_chain u mapping c (Datatypes.S i) d else
    do g <- map_to mapping (2 * i);
    do x <- zc_half_edge u g;
    do d <- zc_op Z.add d (map (Z.mul z) x);
    map_chain u mapping c (Datatypes.S i) d
  end.
(** CDR:94-101. *)
Definition combinatorial_segment (u : S) (mapping : list (halfedge * halfedge)) (x : segment) : outcome segment :=
  do chain <- map_chain u mapping (sg_chain x) 0 (zc_zero u);
  do source <- map_to mapping (sg_source x);
  do target <- map_to mapping (sg_target x);
  Ok (mkSegment u source target chain u).
(** TDR:34-37, FDR:43-62, LDR:71-98, CDR:87-104, SDR:34-37, PDR:35-41; none of these returns std::nullopt. *)
Fixpoint relation_path (r : relation) (p : trail) : outcome trail :=
  match r with
  | RTrivial _ => Ok p
  | RFlip s u e => omap (flip_segment s u e) p
  | RLinear s u a b c d => omap (linear_segment s u a b c d) p
  | RCombinatorial s u m relabeling => if negb relabeling then Throw else omap (combinatorial_segment u m) p
  | RSlit _ _ => Throw
  | RComposite lhs rhs => do q <- relation_path rhs p; relation_path lhs q
  end.

(** ** Trivial relations *)
(** DR:33-35, the loop over the edges. *)
Fixpoint fixes_edges (r : relation) (es : list edge) : outcome bool :=
  match es with
  | [] => Ok true
  | e :: es =>
    do x <- sc_half_edge (domain r) (positive e);
    do p <- relation_path r [segment_of x];
    do y <- sc_half_edge (codomain r) (positive e);
    do b <- trail_eqb p [segment_of y];
    if b then fixes_edges r es else Ok false
  end.
(** DR:28-38. *)
Definition generic_trivial (r : relation) : outcome bool :=
  do b <- flat_eqb (domain r) (codomain r);
  if negb b then Ok false else fixes_edges r (edges (fT (domain r))).
(** CDR:138-142, the loop over the edges. *)
Fixpoint identical (mapping : list (halfedge * halfedge)) (es : list edge) : outcome bool :=
  match es with
  | [] => Ok true
  | e :: es => do g <- map_to mapping (positive e); if g =? positive e then identical mapping es else Ok false
  end.
(** TDR:54-57, FDR:110-113, LDR:106-112, CDR:133-143, SDR:54-57, PDR:58-66. *)
Fixpoint relation_trivial (r : relation) : outcome bool :=
  match r with
  | RTrivial _ => Ok true
  | RFlip _ _ _ => Ok false
  | RLinear s u a b c d => linear_trivial s u a b c d
  | RCombinatorial s u m relabeling => if negb relabeling then Ok false else identical m (edges (fT s))
  | RSlit _ _ => Ok false
  | RComposite lhs rhs =>
    do l <- relation_trivial lhs;
    if l then relation_trivial rhs else
    do r' <- relation_trivial rhs;
    if r' then relation_trivial lhs else
    generic_trivial r
  end.
(** DE:142-153, [trivial]; replaces a relation that turns out to be trivial. *)
Definition deformation_trivial (r : relation) : outcome (bool * relation) :=
  do b <- relation_trivial r;
  Ok (if b then (true, RTrivial (domain r)) else (false, r)).

(** ** Sections and compositions *)
(** TDR:49-52, FDR:105-108, LDR:57-69, CDR:123-131, SDR:49-52, PDR:53-56. *)
Fixpoint relation_section (r : relation) : outcome relation :=
  match r with
  | RTrivial s => Ok (RTrivial s)
  | RFlip s u e => Ok (RFlip u s e)
  | RLinear s u a b c d => do (aa, bb, cc, dd) <- linear_section truediv a b c d; Ok (RLinear u s aa bb cc dd)
  | RCombinatorial s u m _ => make_combinatorial u s (map (fun p => (snd p, fst p)) m)
  | RSlit s u => Ok (RSlit u s)
  | RComposite lhs rhs => do l <- relation_section rhs; do r' <- relation_section lhs; Ok (RComposite l r')
  end.
(** DE:125-135, [operator*]; the result, and the two factors after the call. *)
Definition compose (lhs rhs : relation) : outcome (relation * relation * relation) :=
  do e <- flat_eqb (codomain rhs) (domain lhs);
  if negb e then Throw else
  do (b, lhs) <- deformation_trivial lhs;
  if b then Ok (rhs, lhs, rhs) else
  do (b, rhs) <- deformation_trivial rhs;
  if b then Ok (lhs, lhs, rhs) else
  Ok (RComposite lhs rhs, lhs, rhs).

(** DE:117-122, the image of a point; [s] is the surface of the point. *)
Definition deformation_point (r : relation) (s : S) (p : P) : outcome P :=
  do e <- flat_eqb s (domain r);
  if negb e then Throw else relation_point r p.
(** DE:101-110, the image of a half edge. *)
Definition deformation_half_edge (r : relation) (h : halfedge) : outcome halfedge :=
  do x <- sc_half_edge (domain r) h;
  do p <- relation_path r [segment_of x];
  match p with
  | [y] =>
    do z <- sc_half_edge (codomain r) (sg_source y);
    do b <- sg_eqb y (segment_of z);
    if b then Ok (sg_source y) else Throw
  | _ => Throw
  end.

(** flat_triangulation.cc:664-671, [relabel]. *)
Definition deform_relabel (s : S) (r : perm) : outcome relation := do u <- frelabel s r; make_combinatorial_perm s u r.
(** flat_triangulation.cc:734-754, [applyMatrix]. *)
Definition deform_matrix (s : S) (a b c d : K) : outcome relation := do u <- apply_matrix s a b c d; Ok (RLinear s u a b c d).
(** tracked.cc:88-91, a tracked deformation when the half edge [e] of its codomain has been flipped. *)
Definition deform_flip (r : relation) (e : halfedge) : outcome relation :=
  do u <- fclone (codomain r);
  match fflip u e with
  | (u, Ok _) => do (r, _, _) <- compose (RFlip (codomain r) u e) r; Ok r
  | (_, x) => stop x
  end.
End deform.
Arguments relation K : clear implicits.
Arguments segment K : clear implicits.
