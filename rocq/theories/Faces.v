(** * Triangulations from faces

    Model of the constructor of FlatTriangulationCombinatorial that takes the
    list of its triangles, /repo/libflatsurf/src/flat_triangulation_combinatorial.cc:56-103 (FTC). *)
From Coq Require Import List Arith Bool.
From Verif Require Import Base HalfEdge Perm IndexedSet Combinatorial.
Import ListNotations.

(** std::unordered_map<HalfEdge, HalfEdge>, FTC:58-59, as the list of its entries. *)
Definition hmap := list (halfedge * halfedge).

(** std::unordered_map::find. *)
Fixpoint lookup (m : hmap) (a : halfedge) : option halfedge :=
  match m with
  | [] => None
  | (x, y) :: r => if x =? a then Some y else lookup r a
  end.

(** std::unordered_map::operator[] followed by an assignment. *)
Fixpoint assign (m : hmap) (a b : halfedge) : hmap :=
  match m with
  | [] => [(a, b)]
  | (x, y) :: r => if x =? a then (x, b) :: r else (x, y) :: assign r a b
  end.

(** std::unordered_map::at throws when the key is missing. *)
Definition at_key (m : hmap) (a : halfedge) : outcome halfedge :=
  match lookup m a with Some b => Ok b | None => Throw end.

(** FTC:58-60, the variables of the lambda. *)
Record gluing := mkGluing { g_initial : hmap; g_final : hmap; g_vertices : hmap; g_nonboundary : bits }.

(** FTC:68-71, an entry is created for a half edge that has none. *)
Definition touch (m : hmap) (a : halfedge) : hmap :=
  match lookup m a with Some _ => m | None => assign m a a end.

(** FTC:62-75, [record]; the assertion in line 64 is not part of a release
    build.  All the entries that lines 73 and 74 read exist at that point. *)
Definition record (g : gluing) (ab : halfedge * halfedge) : outcome gluing :=
  let (a, b) := ab in
  let vertices := assign (g_vertices g) a b in
  let initial := touch (g_initial g) a in
  let final := touch (g_final g) b in
  do i <- at_key initial a;
  do f <- at_key final b;
  let final := assign final i f in
  do f' <- at_key final b;
  do i' <- at_key initial a;
  let initial := assign initial f' i' in
  Ok (mkGluing initial final vertices (sinsert (g_nonboundary g) a)).

(** FTC:78-80, the pairs that are recorded for a face. *)
Definition face_records (f : halfedge * halfedge * halfedge) : list (halfedge * halfedge) :=
  let '(a, b, c) := f in [(a, neg c); (b, neg a); (c, neg b)].

(** FTC:77-81, the loop over all faces. *)
Fixpoint records (g : gluing) (ps : list (halfedge * halfedge)) : outcome gluing :=
  match ps with
  | [] => Ok g
  | p :: r => do g' <- record g p; records g' r
  end.

(** FTC:83-87. *)
Definition boundary_of (nonboundary : bits) : outcome (list halfedge) :=
  do es <- selements nonboundary;
  Ok (map neg (filter (fun e => negb (scontains nonboundary (neg e))) es)).

(** FTC:89-95; the assertions are not part of a release build. *)
Fixpoint close (initial vertices : hmap) (bnd : list halfedge) : outcome hmap :=
  match bnd with
  | [] => Ok vertices
  | h :: r => do i <- at_key initial h; close initial (assign vertices h i) r
  end.

(** FTC:56-97; the order in which the entries of an unordered_map are visited by
    the constructor of Permutation, permutation.cc:100-111, is not specified: it is
    the parameter [order].  The assertion in lines 98-102 is not part of a release build. *)
Definition from_faces (order : hmap -> hmap) (faces : list (halfedge * halfedge * halfedge)) : outcome tri :=
  do g <- records (mkGluing [] [] [] []) (flat_map face_records faces);
  do bnd <- boundary_of (g_nonboundary g);
  do vertices <- close (g_initial g) (g_vertices g) bnd;
  do V <- perm_of_pairs (order vertices);
  make_tri V bnd.
