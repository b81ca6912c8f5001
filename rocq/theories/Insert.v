(** * Inserting marked points

    Model of flat_triangulation.cc:497-647 (FT), insert_marked_point_in_face_deformation_relation.cc (IF) and
    insert_marked_point_on_edge_deformation_relation.cc (IE), all in /repo/libflatsurf/src.  The deformation that [insertAt] returns is
    given by its parts: the half edges that are flipped and the insertion in the end.  The images of paths and the sections of the
    insertions are not modelled. *)
From Coq Require Import ZArith List Arith Bool.
From Verif Require Import Base HalfEdge Perm IndexedSet Combinatorial ExactReal Vector FlatTri Point.
Import ListNotations.

Section insert.
Context {K : ExactReal}.
Local Notation S := (flat K).
Local Notation V := (vec K).
Local Notation P := (point K).

(** FT:502-511, [check_orientation]. *)
Definition check_orientation (connection vector : V) : outcome unit :=
  match orientation (vsub connection vector) vector with SAME => Ok tt | _ => Throw end.

(** FT:539-546, [canFlip]. *)
Definition may_flip (s : S) (nextTo : halfedge) (e : halfedge) : outcome bool :=
  do n <- nextAtVertex (fT s) nextTo;
  if (e =? nextTo) || (e =? neg nextTo) || (e =? n) || (e =? neg n) then Ok false else
  convex s e true.

(** FT:560-564, flip a clone. *)
Definition flipped_clone (s : S) (e : halfedge) : outcome S :=
  do u <- fclone s;
  match fflip u e with (u, Ok _) => Ok u | (_, x) => stop x end.

(** FT:536-565, [flip]: the surface after the flips and the half edges that were flipped. *)
Fixpoint insert_flip (fuel : nat) (s : S) (nextTo : halfedge) (vector : V) (e : halfedge) : outcome (S * list halfedge) :=
  match fuel with
  | O => OutOfFuel
  | Datatypes.S k =>
    do ok <- may_flip s nextTo e;
    if ok then do u <- flipped_clone s e; Ok (u, [e])
    else
      do p <- previousAtVertex (fT s) e;
      do v <- from_he s p;
      do (s, l) <- (if negb (ccw_eqb (ccw vector v) COUNTERCLOCKWISE)
        then do q <- nextAtVertex (fT s) (neg e); insert_flip k s nextTo vector (neg q)
        else insert_flip k s nextTo vector p);
      do (s, l') <- insert_flip k s nextTo vector e;
      Ok (s, l ++ l')
  end.

(** FT:571-572, turn to the sector of the vector. *)
Fixpoint insert_turn (fuel : nat) (s : S) (nextTo : halfedge) (vector : V) : outcome halfedge :=
  match fuel with
  | O => OutOfFuel
  | Datatypes.S k =>
    do n <- nextAtVertex (fT s) nextTo;
    do w <- from_he s n;
    if negb (ccw_eqb (ccw w vector) CLOCKWISE) then insert_turn k s n vector else Ok nextTo
  end.

(** FT:515-574, flip the half edges that the vector crosses. *)
Fixpoint insert_loop (fuel : nat) (s : S) (nextTo : halfedge) (vector : V) : outcome (S * halfedge * list halfedge) :=
  match fuel with
  | O => OutOfFuel
  | Datatypes.S k =>
    do base <- from_he s nextTo;
    if ccw_eqb (ccw base vector) COLLINEAR then do _ <- check_orientation base vector; Ok (s, nextTo, [])
    else
      do crossing <- nextInFace (fT s) nextTo;
      do c <- from_he s crossing;
      if ccw_eqb (ccw c (vsub vector base)) COUNTERCLOCKWISE then Ok (s, nextTo, [])
      else
        do (s, l) <- insert_flip k s nextTo vector crossing;
        do nextTo <- insert_turn k s nextTo vector;
        do (s, nextTo, l') <- insert_loop k s nextTo vector;
        Ok (s, nextTo, l ++ l')
  end.

(** FT:576-579, [symmetric]. *)
Definition symmetric (x e : halfedge) (v : V) : V := if x =? e then v else vneg v.

(** impl/insert_marked_point_in_face_deformation_relation.hpp and impl/insert_marked_point_on_edge_deformation_relation.hpp, the
    members other than the surfaces. *)
Inductive insertion :=
| InFace (inserted : bits)
| OnEdge (inserted : bits) (split a b : halfedge).

(** FT:581-599, the vector ends inside of the face at [nextTo]. *)
Definition insert_in_face (s : S) (nextTo : halfedge) (vector : V) : outcome (S * insertion) :=
  do u <- fclone s;
  do t <- insert_at (fT u) nextTo;
  do n <- nextAtVertex t nextTo;
  let a := neg n in
  do b <- nextAtVertex t a;
  do c <- nextAtVertex t b;
  do t' <- clone t;
  do codomain <- make_flat t' (fun e =>
    if edge_of e =? edge_of a then Ok (symmetric e a (vneg vector))
    else if edge_of e =? edge_of b then do v <- from_he s nextTo; Ok (symmetric e b (vsub v vector))
    else if edge_of e =? edge_of c then do m <- nextAtVertex (fT s) nextTo; do v <- from_he s m; Ok (symmetric e c (vsub v vector))
    else from_he s e);
  do v <- vertex_source (fT codomain) a;
  Ok (codomain, InFace v).

(** FT:600-632, the vector ends on the half edge [nextTo]. *)
Definition insert_on_edge (s : S) (nextTo : halfedge) (vector : V) : outcome (S * halfedge * insertion) :=
  do u <- fclone s;
  do t <- insert_at (fT u) nextTo;
  do n <- nextAtVertex t nextTo;
  let a := neg n in
  do t <- match flip t nextTo with (t, Ok _) => Ok t | (_, x) => stop x end;
  do b <- nextAtVertex t a;
  do c <- nextAtVertex t b;
  do d <- nextAtVertex t c;
  do t' <- clone t;
  do codomain <- make_flat t' (fun e =>
    if edge_of e =? edge_of a then Ok (symmetric e (neg a) vector)
    else if edge_of e =? edge_of b then do m <- previousAtVertex (fT s) nextTo; do v <- from_he s m; Ok (symmetric e b (vsub v vector))
    else if edge_of e =? edge_of c then do v <- from_he s nextTo; Ok (symmetric e c (vsub v vector))
    else if edge_of e =? edge_of d then do m <- nextAtVertex (fT s) nextTo; do v <- from_he s m; Ok (symmetric e d (vsub v vector))
    else from_he s e);
  do p <- previousAtVertex (fT s) nextTo;
  do v <- vertex_source (fT codomain) a;
  Ok (codomain, p, OnEdge v nextTo (neg a) c).

(** What [insertAt] returns: the half edges that are flipped, the surface after that, the final surface, the half edge [nextTo] and
    the insertion. *)
Record inserted := mkInserted { in_flips : list halfedge; in_domain : S; in_codomain : S; in_next : halfedge; in_relation : insertion }.
(** FT:496-633, [insertAt]. *)
Definition finsert_at (fuel : nat) (s : S) (nextTo : halfedge) (vector : V) : outcome inserted :=
  do ok <- in_sector_at s nextTo vector;
  if negb ok then Throw else
  do (s, nextTo, l) <- insert_loop fuel s nextTo vector;
  do v <- from_he s nextTo;
  if negb (ccw_eqb (ccw v vector) COLLINEAR)
  then do (u, r) <- insert_in_face s nextTo vector; Ok (mkInserted l s u nextTo r)
  else do (u, nextTo, r) <- insert_on_edge s nextTo vector; Ok (mkInserted l s u nextTo r).

(** The exact division of the coordinates, see [exact_division] in PointSpec.v. *)
Variable truediv : K -> K -> option K.

(** FT:635-647, [insert]. *)
Definition finsert (fuel : nat) (s : S) (p : P) : outcome inserted :=
  do v <- point_vertex s p;
  match v with
  | Some _ => Throw
  | None =>
    let nextTo := match point_edge p with Some e => positive e | None => pface p end in
    do v <- point_vector truediv s p nextTo;
    finsert_at fuel s nextTo v
  end.

(** vertex.cc:65-70, the smallest element of [incoming]. *)
Definition first_incoming (v : bits) : halfedge := sbegin (sof_list (map neg (filter (scontains v) (seq 0 (length v))))).

(** IF:104-111 and IE:127-129, [point]; a vector that leaves the face is UB here, see [translate] in Point.v. *)
Definition insertion_point (s u : S) (r : insertion) : outcome P :=
  do p <- match r with
    | InFace v => let AV := first_incoming v in do AB <- previousAtVertex (fT u) AV; do w <- from_he u AV; make_point_vector truediv s AB w
    | OnEdge _ split a _ => do w <- from_he u a; make_point_vector truediv s split w
    end;
  match p with Some p => Ok p | None => UB end.

(** IF:60-83, the loop over the half edges of the face. *)
Fixpoint in_face_loop (s u : S) (p : P) (face : halfedge) (sides : list halfedge) : outcome P :=
  match sides with
  | [] => Throw
  | AB :: r =>
    do (ap, bp, cp) <- coordinates s p face;
    do BV <- nextInFace (fT u) AB;
    do A <- rotate u (mkPoint AB 1%X 0%X 0%X) BV;
    do (va, ba, ca) <- crossed u A;
    let v_p := (ap * va)%X in
    let b_p := (ap * ba + bp * (va + ba + ca))%X in
    let c_p := (ap * ca + cp * (va + ba + ca))%X in
    if nonneg v_p && nonneg b_p && nonneg c_p then make_point u (neg BV) v_p b_p c_p
    else in_face_loop s u p face r
  end.

(** IE:67-68, the loop. *)
Fixpoint on_edge_face (fuel : nat) (s : S) (p : P) (face : halfedge) : outcome halfedge :=
  match fuel with
  | O => OutOfFuel
  | Datatypes.S k => do b <- point_on s p (edge_of face); if (b : bool) then Ok face else do f <- nextInFace (fT s) face; on_edge_face k s p f
  end.

(** IE:70-107, the image of a point of a face with the new vertex on the half edge [face]. *)
Definition on_edge_point (s u : S) (p : P) (face : halfedge) : outcome P :=
  do (ap, bp, cp) <- coordinates s p face;
  let AB := face in
  do BC <- nextInFace (fT s) AB;
  do CA <- nextInFace (fT s) BC;
  do VC <- previousInFace (fT u) CA;
  do A <- rotate u (mkPoint CA 0%X 1%X 0%X) VC;
  do (ca, va, ba) <- crossed u A;
  let c_p := (ap * ca + cp * (ca + va + ba))%X in
  let v_p := (ap * va)%X in
  let b_p := (ap * ba + bp * (ca + va + ba))%X in
  if nonneg c_p && nonneg v_p && nonneg b_p then make_point u (neg VC) c_p v_p b_p
  else
    do B <- rotate u (mkPoint BC 1%X 0%X 0%X) (neg VC);
    do (vb, cb, ab) <- crossed u B;
    let v_p := (bp * vb)%X in
    let c_p := (bp * cb + cp * (vb + cb + ab))%X in
    let a_p := (bp * ab + ap * (vb + cb + ab))%X in
    if nonneg v_p && nonneg c_p && nonneg a_p then make_point u VC v_p c_p a_p
    else Throw.

(** IF:48-84 and IE:51-108, [operator()(Point)]: the image and the surface that it is on; a point that is not close to the inserted vertex
    is returned as it is. *)
Definition insertion_image (s u : S) (r : insertion) (p : P) : outcome (S * P) :=
  do v <- insertion_point s u r;
  let face := pface p in
  do i <- point_in s v face;
  if negb i then Ok (s, p) else
  match r with
  | InFace _ =>
    do f <- nextInFace (fT s) face;
    do g <- previousInFace (fT s) face;
    do q <- in_face_loop s u p face [face; f; g];
    Ok (u, q)
  | OnEdge _ _ _ _ =>
    do face <- on_edge_face 3 s v face;
    do q <- on_edge_point s u p face;
    Ok (u, q)
  end.
End insert.
Arguments inserted K : clear implicits.
