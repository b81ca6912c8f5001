(** * Combinatorial triangulations

    Model of /repo/libflatsurf/src/flat_triangulation_combinatorial.cc (FTC),
    /repo/libflatsurf/src/flat_triangulation_combinatorics.cc (FTCs) and
    /repo/libflatsurf/src/vertex.cc. *)
From Coq Require Import List Arith Bool.
From Verif Require Import Base HalfEdge Perm IndexedSet.
Import ListNotations.

(** impl/flat_triangulation_combinatorial.impl.hpp:80-84: members [vertices],
    [faces], [vertexes].  The members [halfEdges] and [edges] are determined by
    the number of half edges (FTC:186-196, resetEdges sorts by index) and are
    not stored: see [half_edges] and [edges].  The signal [change] is not part of
    this record, see Tracked.v. *)
Record tri := mkTri { tV : perm; tF : perm; tverts : list bits }.

Definition tsize (t : tri) : nat := psize (tV t).

(** FTCs:76-79 with FTC:194-196. *)
Definition half_edges (t : tri) : list halfedge := seq 0 (tsize t).
(** FTCs:86-89 with FTC:186-192; an edge is given by its positive half edge. *)
Definition edges (t : tri) : list edge := map (fun i => 2 * i) (seq 0 (tsize t / 2)).

(** FTCs:47-51. *)
Definition nextInFace (t : tri) (e : halfedge) : outcome halfedge := papp (tF t) e.
(** FTCs:53-57. *)
Definition previousInFace (t : tri) (e : halfedge) : outcome halfedge := ppre (tF t) e.
(** FTCs:59-62. *)
Definition boundary (t : tri) (e : halfedge) : outcome bool := do f <- papp (tF t) e; Ok (f =? e).
(** FTCs:64-68. *)
Definition nextAtVertex (t : tri) (e : halfedge) : outcome halfedge := papp (tV t) e.
(** FTCs:70-74. *)
Definition previousAtVertex (t : tri) (e : halfedge) : outcome halfedge := ppre (tV t) e.

Definition mem_list (e : nat) (l : list nat) : bool := existsb (Nat.eqb e) l.

(** FTC:111-117, the pairs that the face permutation is made of. *)
Definition face_pairs (V : perm) (bnd : list halfedge) : outcome (list (nat * nat)) :=
  omap (fun e =>
          if mem_list e bnd then Ok (e, e)
          else do v <- papp V e; Ok (neg v, e)) (pdomain V).

(** FTC:165-169, [resetVertexes]. *)
Definition reset_vertexes (V : perm) : outcome (list bits) :=
  do cs <- pcycles V; Ok (map sof_list cs).

(** FTC:126-132, faces must be triangles. *)
Fixpoint check_triangles (F : perm) (es : list halfedge) : outcome unit :=
  match es with
  | [] => Ok tt
  | e :: r =>
      do f <- papp F e;
      if f =? e then check_triangles F r
      else
        do g <- papp F f;
        do h <- papp F g;
        if h =? e then check_triangles F r else Throw
  end.

(** FTC:105-134, the constructor from a vertex permutation and a list of boundary half edges. *)
Definition make_tri (V : perm) (bnd : list halfedge) : outcome tri :=
  do ps <- face_pairs V bnd;
  do F <- perm_of_pairs ps;
  if psize V mod 2 =? 0 then
    do vs <- reset_vertexes V;
    do _ <- check_triangles F (pdomain F);
    Ok (mkTri V F vs)
  else Throw.

(** FTC:43-51, the public constructor from vertex cycles: a boundary half edge
    may only be the last entry of its cycle.  Half edges are given by index
    rather than by id (the conversion is [he_of_id]). *)
Definition make_from_cycles (cycles : list (list halfedge)) (bnd : list halfedge) : outcome tri :=
  do V <- perm_of_cycles cycles;
  do t <- make_tri V bnd;
  if forallb (fun c => forallb (fun e => negb (mem_list e bnd)) (removelast c)) cycles
  then Ok t else Throw.

(** vertex.cc:77-89, [afterFlip]; [parent] is the surface with the new permutations. *)
Definition after_flip (V : perm) (flipped : halfedge) (s : bits) : outcome bits :=
  do b <- ppre V (neg flipped);
  do d <- ppre V flipped;
  let s := if scontains s (neg b) then serase s flipped else s in
  let s := if scontains s (neg d) then serase s (neg flipped) else s in
  let s := if scontains s b then sinsert s (neg flipped) else s in
  let s := if scontains s d then sinsert s flipped else s in
  Ok s.

(** How a mutating function ends: the state of the object and whether the function returned. *)
Definition after (A : Type) : Type := (A * outcome unit)%type.

Definition stop {A B} (x : outcome B) : outcome A :=
  match x with
  | Ok _ => UB
  | Throw => Throw
  | UB => UB
  | OutOfFuel => OutOfFuel
  end.

(** FTC:222-254, [flip].  The assertion in line 225 is not part of a release build. *)
Definition flip (t : tri) (e : halfedge) : after tri :=
  match (do a <- nextInFace t e; do b <- nextInFace t a;
         do c <- nextInFace t (neg e); do d <- nextInFace t c; Ok (a, b, c, d)) with
  | Ok (a, b, c, d) =>
      match rmul_cycle (tV t) [b; a; neg e] with
      | Ok V1 =>
          match rmul_cycle V1 [d; c; e] with
          | Ok V2 =>
              match rmul_cycle (tF t) [a; d; e] with
              | Ok F1 =>
                  match rmul_cycle F1 [c; b; neg e] with
                  | Ok F2 =>
                      match omap (after_flip V2 e) (tverts t) with
                      | Ok vs => (mkTri V2 F2 vs, Ok tt)
                      | x => (mkTri V2 F2 (tverts t), stop x)
                      end
                  | x => (mkTri V2 F1 (tverts t), stop x)
                  end
              | x => (mkTri V2 (tF t) (tverts t), stop x)
              end
          | x => (mkTri V1 (tF t) (tverts t), stop x)
          end
      | x => (t, stop x)
      end
  | x => (t, stop x)
  end.

(** A history of flips; it ends at the first flip that does not return. *)
Fixpoint flips (t : tri) (es : list halfedge) : after tri :=
  match es with
  | [] => (t, Ok tt)
  | e :: r => match flip t e with (t', Ok _) => flips t' r | x => x end
  end.

(** vertex.cc:40-42, [Vertex::source]; dereferencing the end iterator is UB. *)
Definition vertex_source (t : tri) (e : halfedge) : outcome bits :=
  match find (fun s => scontains s e) (tverts t) with Some s => Ok s | None => UB end.
(** vertex.cc:44-46, [Vertex::target]. *)
Definition vertex_target (t : tri) (e : halfedge) : outcome bits := vertex_source t (neg e).
(** vertex.cc:34-38, [Vertex::operator==]. *)
Definition vertex_eqb (v w : bits) : bool := sbegin v =? sbegin w.

(** The boundary half edges in the order of [l]. *)
Definition boundary_of (t : tri) (l : list halfedge) : outcome (list halfedge) :=
  do bs <- omap (fun e => do b <- boundary t e; Ok (e, b)) l;
  Ok (map fst (filter snd bs)).

(** FTCs:91-96, [clone]. *)
Definition clone (t : tri) : outcome tri :=
  do bnd <- boundary_of t (pdomain (tF t));
  make_tri (tV t) bnd.

(** FTCs:208-211, [hasBoundary]. *)
Definition has_boundary (t : tri) : outcome bool :=
  do bnd <- boundary_of t (half_edges t); Ok (negb (length bnd =? 0)).

(** FTCs:130-141, [relabel]; the explicit throw and the two CHECKs give [Throw]. *)
Definition relabel (t : tri) (r : perm) : outcome tri :=
  do hb <- has_boundary t;
  if hb then Throw else
  if 2 * (tsize t / 2) =? psize r then
    do ok <- omap (fun e => do p <- papp r (positive e); do q <- papp r (negative e); Ok (q =? neg p)) (edges t);
    if forallb (fun b => b) ok then
      do x <- pmul r (tV t);
      do i <- pinv r;
      do V <- pmul x i;
      make_tri V []
    else Throw
  else Throw.

(** FTCs:110-121, insert [-a] after [e], [-b] after [f] and [-c] after [g] in a cycle. *)
Fixpoint insert_after (e f g a b c : halfedge) (cycle : list halfedge) : list halfedge :=
  match cycle with
  | [] => []
  | x :: r =>
      let rest := insert_after e f g a b c r in
      if x =? e then x :: neg a :: rest
      else if x =? f then x :: neg b :: rest
      else if x =? g then x :: neg c :: rest
      else x :: rest
  end.

(** FTCs:98-128, [insertAt]. *)
Definition insert_at (t : tri) (e : halfedge) : outcome tri :=
  do be <- boundary t e;
  if be then Throw else
  let n := tsize t in
  let a := 2 * (n / 2) in
  let b := 2 * (n / 2 + 1) in
  let c := 2 * (n / 2 + 2) in
  do cycles <- pcycles (tV t);
  do f <- nextInFace t e;
  do g <- nextInFace t f;
  do V <- perm_of_cycles (map (insert_after e f g a b c) cycles ++ [[a; b; c]]);
  do bnd <- boundary_of t (pdomain (tF t));
  make_tri V bnd.

(** [vertices[k] = v] for the unordered_map in slit: a list of pairs with
    distinct keys. *)
Fixpoint map_set (m : list (nat * nat)) (k v : nat) : list (nat * nat) :=
  match m with
  | [] => [(k, v)]
  | (k', v') :: r => if k' =? k then (k, v) :: r else (k', v') :: map_set r k v
  end.

(** FTCs:165-176, the first loop of [slit]. *)
Fixpoint slit_fill (t : tri) (e ee : halfedge) (hs : list halfedge) (m : list (nat * nat)) : outcome (list (nat * nat)) :=
  match hs with
  | [] => Ok m
  | h :: r =>
      do v <- nextAtVertex t h;
      let m' :=
        if h =? e then map_set (map_set m e ee) ee v
        else if v =? neg e then map_set (map_set m h (neg ee)) (neg ee) (neg e)
        else map_set m h v in
      slit_fill t e ee r m'
  end.

(** FTCs:180-186 and 188-194: find the first boundary half edge after [e] at its vertex. *)
Fixpoint find_boundary (fuel : nat) (t : tri) (e current : halfedge) : outcome (option halfedge) :=
  match fuel with
  | O => OutOfFuel
  | S k =>
      if current =? e then Ok None else
      do b <- boundary t current;
      if b then Ok (Some current) else
      do next <- nextAtVertex t current;
      find_boundary k t e next
  end.

Definition split_vertex (t : tri) (e target other : halfedge) (m : list (nat * nat)) : outcome (list (nat * nat)) :=
  do first <- nextAtVertex t e;
  do found <- find_boundary (tsize t) t e first;
  match found with
  | None => Ok m
  | Some current =>
      do v <- papp (tV t) current;
      Ok (map_set (map_set m current target) other v)
  end.

(** FTCs:158-201, [slit]. *)
Definition slit (t : tri) (e : halfedge) : outcome tri :=
  do be <- boundary t e;
  do bne <- boundary t (neg e);
  if be || bne then Throw else
  let ee := 2 * (tsize t / 2) in
  do m <- slit_fill t e ee (half_edges t) [];
  (* lines 180-186: vertices[current] = ee; vertices[e] = self->vertices(current) *)
  do m <- split_vertex t e ee e m;
  (* lines 188-194: vertices[current] = -e; vertices[-ee] = self->vertices(current) *)
  do m <- split_vertex t (neg e) (neg e) (neg ee) m;
  do V <- perm_of_pairs m;
  do bs <- omap (fun h =>
      if (h =? e) || (h =? neg ee) then Ok (h, true)
      else if h =? ee then Ok (h, false)
      else do b <- boundary t h; Ok (h, b)) (pdomain V);
  make_tri V (map fst (filter snd bs)).

(** FTCs:228-231, [operator~]. *)
Definition reverse (t : tri) : outcome tri :=
  do V <- pinv (tV t);
  do bnd <- boundary_of t (half_edges t);
  make_tri V (map neg bnd).

(** FTCs:233-237, [operator==] (of two different objects). *)
Definition tri_eqb (t u : tri) : bool := peqb (tV t) (tV u).

(** FTC:198-220, [swap]. *)
Definition swap_perm (p : perm) (a b : halfedge) : outcome perm :=
  do p <- rmul_cycle p [a; b];
  do p <- lmul_cycle [a; b] p;
  if a =? neg b then Ok p else
  do p <- rmul_cycle p [neg a; neg b];
  lmul_cycle [neg a; neg b] p.
Definition swap (t : tri) (a b : halfedge) : outcome tri :=
  if a =? b then Ok t else
  do V <- swap_perm (tV t) a b;
  do F <- swap_perm (tF t) a b;
  do vs <- reset_vertexes V;
  Ok (mkTri V F vs).

(** FTCs:143-146, [face]. *)
Definition face (t : tri) (e : halfedge) : outcome (halfedge * halfedge * halfedge) :=
  do f <- nextInFace t e; do g <- previousInFace t e; Ok (e, f, g).

(** FTCs:148-156, [faces]. *)
Definition faces (t : tri) : outcome (list (list halfedge)) :=
  do cs <- pcycles (tF t); Ok (filter (fun c => length c =? 3) cs).

(** FTCs:203-206, [atVertex]. *)
Definition at_vertex (t : tri) (v : bits) : outcome (list halfedge) := pcycle (tV t) (sbegin v).
