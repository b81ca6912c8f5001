(** * Collapsing edges

    Model of [collapse] in /repo/libflatsurf/src/flat_triangulation_combinatorial.cc (FTC).  The objects that are attached to the
    triangulation are an OddHalfEdgeMap and an EdgeSet with the default handlers for swapping and erasing, see Tracked.v. *)
From Coq Require Import List Arith Bool.
From Verif Require Import Base HalfEdge Perm IndexedSet Combinatorial Tracked.
Import ListNotations.

(** FTC:171-183, [resetVertices]. *)
Definition reset_vertices (F : perm) : outcome perm :=
  do ps <- omap (fun e =>
      do f <- papp F e;
      if f =? e then Throw else
      do g <- papp F f;
      if (f =? neg e) && (g =? e) then Ok (e, e) else do p <- ppre F e; Ok (e, neg p)) (pdomain F);
  perm_of_pairs ps.

(** FTC:273-293, the edges to drop, given by their indices; inserting an edge twice has no effect. *)
Definition drop_edges (t : tri) (e : halfedge) : outcome (list nat) :=
  let drop := [e / 2] in
  let insert i l := if mem_list i l then l else i :: l in
  do x <- nextInFace t e;
  do p <- previousInFace t e;
  let drop := if x =? neg p then drop else insert (x / 2) drop in
  do c <- nextInFace t (neg e);
  do q <- previousInFace t (neg e);
  let y := neg q in
  Ok (if (x =? neg c) && (y =? p) then drop else if y =? c then drop else insert (y / 2) drop).

(** FTC:335-344, the face of [e] is taken out: its third side takes the place of the opposite of the second side. *)
Definition remove_face (F : perm) (e : halfedge) : outcome perm :=
  do a <- ppre F e;
  do x <- papp F e;
  do p <- ppre F (neg x);
  do F <- rmul_cycle F [a; neg x];
  do F <- rmul_cycle F [p; x];
  do q <- ppre F e;
  rmul_cycle F [q; e].
(** FTC:346-355, the same for the opposite [e] of the collapsed edge, where the second side takes the place of the opposite of the third. *)
Definition remove_face' (F : perm) (e : halfedge) : outcome perm :=
  do c <- papp F e;
  do q <- ppre F e;
  do p <- ppre F (neg q);
  do F <- rmul_cycle F [c; neg q];
  do F <- rmul_cycle F [p; e];
  do q <- ppre F e;
  rmul_cycle F [q; e].

(** FTC:319-324, the half edges of the edges to drop. *)
Definition drop_half_edges (drop : list nat) : list halfedge := flat_map (fun d => [2 * d; neg (2 * d)]) drop.

(** FTC:256-371, [collapse], with the attached [vectors] and [edges].  The messages in lines 266 and 326 reach the attached
    objects, see operator+ in Shift.v: the handlers for a collapse there have no effect on [vectors] and [edges].  The pair
    that is returned in lines 373-381 is not modelled. *)
Definition collapse {T} (opp : T -> T) (t : tri) (e : halfedge) (vectors : list T) (edges : bits) : outcome (tri * list T * bits) :=
  do b <- boundary t e;
  do b' <- boundary t (neg e);
  if b || b' then Throw else
  do x <- nextInFace t e; do x <- nextInFace t x; do x <- nextInFace t x;
  do y <- nextInFace t (neg e); do y <- nextInFace t y; do y <- nextInFace t y;
  if negb (x =? e) || negb (y =? neg e) then Throw else
  do drop <- drop_edges t e;
  do (swaps, drop, e) <- make_last (tsize t / 2) drop e;
  do t <- swaps_of swap t swaps;
  do vectors <- swaps_of (odd_map_swap opp) vectors swaps;
  let edges := fold_left (fun s ab => edge_set_swap s (fst ab) (snd ab)) swaps edges in
  let vectors := half_edge_map_erase vectors (length drop) in
  let edges := edge_set_erase edges drop in
  do F <- remove_face (tF t) e;
  do F <- remove_face' F (neg e);
  do F <- pdrop F (drop_half_edges drop);
  do V <- reset_vertices F;
  do vs <- reset_vertexes V;
  Ok (mkTri V F vs, vectors, edges).
