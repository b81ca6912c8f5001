(** * Flat triangulations

    Model of /repo/libflatsurf/src/flat_triangulation.cc (FT), the vector tables of
    flatsurf/odd_half_edge_map.hpp and flatsurf/half_edge_map.hpp.  The second table
    of interval approximations ([approximations]) is the image of the first one
    under a cast (FT:1120-1146, 1176-1181) and is not modelled. *)
From Coq Require Import ZArith QArith List Arith Bool.
From Verif Require Import Base HalfEdge Perm IndexedSet Combinatorial ExactReal Vector.
Import ListNotations.

(** impl/flat_triangulation.impl.hpp: the combinatorial triangulation and the member [vectors],
    a table indexed by half edges (odd_half_edge_map.hpp:77, half_edge_map.hpp:95). *)
Record flat (K : ExactReal) := mkFlat { fT : tri; fvec : list (vec K) }.
Arguments mkFlat {K} _ _.
Arguments fT {K} _.
Arguments fvec {K} _.

(** delaunay.hpp:27-40. *)
Inductive DELAUNAY := NON_DELAUNAY | IS_DELAUNAY | AMBIGUOUS.

Section flat.
Context {K : ExactReal}.
Notation V := (vec K).
Notation F := (flat K).

(** FT:446-448, [fromHalfEdge]; odd_half_edge_map.hpp:44-46. *)
Definition from_he (s : F) (e : halfedge) : outcome V := vget (fvec s) e.

(** odd_half_edge_map.hpp:48-60, [set] (not for optional). *)
Definition odd_set (vs : list V) (e : halfedge) (v : V) : outcome (list V) :=
  do vs <- vset vs e v; vset vs (neg e) (vneg v).

(** FT:1199-1208, the first loop of [check]. *)
Fixpoint check_closed (s : F) (es : list halfedge) : outcome unit :=
  match es with
  | [] => Ok tt
  | e :: r =>
      do b <- boundary (fT s) e;
      if b then check_closed s r else
      do v <- from_he s e;
      if negb (vnonzero v) then Throw else
      do f <- nextInFace (fT s) e;
      do w <- from_he s f;
      do g <- nextInFace (fT s) f;
      do u <- from_he s g;
      if vnonzero (vadd (vadd v w) u) then Throw else check_closed s r
  end.
(** FT:1210-1215, the second loop of [check]. *)
Fixpoint check_ccw (s : F) (es : list halfedge) : outcome unit :=
  match es with
  | [] => Ok tt
  | e :: r =>
      do b <- boundary (fT s) e;
      if b then check_ccw s r else
      do f <- nextInFace (fT s) e;
      do v <- from_he s e;
      do w <- from_he s f;
      match ccw v w with
      | COUNTERCLOCKWISE => check_ccw s r
      | _ => Throw
      end
  end.
(** FT:1195-1216, [check]. *)
Definition check_flat (s : F) : outcome unit :=
  do _ <- check_closed s (half_edges (fT s)); check_ccw s (half_edges (fT s)).

(** FT:471-475 and 1101-1118, the constructor from a function; the combinatorial part is built
    again from the vertex permutation and the boundary half edges; half_edge_map.hpp:52-57. *)
Definition make_flat (t : tri) (vectors : halfedge -> outcome V) : outcome F :=
  do bnd <- boundary_of t (half_edges t);
  do t' <- make_tri (tV t) bnd;
  do vs <- omap vectors (half_edges t');
  let s := mkFlat t' vs in
  do _ <- check_flat s;
  Ok s.

(** [std::vector::at] throws. *)
Definition vat {A} (l : list A) (i : nat) : outcome A :=
  match nth_error l i with Some a => Ok a | None => Throw end.

(** FT:459-468, the constructor from a vector for each edge. *)
Definition make_flat_list (t : tri) (vectors : list V) : outcome F :=
  do s <- make_flat t (fun e =>
    do v <- vat vectors (e / 2);
    Ok (if Nat.even e then v else vneg v));
  if length vectors =? length (edges (fT s)) then Ok s else Throw.

(** FT:478-480, [clone]. *)
Definition fclone (s : F) : outcome F := do t <- clone (fT s); make_flat t (from_he s).

(** FT:483-495, the codomain of [slit]. *)
Definition fslit (s : F) (e : halfedge) : outcome F :=
  do t <- slit (fT s) e;
  let n := tsize (fT s) in
  make_flat t (fun h =>
    if h =? 2 * (n / 2) then from_he s e
    else if h =? neg (2 * (n / 2)) then do v <- from_he s e; Ok (vneg v)
    else from_he s h).

(** FT:664-671, the codomain of [relabel]. *)
Definition frelabel (s : F) (r : perm) : outcome F :=
  do t <- relabel (fT s) r;
  make_flat t (fun h => do e <- ppre r h; from_he s e).

(** FT:757-764, [convex]; [&&] does not evaluate the second factor if the first is false. *)
Definition convex_at (s : F) (strict : bool) (e : halfedge) : outcome bool :=
  do p <- previousAtVertex (fT s) e;
  do q <- nextAtVertex (fT s) e;
  do v <- from_he s p;
  do w <- from_he s q;
  Ok (if strict then ccw_eqb (ccw v w) COUNTERCLOCKWISE else negb (ccw_eqb (ccw v w) CLOCKWISE)).
Definition convex (s : F) (e : halfedge) (strict : bool) : outcome bool :=
  do a <- convex_at s strict e;
  if a then convex_at s strict (neg e) else Ok false.

(** FT:1149-1151, [updateAfterFlip]; [t] is the surface after the flip. *)
Definition update_after_flip (vs : list V) (t : tri) (e : halfedge) : outcome (list V) :=
  do f <- nextInFace t e;
  do v <- vget vs (neg f);
  do g <- previousInFace t e;
  do w <- vget vs (neg g);
  odd_set vs e (vadd v w).

(** FT:1186-1192, [flip]. *)
Definition fflip (s : F) (e : halfedge) : after F :=
  match convex s e true with
  | Ok true =>
      match flip (fT s) e with
      | (t', Ok _) =>
          match update_after_flip (fvec s) t' e with
          | Ok vs => (mkFlat t' vs, Ok tt)
          | x => (mkFlat t' (fvec s), stop x)
          end
      | (t', x) => (mkFlat t' (fvec s), stop x)
      end
  | Ok false => (s, Throw)
  | x => (s, stop x)
  end.

(** A history of flips; it ends at the first flip that does not return. *)
Fixpoint fflips (s : F) (es : list halfedge) : after F :=
  match es with
  | [] => (s, Ok tt)
  | e :: r => match fflip s e with (s', Ok _) => fflips s' r | x => x end
  end.

(** FT:712-724, [area2], the loop with its state [area]. *)
Fixpoint area2_loop (s : F) (es : list halfedge) (area : K) : outcome K :=
  match es with
  | [] => Ok area
  | e :: r =>
      do b <- boundary (fT s) e;
      if b then area2_loop s r area else
      do f <- nextInFace (fT s) e;
      if f <? e then area2_loop s r area else
      do p <- previousInFace (fT s) e;
      if p <? e then area2_loop s r area else
      do g <- nextInFace (fT s) f;
      do u <- from_he s e;
      do v <- from_he s f;
      do w <- from_he s g;
      area2_loop s r (radd area (varea2 [u; v; w]))
  end.
Definition area2 (s : F) : outcome K := area2_loop s (half_edges (fT s)) (rofZ 0).

(** FT:727-731, [scale]. *)
Definition fscale (s : F) (c : Z) : outcome F :=
  do t <- clone (fT s);
  make_flat t (fun e => do v <- from_he s e; Ok (vscaleZ c v)).

(** FT:734-754, the codomain of [applyMatrix]. *)
Definition apply_matrix (s : F) (a b c d : K) : outcome F :=
  let det := rsub (rmul a d) (rmul b c) in
  if reqb det (rofZ 0) then Throw else
  do hb <- has_boundary (fT s);
  if hb then Throw else
  do t <- (if rltb det (rofZ 0) then do W <- pinv (tV (fT s)); make_tri W [] else clone (fT s));
  make_flat t (fun e => do v <- from_he s e; Ok (vapply a b c d v)).

(** FT:767-769, [inSector]. *)
Definition in_sector_at (s : F) (sector : halfedge) (v : V) : outcome bool :=
  do u <- from_he s sector;
  if ccw_eqb (ccw u v) CLOCKWISE then Ok false else
  do n <- nextAtVertex (fT s) sector;
  do w <- from_he s n;
  Ok (ccw_eqb (ccw w v) CLOCKWISE).
(** FT:772-774, [inHalfPlane]. *)
Definition in_half_plane (s : F) (side : halfedge) (v : V) : outcome bool :=
  do u <- from_he s side; Ok (orientation_eqb (orientation u v) SAME).
(** FT:777-779, [inPlane]. *)
Definition in_plane (s : F) (plane : halfedge) (d : V) : outcome bool :=
  do u <- from_he s plane;
  Ok (negb (ccw_eqb (ccw d u) COLLINEAR) || negb (orientation_eqb (orientation d u) OPPOSITE)).

(** The loops [while (P(fromHalfEdge(e).ccw(direction))) e = step(e)] of [sector]. *)
Fixpoint turn_while (fuel : nat) (s : F) (step : halfedge -> outcome halfedge) (P : CCW -> bool) (d : V) (e : halfedge) : outcome halfedge :=
  match fuel with
  | O => OutOfFuel
  | S k =>
      do u <- from_he s e;
      if P (ccw u d) then do e' <- step e; turn_while k s step P d e' else Ok e
  end.
Definition is_cw (c : CCW) : bool := ccw_eqb c CLOCKWISE.
Definition is_not_cw (c : CCW) : bool := negb (ccw_eqb c CLOCKWISE).

(** FT:782-797, [sector(plane, direction)]. *)
Definition sector_plane (fuel : nat) (s : F) (plane : halfedge) (d : V) : outcome halfedge :=
  do ok <- in_plane s plane d;
  if negb ok then Throw else
  do u <- from_he s plane;
  match ccw u d with
  | CLOCKWISE => turn_while fuel s (previousAtVertex (fT s)) is_cw d plane
  | COUNTERCLOCKWISE =>
      do e <- turn_while fuel s (nextAtVertex (fT s)) is_not_cw d plane;
      previousAtVertex (fT s) e
  | COLLINEAR => Ok plane
  end.

(** FT:800-831, [sector(start, ccw, direction, exclude)]. *)
Definition sector_turn (fuel : nat) (s : F) (start : halfedge) (c : CCW) (d : V) (exclude : bool) : outcome halfedge :=
  if ccw_eqb c COLLINEAR then Throw else
  do u <- from_he s start;
  let same := ccw_eqb (ccw u d) COLLINEAR && orientation_eqb (orientation u d) SAME in
  if same && negb exclude then Ok start else
  do start <- (if same then (if ccw_eqb c CLOCKWISE then previousAtVertex (fT s) start else nextAtVertex (fT s) start) else Ok start);
  if ccw_eqb c COUNTERCLOCKWISE then
    do e <- turn_while fuel s (nextAtVertex (fT s)) is_cw d start;
    do e <- turn_while fuel s (nextAtVertex (fT s)) is_not_cw d e;
    previousAtVertex (fT s) e
  else
    do e <- nextAtVertex (fT s) start;
    do e <- turn_while fuel s (previousAtVertex (fT s)) is_not_cw d e;
    turn_while fuel s (previousAtVertex (fT s)) is_cw d e.

(** FT:834-855, [sector(sector, start, ccw, direction, exclude)]. *)
Definition sector_from (fuel : nat) (s : F) (sector : halfedge) (start : V) (c : CCW) (d : V) (exclude : bool) : outcome halfedge :=
  if ccw_eqb c COLLINEAR then Throw else
  do ok <- in_sector_at s sector start;
  if negb ok then Throw else
  do here <- in_sector_at s sector d;
  if here && ((ccw_eqb (ccw start d) COLLINEAR && negb exclude) || ccw_eqb (ccw start d) c) then Ok sector else
  do sector <- (if ccw_eqb c COUNTERCLOCKWISE then nextAtVertex (fT s) sector else Ok sector);
  sector_turn fuel s sector c d (ccw_eqb c CLOCKWISE).

(** FT:688-690, the determinant of a 3x3 matrix given by rows. *)
Definition det3 (x00 x01 x02 x10 x11 x12 x20 x21 x22 : K) : K :=
  (x00 * (x11 * x22 - x12 * x21) - x10 * (x01 * x22 - x21 * x02) + x20 * (x01 * x12 - x11 * x02))%X.
(** FT:692. *)
Definition incircle (a b c : V) : K :=
  (det3 (vx a) (vy a) (vx a * vx a + vy a * vy a) (vx b) (vy b) (vx b * vx b + vy b * vy b) (vx c) (vy c) (vx c * vx c + vy c * vy c))%X.

(** FT:674-701, [delaunay(Edge)]; an edge is given by its positive half edge. *)
Definition delaunay_edge (s : F) (e : edge) : outcome DELAUNAY :=
  do ca <- from_he s (positive e);
  do q <- nextAtVertex (fT s) (positive e);
  do cb <- from_he s q;
  do p <- nextInFace (fT s) (negative e);
  do dc <- from_he s (neg p);
  let del := incircle (vadd dc ca) (vadd dc cb) dc in
  Ok (if rltb del (rofZ 0) then IS_DELAUNAY else if reqb del (rofZ 0) then AMBIGUOUS else NON_DELAUNAY).

(** FT:654-659, one pass over the edges; the result tells whether the surface was Delaunay. *)
Fixpoint delaunay_pass (s : F) (es : list edge) (isDelaunay : bool) : F * outcome bool :=
  match es with
  | [] => (s, Ok isDelaunay)
  | e :: r =>
      match delaunay_edge s e with
      | Ok NON_DELAUNAY =>
          match fflip s (positive e) with
          | (s', Ok _) => delaunay_pass s' r false
          | (s', x) => (s', stop x)
          end
      | Ok _ => delaunay_pass s r isDelaunay
      | x => (s, stop x)
      end
  end.
(** FT:650-661, [delaunay()]. *)
Fixpoint delaunay (fuel : nat) (s : F) : after F :=
  match fuel with
  | O => (s, OutOfFuel)
  | S k =>
      match delaunay_pass s (edges (fT s)) true with
      | (s', Ok true) => (s', Ok tt)
      | (s', Ok false) => delaunay k s'
      | (s', x) => (s', stop x)
      end
  end.

(** FT:930-937, the loop of [angle]. *)
Fixpoint angle_loop (fuel : nat) (s : F) (first current : halfedge) (angle : nat) : outcome nat :=
  match fuel with
  | O => OutOfFuel
  | S k =>
      do next <- nextAtVertex (fT s) current;
      do v <- from_he s current;
      do w <- from_he s next;
      let angle := if negb (rltb (vx v) (rofZ 0)) && rltb (vx w) (rofZ 0) then S angle else angle in
      if next =? first then Ok angle else angle_loop k s first next angle
  end.
(** FT:924-940, [angle(Vertex)]; dereferencing the begin of an empty range is UB. *)
Definition angle (s : F) (v : bits) : outcome nat :=
  do c <- at_vertex (fT s) v;
  match c with
  | [] => UB
  | first :: _ => angle_loop (tsize (fT s)) s first first 0
  end.

(** FT:878-921, [operator==] of two different objects, for coordinate types without a parent. *)
Definition flat_eqb (s u : F) : outcome bool :=
  if negb (tri_eqb (fT s) (fT u)) then Ok false else
  do bs <- omap (fun e => do v <- from_he s (positive e); do w <- from_he u (positive e); Ok (veqb v w)) (edges (fT s));
  Ok (forallb (fun b => b) bs).

(** FT:415-423, [shortest]; [std::min_element] returns the first smallest element, and dereferencing
    its result for an empty range is UB. *)
Fixpoint min_element {A} (less : A -> A -> outcome bool) (best : A) (l : list A) : outcome A :=
  match l with
  | [] => Ok best
  | a :: r => do b <- less a best; min_element less (if b then a else best) r
  end.
Definition shorter (s : F) (a b : edge) : outcome bool :=
  do x <- from_he s (positive a); do y <- from_he s (positive b); Ok (rltb (vdot x x) (vdot y y)).
Definition shortest (s : F) : outcome V :=
  match edges (fT s) with
  | [] => UB
  | e :: r => do m <- min_element (shorter s) e r; from_he s (positive m)
  end.
(** FT:426-443, [shortest(direction)]. *)
Definition rabs (x : K) : K := if rltb x (rofZ 0) then ropp x else x.
Definition shorter_along (s : F) (d : V) (a b : edge) : outcome bool :=
  do av <- from_he s (positive a);
  do bv <- from_he s (positive b);
  let alen := vdot av d in
  let blen := vdot bv d in
  Ok (if reqb alen (rofZ 0) then false
      else if reqb blen (rofZ 0) then true
      else rltb (rabs alen) (rabs blen)).
Definition shortest_along (s : F) (d : V) : outcome V :=
  match edges (fT s) with
  | [] => UB
  | e :: r => do m <- min_element (shorter_along s d) e r; from_he s (positive m)
  end.
End flat.
