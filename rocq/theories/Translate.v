(** * Moving a point along a vector

    Model of the parts of /repo/libflatsurf/src/point.cc (PT) that move a point across the sides of a face, and of
    the functions of saddle_connections_iterator.cc (SI) that this uses.

    Not modelled: PT:406-415, when a point that is not a vertex leaves the face (see [move_point]). *)
From Coq Require Import ZArith List Arith Bool.
From Verif Require Import Base HalfEdge IndexedSet Combinatorial ExactReal Vector FlatTri Saddle Search Point.
Import ListNotations.

Section search.
Context {K : ExactReal}.
Local Notation S := (flat K).
Local Notation V := (vec K).
Local Notation P := (point K).
Variable cs : conns K.
Local Notation s := (cn_surface cs).
Local Notation t := (fT (cn_surface cs)).

(** SI:675-707, [incrementWithIntersections]: the start of the half edge that is crossed and that half edge. *)
Fixpoint with_intersections (fuel : nat) (m : iter K) : outcome (option (zchain * halfedge) * iter K) :=
  match fuel with
  | O => OutOfFuel
  | Datatypes.S k =>
    if at_end m then Ok (None, m) else
    match it_state m with
    | [] => UB
    | START _ _ :: _ =>
      do m <- apply_moves cs m;
      let crossing := it_next m in
      do base <- zc_sub_he (it_end m) crossing;
      do (_, m) <- increment_with cs k m;
      Ok (Some (base, crossing), m)
    | FOUND :: _ => Ok (None, m)
    | _ => do (_, m) <- increment_with cs k m; with_intersections k m
    end
  end.
(** SI:665-673, [incrementWithCrossings]. *)
Definition with_crossings (fuel : nat) (m : iter K) : outcome (option halfedge * iter K) :=
  do (i, m) <- with_intersections fuel m; Ok (match i with Some (_, crossing) => Some crossing | None => None end, m).

(** SI:355-382, drop the state START that is just above the topmost SEARCHING_SECOND. *)
Fixpoint drop_second (l : list sstate) : outcome (list sstate) :=
  match l with
  | [] => UB
  | [_] => UB
  | x :: ((y :: _) as r) =>
    match y with
    | SEARCHING_SECOND => match x with SEARCHING_SECOND => UB | START _ _ => Ok r | _ => Ok l end
    | _ => match x with SEARCHING_SECOND => UB | _ => do r <- drop_second r; Ok (x :: r) end
    end
  end.
(** SI:327-410, [skipSector]; COLLINEAR is excluded by the assertion in SI:329. *)
Definition skip_sector (sector : CCW) (m : iter K) : outcome (iter K) :=
  match it_state m with
  | FOUND :: st =>
    match sector with
    | CLOCKWISE => match st with [] => UB | START _ _ :: r => Ok (set_state m r) | _ => Ok (set_state m st) end
    | COUNTERCLOCKWISE => do st <- drop_second st; Ok (set_state m st)
    | COLLINEAR => Ok (set_state m st)
    end
  | START _ _ :: st =>
    if length (it_state m) =? 2 then
      match sector with COUNTERCLOCKWISE => Ok (set_state m st) | _ => Ok m end
    else Throw
  | _ => Throw
  end.

(** SI:437-438, drop the states above the topmost SEARCHING_SECOND. *)
Fixpoint to_second (l : list sstate) : outcome (list sstate) :=
  match l with [] => UB | SEARCHING_SECOND :: _ => Ok l | _ :: r => to_second r end.
(** SI:412-460, [skip]. *)
Definition skip (m : iter K) : outcome (iter K) :=
  match it_state m with
  | FOUND :: st =>
    match st with
    | [] => UB
    | _ => do st <- to_second (match st with START _ _ :: r => r | _ => st end); Ok (set_state m (SEARCHING_FIRST :: st))
    end
  | START _ _ :: st => if length (it_state m) =? 2 then Ok (set_state m st) else Throw
  | _ => Throw
  end.

(** PT:426-468, the loop: the point where the vertex ends up, or the half edge at the marked point that is hit and what remains of the vector. *)
Fixpoint trace (fuel : nat) (m : iter K) (d : V) : outcome (P + halfedge * V) :=
  match fuel with
  | O => OutOfFuel
  | Datatypes.S k =>
    do (i, m) <- with_intersections k m;
    match i with
    | Some (chain, crossing) =>
      do f <- nextInFace t (neg crossing);
      do v <- zc_vector s chain;
      do (a, b, c) <- barycentric s f (vsub d v);
      if nonneg a && nonneg b && nonneg c then do q <- normalize s (mkPoint f a b c); Ok (inl q)
      else trace k m d
    | None =>
      do x <- sdereference cs m;
      do w <- sc_vector x;
      match ccw d w with
      | COLLINEAR => Ok (inr (sc_target x, vsub d w))
      | sector => do m <- skip_sector sector m; trace k m d
      end
    end
  end.
End search.

Section move.
Context {K : ExactReal}.
Local Notation S := (flat K).
Local Notation V := (vec K).
Local Notation P := (point K).
(** linear_deformation_relation.cc:120-131, see Point.v. *)
Variable truediv : K -> K -> option K.

(** flat_triangulation.cc:942-950, [angle(Point)]. *)
Definition point_angle (s : S) (p : P) : outcome nat :=
  do v <- point_vertex s p; match v with None => Ok 1 | Some v => angle s v end.
(** PT:127-128 and 461-462, the loop around the vertex. *)
Fixpoint face_toward (fuel : nat) (s : S) (d : V) (h : halfedge) : outcome halfedge :=
  match fuel with
  | O => OutOfFuel
  | Datatypes.S k => do b <- in_sector_at s h d; if (b : bool) then Ok h else do h <- nextAtVertex (fT s) h; face_toward k s d h
  end.
(** PT:357-469, [operator+=] of the implementation.  [None] if a point that is not a vertex leaves its face; the library then inserts a vertex there,
    moves it, and maps the result back, which is not modelled. *)
Fixpoint move_point (fuel : nat) (s : S) (p : P) (d : V) : outcome (option P) :=
  match fuel with
  | O => OutOfFuel
  | Datatypes.S k =>
    do r <- translate truediv s p d;
    match r with
    | Some q => Ok (Some q)
    | None =>
      do p <- face_for s p d;
      if nz (pc p) || nz (pb p) then Ok None else
      let cs := cn_sector_at (make_conns s) (pface p) in
      do m <- search_begin cs k;
      do r <- trace cs k m d;
      match r with
      | inl q => Ok (Some q)
      | inr (target, e) =>
        do v <- vertex_source (fT s) target;
        do q <- make_point_vertex s v;
        do alpha <- point_angle s q;
        if negb (alpha =? 1) then Throw else
        do h <- face_toward k s e (pface q);
        move_point k s (mkPoint h (pa q) (pb q) (pc q)) e
      end
    end
  end.
(** PT:119-139, [operator+=]. *)
Definition point_add (fuel : nat) (s : S) (p : P) (d : V) : outcome (option P) :=
  do alpha <- point_angle s p;
  if negb (alpha =? 1) then Throw else
  do v <- point_vertex s p;
  do p <- match v with
    | Some _ => do h <- face_toward fuel s d (pface p); Ok (mkPoint h (pa p) (pb p) (pc p))
    | None =>
      match point_edge p with
      | Some _ => do b <- in_sector_at s (pface p) d; Ok (if (b : bool) then p else mkPoint (neg (pface p)) (pb p) (pa p) (pc p))
      | None => Ok p
      end
    end;
  move_point fuel s p d.
(** PT:141-144, [operator-=]. *)
Definition point_sub (fuel : nat) (s : S) (p : P) (d : V) : outcome (option P) := point_add fuel s p (vneg d).
End move.
