(** * Vertical directions

    Model of /repo/libflatsurf/src/vertical.cc (VE) for surfaces that are not collapsed.  A vertical owns caches that are reset by flips
    of the surface; the surface is part of the state here.  The cache of lengths (VE:209-210) is never used and left out. *)
From Coq Require Import ZArith List Arith Bool.
From Verif Require Import Base HalfEdge Combinatorial ExactReal Vector FlatTri Tracked.
Import ListNotations.

(** orientation.cc:40, [operator-]. *)
Definition ccw_opp (c : CCW) : CCW := match c with COUNTERCLOCKWISE => CLOCKWISE | COLLINEAR => COLLINEAR | CLOCKWISE => COUNTERCLOCKWISE end.
(** ccw.cc:40, [operator-]. *)
Definition orientation_opp (o : ORIENTATION) : ORIENTATION := match o with SAME => OPPOSITE | ORTHOGONAL => ORTHOGONAL | OPPOSITE => SAME end.

(** vertical.hpp:45-51. *)
Inductive TRIANGLE := BACKWARD | FORWARD | COLLAPSED_TO_TWO_FACES | LEFT_VERTICAL | RIGHT_VERTICAL.

Section vertical.
Context {K : ExactReal}.
Local Notation S := (flat K).
Local Notation V := (vec K).

(** impl/vertical.impl.hpp:49-58, the members. *)
Record vertical := mkVertical {
  vt_surface : S;
  vt_vertical : V;
  vt_horizontal : V;
  vt_parallel : list (option K);
  vt_perpendicular : list (option K);
  vt_ccw : list (option CCW);
  vt_orientation : list (option ORIENTATION);
  vt_large : list (option bool)
}.
Definition set_parallel (m : vertical) c := mkVertical (vt_surface m) (vt_vertical m) (vt_horizontal m) c (vt_perpendicular m) (vt_ccw m) (vt_orientation m) (vt_large m).
Definition set_perpendicular (m : vertical) c := mkVertical (vt_surface m) (vt_vertical m) (vt_horizontal m) (vt_parallel m) c (vt_ccw m) (vt_orientation m) (vt_large m).
Definition set_ccw (m : vertical) c := mkVertical (vt_surface m) (vt_vertical m) (vt_horizontal m) (vt_parallel m) (vt_perpendicular m) c (vt_orientation m) (vt_large m).
Definition set_orientation (m : vertical) c := mkVertical (vt_surface m) (vt_vertical m) (vt_horizontal m) (vt_parallel m) (vt_perpendicular m) (vt_ccw m) c (vt_large m).
Definition set_large (m : vertical) c := mkVertical (vt_surface m) (vt_vertical m) (vt_horizontal m) (vt_parallel m) (vt_perpendicular m) (vt_ccw m) (vt_orientation m) c.

(** VE:194-221, the constructor (VE:42-44); all caches are empty. *)
Definition make_vertical (s : S) (v : V) : outcome vertical :=
  let n := tsize (fT s) in
  if negb (vnonzero v) then Throw else
  Ok (mkVertical s v (vneg (vperp v)) (repeat None n) (repeat None n) (repeat None n) (repeat None n) (repeat None (n / 2))).

(** odd_half_edge_map.hpp:43-59, [get] and [set] of an optional value, as used in VE:83-85, VE:95-97, VE:107-109 and VE:119-121. *)
Definition cached {T} (opp : T -> T) (c : list (option T)) (h : halfedge) (fresh : outcome T) : outcome (T * list (option T)) :=
  do o <- vget c h;
  do c <- match o with
    | Some _ => Ok c
    | None => do x <- fresh; odd_set (option_map opp) c h (Some x)
    end;
  do o <- vget c h;
  match o with Some x => Ok (x, c) | None => UB end.

(** VE:81-91, [projectPerpendicular]. *)
Definition project_perpendicular (m : vertical) (h : halfedge) : outcome (K * vertical) :=
  do (x, c) <- cached ropp (vt_perpendicular m) h (do v <- from_he (vt_surface m) h; Ok (vdot (vt_horizontal m) v));
  Ok (x, set_perpendicular m c).
(** VE:93-103, [project]. *)
Definition project (m : vertical) (h : halfedge) : outcome (K * vertical) :=
  do (x, c) <- cached ropp (vt_parallel m) h (do v <- from_he (vt_surface m) h; Ok (vdot (vt_vertical m) v));
  Ok (x, set_parallel m c).
(** VE:105-115, [orientation]. *)
Definition vertical_orientation (m : vertical) (h : halfedge) : outcome (ORIENTATION * vertical) :=
  do (x, c) <- cached orientation_opp (vt_orientation m) h (do v <- from_he (vt_surface m) h; Ok (orientation (vt_vertical m) v));
  Ok (x, set_orientation m c).
(** VE:117-127, [ccw]. *)
Definition vertical_ccw (m : vertical) (h : halfedge) : outcome (CCW * vertical) :=
  do (x, c) <- cached ccw_opp (vt_ccw m) h (do v <- from_he (vt_surface m) h; Ok (ccw (vt_vertical m) v));
  Ok (x, set_ccw m c).

(** VE:67-70, [length]. *)
Definition perpendicular_length (m : vertical) (h : halfedge) : outcome (K * vertical) :=
  do (x, m) <- project_perpendicular m h;
  Ok (if (0 <? x)%X then x else (- x)%X, m).
(** VE:72-76, the conjunction; it stops at the first side that is longer. *)
Fixpoint longest (m : vertical) (len : K) (sides : list (tri -> outcome halfedge)) : outcome (bool * vertical) :=
  match sides with
  | [] => Ok (true, m)
  | f :: r =>
    do h <- f (fT (vt_surface m));
    do (x, m) <- perpendicular_length m h;
    if (len <? x)%X then Ok (false, m) else longest m len r
  end.
(** VE:64-79, [large]; the cache is indexed by edges (edge_map.hpp:40-42). *)
Definition large (m : vertical) (e : halfedge) : outcome (bool * vertical) :=
  let i := edge_index (edge_of e) in
  do o <- vget (vt_large m) i;
  do m <- match o with
    | Some _ => Ok m
    | None =>
      do (len, m) <- perpendicular_length m e;
      do (b, m) <- longest m len [fun t => nextInFace t e; fun t => previousInFace t e; fun t => nextInFace t (neg e); fun t => previousInFace t (neg e)];
      do c <- vset (vt_large m) i (Some b);
      Ok (set_large m c)
    end;
  do o <- vget (vt_large m) i;
  match o with Some b => Ok (b, m) | None => UB end.

(** VE:129-161, [classifyFace]. *)
Fixpoint classify_face (fuel : nat) (m : vertical) (face : halfedge) : outcome (TRIANGLE * vertical) :=
  match fuel with
  | O => OutOfFuel
  | Datatypes.S k =>
    let t := fT (vt_surface m) in
    do (perp, m) <- project_perpendicular m face;
    do f <- nextInFace t face;
    do (a, m) <- project_perpendicular m f;
    do g <- previousInFace t face;
    do (b, m) <- project_perpendicular m g;
    if f =? g then Ok (COLLAPSED_TO_TWO_FACES, m)
    else if (perp =? 0)%X then classify_face k m f
    else if (perp <? 0)%X then classify_face k m f
    else if (a =? 0)%X then Ok (RIGHT_VERTICAL, m)
    else if (b =? 0)%X then Ok (LEFT_VERTICAL, m)
    else if (0 <? a)%X then Ok (FORWARD, m)
    else if (0 <? b)%X then Ok (FORWARD, m)
    else Ok (BACKWARD, m)
  end.

(** VE:223-241, [visit] with a visitor that never stops; the set is the list of its elements. *)
Fixpoint visit (fuel : nat) (m : vertical) (start : halfedge) (component : list halfedge) : outcome (list halfedge * vertical) :=
  match fuel with
  | O => OutOfFuel
  | Datatypes.S k =>
    if mem_list start component then Ok (component, m) else
    let component := start :: component in
    do (c, m) <- vertical_ccw m start;
    if ccw_eqb c COLLINEAR then Ok (component, m) else
    do (component, m) <- visit k m (neg start) component;
    do f <- nextInFace (fT (vt_surface m)) start;
    do (component, m) <- visit k m f component;
    do g <- previousInFace (fT (vt_surface m)) start;
    visit k m g component
  end.
(** VE:46-62, [components]. *)
Fixpoint components_loop (fuel : nat) (m : vertical) (starts : list halfedge) (done : list halfedge) : outcome (list (list halfedge) * vertical) :=
  match starts with
  | [] => Ok ([], m)
  | start :: r =>
    if mem_list start done then components_loop fuel m r done else
    do (component, m) <- visit fuel m start [];
    do (l, m) <- components_loop fuel m r (component ++ done);
    Ok (component :: l, m)
  end.
Definition components (fuel : nat) (m : vertical) : outcome (list (list halfedge) * vertical) :=
  components_loop fuel m (half_edges (fT (vt_surface m))) [].

(** VE:199-219, the handlers of flips. *)
Definition reset {T} (c : list (option T)) (e : halfedge) : outcome (list (option T)) :=
  do c <- vset c e None; vset c (neg e) None.
Definition reset_edge {T} (c : list (option T)) (e : halfedge) : outcome (list (option T)) := vset c (edge_index (edge_of e)) None.
Definition reset_large (t : tri) (c : list (option bool)) (e : halfedge) : outcome (list (option bool)) :=
  do c <- reset_edge c e;
  do f <- nextInFace t e;
  do c <- reset_edge c f;
  do f <- previousInFace t e;
  do c <- reset_edge c f;
  do f <- nextInFace t (neg e);
  do c <- reset_edge c f;
  do f <- previousInFace t (neg e);
  reset_edge c f.
(** flat_triangulation.cc:1186-1192 and flat_triangulation_combinatorial.cc:250-251, a flip of the surface of the vertical. *)
Definition vertical_flip (m : vertical) (e : halfedge) : outcome vertical :=
  match fflip (vt_surface m) e with
  | (s, Ok _) =>
    do c1 <- reset (vt_parallel m) e;
    do c2 <- reset (vt_perpendicular m) e;
    do c3 <- reset (vt_ccw m) e;
    do c4 <- reset (vt_orientation m) e;
    do c5 <- reset_large (fT s) (vt_large m) e;
    Ok (mkVertical s (vt_vertical m) (vt_horizontal m) c1 c2 c3 c4 c5)
  | (_, x) => stop x
  end.
End vertical.
Arguments vertical K : clear implicits.
