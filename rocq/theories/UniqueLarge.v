(** * Unique large edges

    Model of [makeUniqueLargeEdge] and [makeUniqueLargeEdges] of /repo/libflatsurf/src/interval_exchange_transformation.cc (IE), for surfaces that are
    not collapsed.  A [Tracked<HalfEdge>] and a [Tracked<EdgeSet>] do not change when such a surface is flipped. *)
From Coq Require Import ZArith List Arith Bool.
From Verif Require Import Base HalfEdge Combinatorial ExactReal Vector FlatTri Vertical IntervalExchange.
Import ListNotations.

Section unique.
Context {K : ExactReal}.
Local Notation S := (flat K).
Local Notation V := (vec K).

(** vertical.cc:222-241, [visit], with the visitor of IE:251-261.  When the visitor asks to stop, the half edge that is going to be flipped is
    returned; the flip itself is in [make_unique_loop], since nothing else happens between the flip and the end of [visit]. *)
Fixpoint visit_until (fuel : nat) (m : vertical K) (unique start : halfedge) (component : list halfedge) : outcome (option halfedge * list halfedge * vertical K) :=
  match fuel with
  | O => OutOfFuel
  | Datatypes.S k =>
    if mem_list start component then Ok (None, component, m) else
    let component := start :: component in
    do (b, m) <- (if (start =? unique) || (start =? neg unique) then Ok (false, m) else large m start);
    if b : bool then Ok (Some start, component, m) else
    do (c, m) <- vertical_ccw m start;
    if ccw_eqb c COLLINEAR then Ok (None, component, m) else
    do (o, component, m) <- visit_until k m unique (neg start) component;
    match o with
    | Some e => Ok (Some e, component, m)
    | None =>
      do f <- nextInFace (fT (vt_surface m)) start;
      do (o, component, m) <- visit_until k m unique f component;
      match o with
      | Some e => Ok (Some e, component, m)
      | None => do g <- previousInFace (fT (vt_surface m)) start; visit_until k m unique g component
      end
    end
  end.

(** IE:249-266, the loop; [visits] bounds the depth of the calls of [visit].  The half edges that are flipped are returned with the component. *)
Fixpoint make_unique_loop (fuel visits : nat) (m : vertical K) (unique : halfedge) : outcome (list halfedge * list halfedge * vertical K) :=
  match fuel with
  | O => OutOfFuel
  | Datatypes.S k =>
    do (o, component, m) <- visit_until visits m unique unique [];
    match o with
    | None => Ok ([], component, m)
    | Some e =>
      do m <- vertical_flip m e;
      do (flips, component, m) <- make_unique_loop k visits m unique;
      Ok (e :: flips, component, m)
    end
  end.
(** The surface, the half edge [unique_], the component and the flips on the way. *)
Record unique_edge := mkUnique { un_surface : S; un_edge : halfedge; un_component : list halfedge; un_flips : list halfedge }.
(** IE:236-267, [makeUniqueLargeEdge]. *)
Definition make_unique_large_edge (fuel visits : nat) (s : S) (vertical : V) (unique : halfedge) : outcome unique_edge :=
  do m <- make_vertical s vertical;
  do (c, m) <- vertical_ccw m unique;
  let unique := if ccw_eqb c COUNTERCLOCKWISE then neg unique else unique in
  do (flips, component, m) <- make_unique_loop fuel visits m unique;
  Ok (mkUnique (vt_surface m) unique component flips).

(** IE:94-99, the half edges that may be chosen next. *)
Fixpoint larges (m : vertical K) (sources : list nat) (l : list halfedge) : outcome (list halfedge * vertical K) :=
  match l with
  | [] => Ok ([], m)
  | h :: l =>
    if mem_list (edge_of h) sources then larges m sources l else
    do (b, m) <- large m h;
    if negb b then larges m sources l else
    do (c, m) <- vertical_ccw m h;
    if ccw_eqb c COUNTERCLOCKWISE then larges m sources l else
    do (r, m) <- larges m sources l;
    Ok (h :: r, m)
  end.
(** IE:101-113, the last half edge after sorting by length.  The order of half edges of the same length is not specified: [tie] is given the half edges
    of maximal length. *)
Fixpoint absolutes (m : vertical K) (l : list halfedge) : outcome (list (halfedge * K) * vertical K) :=
  match l with
  | [] => Ok ([], m)
  | h :: l =>
    do (x, m) <- project_perpendicular m h;
    do (r, m) <- absolutes m l;
    Ok ((h, if rltb x (rofZ 0%Z) then ropp x else x) :: r, m)
  end.
Definition longest_of (l : list (halfedge * K)) : list halfedge :=
  map fst (filter (fun p => forallb (fun q => negb (rltb (snd p) (snd q))) l) l).

(** The flips of the surface, as seen by a vertical. *)
Fixpoint vertical_flips (m : vertical K) (l : list halfedge) : outcome (vertical K) :=
  match l with
  | [] => Ok m
  | e :: l => do m <- vertical_flip m e; vertical_flips m l
  end.
(** The first element of a vector; UB if the vector is empty. *)
Definition front_of (l : list nat) : outcome nat := match l with [] => UB | x :: _ => Ok x end.
(** IE:82-143, [makeUniqueLargeEdges].  [fuel] bounds the rounds of the loop, [flips] and [visits] are for [make_unique_large_edge].  The surface is the one
    of the vertical of IE:91; the edges in [sources] are returned with it. *)
Fixpoint make_unique_loops (fuel flips visits : nat) (tie : list halfedge -> halfedge) (m : vertical K) (sources : list nat) : outcome (vertical K * list nat) :=
  match fuel with
  | O => OutOfFuel
  | Datatypes.S k =>
    do (l, m) <- larges m sources (half_edges (fT (vt_surface m)));
    do (a, m) <- absolutes m l;
    match l with
    | [] => Ok (m, sources)
    | _ =>
      let source := tie (longest_of a) in
      do u <- make_unique_large_edge flips visits (vt_surface m) (vt_vertical m) source;
      do m <- vertical_flips m (un_flips u);
      do t <- iet_from_large visits (vt_surface m) (vt_vertical m) (un_edge u);
      let trivial := length (ie_top t) =? 1 in
      do x <- front_of (ie_top t);
      do y <- front_of (ie_bottom t);
      do x' <- front_of (rev (ie_top t));
      do y' <- front_of (rev (ie_bottom t));
      if negb trivial && ((x =? y) || (x' =? y')) then
        do m <- vertical_flip m (un_edge u);
        make_unique_loops k flips visits tie m sources
      else make_unique_loops k flips visits tie m (edge_of (un_edge u) :: sources)
    end
  end.
Definition make_unique_large_edges (fuel flips visits : nat) (tie : list halfedge -> halfedge) (s : S) (vertical : V) : outcome (S * list nat) :=
  do m <- make_vertical s vertical;
  do (m, sources) <- make_unique_loops fuel flips visits tie m [];
  Ok (vt_surface m, sources).
End unique.
Arguments unique_edge K : clear implicits.
