(** * Images of paths when vertices are shifted

    Model of /repo/libflatsurf/src/shift_deformation_relation.cc (SH), the deformation that is returned by [operator+] of surfaces.

    The member [shifted] is given by the list of its values, one for each half edge; how these are found (flat_triangulation.cc:304-313) is not
    modelled. *)
From Coq Require Import ZArith List Arith Bool.
From Verif Require Import Base HalfEdge Combinatorial ExactReal Vector FlatTri Saddle Search Translate Intersection Crossings Path.
Import ListNotations.

Section shift.
Context {K : ExactReal}.

(** SH:62-78, the loop over the half edges that are crossed. *)
Fixpoint shift_steps (s : flat K) (shifted : list (path K)) (face : halfedge) (targets : list halfedge) (image : path K) : outcome (path K) :=
  match targets with
  | [] => Ok image
  | target :: targets =>
    do p <- previousInFace (fT s) face;
    if target =? p then shift_steps s shifted (neg target) targets image
    else
      do q <- nextInFace (fT s) face;
      if target =? q then
        do x <- vget shifted face;
        do image <- path_append false image x;
        do y <- vget shifted target;
        do image <- path_append false image y;
        shift_steps s shifted (neg target) targets image
      else Throw
  end.
(** SH:47-81, the body of the loop over the saddle connections. *)
Definition shift_segment (fuel : nat) (shifted : list (path K)) (image : path K) (x : sconn K) : outcome (path K) :=
  do targets <- sc_crossings fuel x;
  do image <- shift_steps (sc_surface x) shifted (sc_source x) targets image;
  do p <- vget shifted (neg (sc_target x));
  path_append false image p.
(** SH:43-84, [operator()(Path)]; it always has a value.  The loop over the path visits its segments in order, see PathProps.v. *)
Fixpoint shift_loop (fuel : nat) (shifted : list (path K)) (p : path K) (image : path K) : outcome (path K) :=
  match p with
  | [] => Ok image
  | x :: p => do image <- shift_segment fuel shifted image x; shift_loop fuel shifted p image
  end.
Definition shift_path (fuel : nat) (shifted : list (path K)) (p : path K) : outcome (path K) := shift_loop fuel shifted p [].
(** SH:114-116, the loop of [trivial] over the edges. *)
Fixpoint shift_keeps (domain : flat K) (shifted : list (path K)) (edges : list halfedge) : outcome bool :=
  match edges with
  | [] => Ok true
  | e :: edges =>
    do p <- vget shifted e;
    do x <- sc_half_edge domain e;
    do b <- path_eqb p [x];
    if (b : bool) then shift_keeps domain shifted edges else Ok false
  end.
(** SH:109-119, [trivial]; an edge is its positive half edge. *)
Definition shift_trivial (domain codomain : flat K) (shifted : list (path K)) : outcome bool :=
  do same <- flat_eqb domain codomain;
  if negb same then Ok false
  else shift_keeps domain shifted (map (fun i => 2 * i) (seq 0 (tsize (fT domain) / 2))).
End shift.
