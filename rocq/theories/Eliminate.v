(** * Eliminating marked points

    Model of [eliminateMarkedPoints] in /repo/libflatsurf/src/flat_triangulation.cc (FT). *)
From Coq Require Import ZArith List Arith Bool.
From Verif Require Import Base HalfEdge Perm IndexedSet Combinatorial ExactReal Vector Arb Quadratic FlatTri Shift.
Import ListNotations.

Section eliminate.
Context {K : ExactReal}.
Variable o : solver K.
Variable approx : Z -> K -> ball.
Variable ops : Z -> ArbOps.
Variable quot : K -> Z -> K.
Local Notation F := (flat K).

(** FT:336-343, the loop over the half edges [hes] at the marked vertex [v]. *)
Fixpoint choose_edge (s : F) (v : bits) (collapse : option halfedge) (hes : list halfedge) : outcome (option halfedge) :=
  match hes with
  | [] => Ok collapse
  | outgoing :: r =>
    do neighbour <- vertex_target (fT s) outgoing;
    if negb (vertex_eqb neighbour v) then
      do skip <- match collapse with
                 | None => Ok false
                 | Some c => do a <- from_he s c; do b <- from_he s outgoing; Ok (rltb (vdot a a) (vdot b b))
                 end;
      choose_edge s v (if skip : bool then collapse else Some outgoing) r
    else choose_edge s v collapse r
  end.
(** FT:321-345, the loop over the vertices. *)
Fixpoint choose (s : F) (vs : list bits) (collapse : option halfedge) : outcome (option halfedge) :=
  match vs with
  | [] => Ok collapse
  | v :: r =>
    do a <- angle s v;
    if a =? 1 then
      do skip <- match collapse with
                 | None => Ok false
                 | Some c => do w <- vertex_source (fT s) c; Ok (ssize w <? ssize v)
                 end;
      if skip : bool then choose s r collapse else
      do hes <- at_vertex (fT s) v;
      do collapse <- choose_edge s v collapse hes;
      choose s r collapse
    else choose s r collapse
  end.
(** FT:350-361, the shift that moves the source of [e] along [e] into the target of [e]. *)
Definition collapse_shift (s : F) (e : halfedge) : outcome (list (vec K)) :=
  do marked <- vertex_source (fT s) e;
  omap (fun he =>
    do source <- vertex_source (fT s) he;
    do target <- vertex_target (fT s) he;
    do v <- from_he s e;
    Ok (if vertex_eqb source marked && vertex_eqb target marked then vzero
        else if vertex_eqb source marked then vneg v
        else if vertex_eqb target marked then v
        else vzero)) (half_edges (fT s)).
(** FT:375-376, whether an end of [he] is the vertex [marked]. *)
Definition touches (s : F) (marked : bits) (he : halfedge) : outcome bool :=
  do source <- vertex_source (fT s) he;
  if vertex_eqb source marked then Ok true else
  do target <- vertex_target (fT s) he; Ok (vertex_eqb target marked).

(** FT:317-412, the codomain of [eliminateMarkedPoints].  How saddle connections are mapped is not modelled: the image of the first
    half edge that is not next to the marked point (line 378) is taken to be a single saddle connection; if there is no such
    half edge, then line 411 throws.  [levels] bounds the number of recursive calls. *)
Fixpoint eliminate (levels fuel : nat) (s : F) : outcome F :=
  match levels with
  | O => OutOfFuel
  | S k =>
    do collapse <- choose s (tverts (fT s)) None;
    match collapse with
    | None => Ok s
    | Some e =>
      do marked <- vertex_source (fT s) e;
      do delta <- collapse_shift s e;
      do shifted <- shift_add o approx ops quot fuel s delta;
      do touch <- omap (touches s marked) (half_edges (fT s));
      if forallb (fun b => b) touch then Throw else eliminate k fuel shifted
    end
  end.
End eliminate.
