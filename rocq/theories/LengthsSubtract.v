(** * Subtracting lengths of interval exchange transformations

    Model of [subtract] and [subtractRepeated] in /repo/libflatsurf/src/lengths.cc (LE) for surfaces that are not collapsed.  The saddle connections
    on the left of the minuend and across the subtrahends are those of the decomposition that the lengths refer to; here they are arguments.
    Chains are lists of coefficients; the chain [walk] (LE:182) starts without cached vectors, so none are stale when it is scaled (LE:214). *)
From Coq Require Import ZArith List Arith Bool.
From Verif Require Import Base HalfEdge Combinatorial ExactReal Vector FlatTri Saddle Vertical Lengths.
Import ListNotations.

Section subtract.
Context {K : ExactReal}.
Local Notation S := (flat K).
Local Notation V := (vec K).
Local Notation conn := (@sconn K).

(** LE:164-174, [flow]. *)
Definition flow (reverse : bool) (connections : list conn) : list conn := if reverse then rev (map sc_neg connections) else connections.

(** LE:187-190 and LE:198-201, the walk along some connections; the state is the chain [walk] and the half edge [target]. *)
Fixpoint walk_along (l : list conn) (walk : zchain) (target : halfedge) : outcome (zchain * halfedge) :=
  match l with
  | [] => Ok (walk, target)
  | c :: r => do walk <- zc_op Z.add walk (sc_chain c); walk_along r walk (sc_target c)
  end.
(** LE:195-205, the walk across the subtrahends until the last label of the stack; the last element of an empty stack is UB. *)
Fixpoint walk_across (reverse : bool) (stack : list nat) (contour : list (nat * list conn)) (walk : zchain) (target : halfedge) : outcome (zchain * halfedge) :=
  match contour with
  | [] => Ok (walk, target)
  | (label, cross) :: r =>
    do (walk, target) <- walk_along (flow reverse cross) walk target;
    match stack with
    | [] => UB
    | last :: _ => if label =? last then Ok (walk, target) else walk_across reverse stack r walk target
    end
  end.

(** LE:228-229 and LE:233-234, turning clockwise while the orientation relative to the vertical satisfies [P]. *)
Fixpoint turn_back (fuel : nat) (s : S) (m : vertical K) (P : CCW -> bool) (h : halfedge) : outcome (halfedge * vertical K) :=
  match fuel with
  | O => OutOfFuel
  | Datatypes.S k =>
    do (c, m) <- vertical_ccw m h;
    if P c then do h <- previousAtVertex (fT s) h; turn_back k s m P h else Ok (h, m)
  end.
(** LE:230-231 and LE:235-236, turning counterclockwise to the sector of a vector. *)
Fixpoint turn_to (fuel : nat) (s : S) (v : V) (h : halfedge) : outcome halfedge :=
  match fuel with
  | O => OutOfFuel
  | Datatypes.S k =>
    do b <- in_sector_at s h v;
    if b then Ok h else do h <- nextAtVertex (fT s) h; turn_to k s v h
  end.

(** LE:143-254, [subtractRepeated(minuend, iterations)]; [left] and [contour] are the connections on the left of the minuend (LE:187) and across the
    half edges of the other contour (LE:195-198) in the decomposition. *)
Definition subtract_iterations (fuel : nat) (l : lengths K) (minuend : nat) (minuendOnTop : bool) (left : list conn) (contour : list (nat * list conn)) (iterations : Z) : outcome (lengths K) :=
  do o <- vget (le_lengths l) minuend;
  match o with
  | None => UB
  | Some c =>
    let c := sc_neg c in
    let s := sc_surface c in
    do (walk, target) <- walk_along (flow (negb minuendOnTop) (rev left)) (zc_zero s) (sc_target c);
    do (walk, target) <- walk_across (negb minuendOnTop) (le_stack l) contour walk target;
    let walk := map (Z.mul iterations) walk in
    do vector <- zc_op Z.add walk (sc_chain c);
    do v <- zc_vector s vector;
    do (source, m) <- turn_back fuel s (le_vertical l) (fun c => ccw_eqb c COUNTERCLOCKWISE) (sc_source c);
    do source <- turn_to fuel s v source;
    do w <- zc_vector s (zc_neg vector);
    do (target, m) <- turn_back fuel s m (fun c => negb (ccw_eqb c CLOCKWISE)) target;
    do target <- turn_to fuel s w target;
    do ls <- vset (le_lengths l) minuend (Some (mkSconn s target source (zc_neg vector)));
    Ok (mkLengths m ls [] (rofZ 0))
  end.
(** LE:112-115, [subtract]. *)
Definition subtract (fuel : nat) (l : lengths K) (minuend : nat) (minuendOnTop : bool) (left : list conn) (contour : list (nat * list conn)) : outcome (lengths K) :=
  subtract_iterations fuel l minuend minuendOnTop left contour 1.

(** LE:128-138, how often to subtract; [fdiv] is FloorDivision of the library intervalxt. *)
Definition iterations_of (fdiv : K -> K -> Z) (l : lengths K) (minuend : nat) (stable : bool) : outcome Z :=
  if stable then
    do x <- length_of l minuend;
    let quotient := fdiv x (le_sum l) in
    Ok (if (rofZ quotient * le_sum l =? x)%X then (quotient - 1)%Z else quotient)
  else Ok 1%Z.
(** LE:117-141, [subtractRepeated(minuend)]; the connections on the left of the minuend in the other contour (LE:126) are [other]. *)
Definition subtract_repeated (fuel : nat) (fdiv : K -> K -> Z) (l : lengths K) (minuend : nat) (minuendOnTop : bool) (other left : list conn) (contour : list (nat * list conn)) : outcome (nat * lengths K) :=
  match le_stack l with
  | [] => UB
  | ret :: _ =>
    do iterations <- iterations_of fdiv l minuend (length other =? 0);
    do l <- subtract_iterations fuel l minuend minuendOnTop left contour iterations;
    Ok (ret, l)
  end.
End subtract.
