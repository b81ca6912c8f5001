(** * Shifting vertices

    Model of [operator+] in /repo/libflatsurf/src/flat_triangulation.cc (FT), without the Deformation object that maps paths: only its
    codomain is modelled. *)
From Coq Require Import ZArith QArith List Arith Bool.
From Verif Require Import Base HalfEdge Perm IndexedSet Combinatorial Tracked ExactReal Vector Arb Quadratic FlatTri Collapse.
Import ListNotations.

Section shift.
Context {K : ExactReal}.
Notation V := (vec K).
Notation F := (flat K).
(** The solver of quadratic equations, [Approximation<T>::arb], and the operations on Arb at a precision. *)
Variable o : solver K.
Variable approx : Z -> K -> ball.
Variable ops : Z -> ArbOps.
(** Division of a coordinate by an integer (vector.cc:204-225).  This rounds to zero for the types [long long] and [mpz_class]. *)
Variable quot : K -> Z -> K.

(** FT:133-136, the determinant of two half edges as a polynomial in the time; [v], [w] are their vectors and [d], [e] their shifts. *)
Definition det_quad (v w d e : V) : quad K :=
  mkQuad (vx d * vy e - vx e * vy d)%X
         (vx d * vy w - vx e * vy v + vx v * vy e - vx w * vy d)%X
         (vx v * vy w - vx w * vy v)%X.

(** FT:105-121, the loop over the half edges at a vertex that finds the edges that collapse at time 1. *)
Fixpoint find_collapsing (s : F) (shift : list V) (hes : list halfedge) (collapsing : bits) : outcome bits :=
  match hes with
  | [] => Ok collapsing
  | he :: r =>
    do d <- vget shift he;
    do v <- from_he s he;
    if vnonzero d && ccw_eqb (ccw v d) COLLINEAR then
      match orientation v (vadd v d) with
      | SAME => find_collapsing s shift r collapsing
      | OPPOSITE => Throw
      | ORTHOGONAL => find_collapsing s shift r (sinsert collapsing (he / 2))
      end
    else find_collapsing s shift r collapsing
  end.

(** FT:164-169, the vector [v] at the time [t] with the shift [d], at a precision. *)
Definition at_time (prec : Z) (t : ball) (v d : V) : avec :=
  let A := ops prec in
  let at_ x dx := aadd A (approx prec x) (amul A t (approx prec dx)) in
  mkAVec (at_ (vx v) (vx d)) (at_ (vy v) (vy d)).

(** FT:159-191, [vertex_hits_interior]; the product in line 171 is at the precision ARB_PRECISION_FAST (vector.cc:288-309). *)
Fixpoint vertex_hits_interior (fuel : nat) (prec : Z) (p : quad K) (v w d e : V) : outcome bool :=
  match fuel with
  | O => OutOfFuel
  | S k =>
    do t <- root o (S k) p prec;
    match t with
    | None => UB
    | Some None => vertex_hits_interior k (2 * prec) p v w d e
    | Some (Some t) =>
      match aorientation (ops arb_precision_fast) (at_time prec t v d) (at_time prec t w e) with
      | Some ORTHOGONAL => Throw
      | Some SAME => Ok false
      | Some OPPOSITE => Ok true
      | None => vertex_hits_interior k (2 * prec) p v w d e
      end
    end
  end.

(** FT:83-88, [Flip]. *)
Definition flip_record : Type := (list halfedge * quad K)%type.

(** FT:127-203, one step of the loop over pairs of consecutive half edges at a vertex. *)
Definition find_flip_step (fuel : nat) (s : F) (shift : list V) (collapsing : bits) (he he_ : halfedge) (flip : option flip_record) : outcome (option flip_record) :=
  do v <- from_he s he;
  do w <- from_he s he_;
  do d <- vget shift he;
  do e <- vget shift he_;
  let det := det_quad v w d e in
  if qpositive det then Ok flip else
  if scontains collapsing (he / 2) || scontains collapsing (he_ / 2) then Ok flip else
  do hits <- vertex_hits_interior fuel arb_precision_fast det v w d e;
  if negb hits then Ok flip else
  do (hes, p) <- match flip with
                 | None => Ok ([], det)
                 | Some (hes, p) => do lt <- qless o fuel det p; Ok (if lt then ([], det) else (hes, p))
                 end;
  do gt <- qless o fuel p det;
  if gt then Ok (Some (hes, p)) else do n <- nextInFace (fT s) he; Ok (Some (hes ++ [n], p)).
Fixpoint find_flip (fuel : nat) (s : F) (shift : list V) (collapsing : bits) (pairs : list (halfedge * halfedge)) (flip : option flip_record) : outcome (option flip_record) :=
  match pairs with
  | [] => Ok flip
  | (he, he_) :: r => do flip <- find_flip_step fuel s shift collapsing he he_ flip; find_flip fuel s shift collapsing r flip
  end.

(** FT:128-129, [he] and [he_]. *)
Definition consecutive (outgoing : list halfedge) : list (halfedge * halfedge) :=
  match outgoing with [] => [] | h :: r => combine outgoing (r ++ [h]) end.

(** FT:92-204, the loop over the vertices. *)
Fixpoint scan (fuel : nat) (s : F) (shift : list V) (vertices : list bits) (collapsing : bits) (flip : option flip_record) : outcome (bits * option flip_record) :=
  match vertices with
  | [] => Ok (collapsing, flip)
  | v :: r =>
    do outgoing <- at_vertex (fT s) v;
    do collapsing <- find_collapsing s shift outgoing collapsing;
    do flip <- find_flip fuel s shift collapsing (consecutive outgoing) flip;
    scan fuel s shift r collapsing flip
  end.

(** FT:223-225, the loop that looks for a time before the critical time [t]; the time is 1 / [den]. *)
Fixpoint earlier_time (fuel : nat) (t : option ball) (den : BinNums.positive) : outcome BinNums.positive :=
  match fuel with
  | O => OutOfFuel
  | S k =>
    match Quadratic.arb_lt (Some (mkBall (1 # den) 0)) t with
    | Some true => Ok den
    | _ => earlier_time k t (2 * den)
    end
  end.

(** FT:294-296, the loop that collapses edges; [begin] of the set is its smallest element. *)
Fixpoint collapse_all (fuel : nat) (t : tri) (vectors : list V) (collapsing : bits) : outcome (tri * list V) :=
  if sempty collapsing then Ok (t, vectors) else
  match fuel with
  | O => OutOfFuel
  | S k => do (t, vectors, collapsing) <- collapse vneg t (2 * sbegin collapsing) vectors collapsing; collapse_all k t vectors collapsing
  end.
(** FT:246-300, the surface when no flips are needed.  The identifications of half edges (lines 252-277) are part of the Deformation
    and not modelled. *)
Definition finish (s : F) (shift : list V) (collapsing : bits) : outcome F :=
  do t <- clone (fT s);
  do vectors <- omap (fun he => do v <- from_he s he; do d <- vget shift he; Ok (vadd v d)) (half_edges t);
  do (t, vectors) <- collapse_all (length (edges t)) t vectors collapsing;
  make_flat t (vget vectors).

(** FT:232-243, flip the first of the half edges [hes] that can be flipped in [closer]; the tracked map [remaining] follows the flip
    (FT:1149-1151); [add] is the recursive call. *)
Fixpoint flip_first (add : F -> list V -> outcome F) (closer : F) (remaining : list V) (hes : list halfedge) : outcome F :=
  match hes with
  | [] => add closer remaining
  | he :: r =>
    do c <- convex closer he true;
    if c then
      match fflip closer he with
      | (closer, Ok _) => do remaining <- update_after_flip remaining (fT closer) he; add closer remaining
      | (_, x) => stop x
      end
    else flip_first add closer remaining r
  end.

(** FT:79-315, the codomain of [operator+].  Line 243 uses the codomain of the recursive call; [closer] is a copy of it if
    nothing has been flipped. *)
Fixpoint shift_add (fuel : nat) (s : F) (shift : list V) : outcome F :=
  match fuel with
  | O => OutOfFuel
  | S k =>
    do (collapsing, flip) <- scan k s shift (tverts (fT s)) sempty_set None;
    match flip with
    | None => finish s shift collapsing
    | Some (hes, p) =>
      do t <- root o k p arb_precision_fast;
      match t with
      | None => UB
      | Some t =>
        do den <- earlier_time k t 2;
        do partial <- omap (fun he => do d <- vget shift he; Ok (mkVec (quot (vx d) (Z.pos den)) (quot (vy d) (Z.pos den)))) (half_edges (fT s));
        do s1 <- shift_add k s partial;
        do closer <- fclone s1;
        do remaining <- omap (fun he => do d <- vget shift he; do e <- vget partial he; Ok (vsub d e)) (half_edges (fT closer));
        flip_first (shift_add k) closer remaining hes
      end
    end
  end.
End shift.
