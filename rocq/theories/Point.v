(** * Points of a surface

    Model of /repo/libflatsurf/src/point.cc (PT) and of
    flip_deformation_relation.cc:64-98 (FDR).

    Not modelled: the reference to the surface that a point holds (each function takes the
    surface as an argument); the part of [operator+=] that leaves a face (PT:401-468, see
    [translate]); printing.  The type of coordinates is an [ExactReal]; the exact division
    [truediv] of linear_deformation_relation.cc:120-131 is a parameter, see [exact_division] in PointSpec.v. *)
From Coq Require Import ZArith List Arith Bool.
From Verif Require Import Base HalfEdge Perm IndexedSet Combinatorial ExactReal Vector FlatTri.
Import ListNotations.

(** impl/point.impl.hpp:62-64: the members [face], [a], [b], [c]. *)
Record point (K : ExactReal) := mkPoint { pface : halfedge; pa : K; pb : K; pc : K }.
Arguments mkPoint {K} _ _ _ _.
Arguments pface {K} _.
Arguments pa {K} _.
Arguments pb {K} _.
Arguments pc {K} _.

Section point.
Context {K : ExactReal}.
Notation S := (flat K).
Notation P := (point K).
Notation V := (vec K).

(** The conversion of a coordinate to bool in conditions such as [if (c)]. *)
Definition nz (x : K) : bool := negb (x =? 0)%X.
(** The comparison [x >= 0] (PT:392, 436). *)
Definition nonneg (x : K) : bool := negb (x <? 0)%X.

(** The array of coordinates that functions return; [std::array<T, 3>]. *)
Definition triple : Type := (K * K * K)%type.

(** PT:82-83, the constructor from an array, before normalizing. *)
Definition at_face (f : halfedge) (w : triple) : P := let '(a, b, c) := w in mkPoint f a b c.

(** PT:266-277, [rotated]; the last case is not checked in a release build. *)
Definition rotated (s : S) (p : P) (f : halfedge) : outcome triple :=
  if f =? pface p then Ok (pa p, pb p, pc p) else
  do g <- nextInFace (fT s) (pface p);
  if f =? g then Ok (pb p, pc p, pa p) else Ok (pc p, pa p, pb p).

(** PT:279-293, [rotate]. *)
Definition rotate (s : S) (p : P) (f : halfedge) : outcome P :=
  do g <- nextInFace (fT s) (pface p);
  if f =? g then Ok (mkPoint f (pb p) (pc p) (pa p)) else
  do g <- previousInFace (fT s) (pface p);
  if f =? g then Ok (mkPoint f (pc p) (pa p) (pb p)) else Ok (mkPoint f (pa p) (pb p) (pc p)).

(** PT:257-261, the loop of [normalize].  After three steps the face and the coordinates are the
    initial ones, so the loop ends in less than four steps or it does not end. *)
Fixpoint normalize_loop (fuel : nat) (s : S) (p : P) : outcome P :=
  match fuel with
  | O => OutOfFuel
  | Datatypes.S k =>
      if nz (pc p) || negb (nz (pa p)) then
        do f <- nextInFace (fT s) (pface p);
        do w <- rotated s p f;
        normalize_loop k s (at_face f w)
      else Ok p
  end.
(** PT:228-264, [normalize]; lines 242-246. *)
Definition normalize (s : S) (p : P) : outcome P :=
  if (pa p + pb p + pc p =? 0)%X then Throw else
  if (pa p <? 0)%X || (pb p <? 0)%X || (pc p <? 0)%X then Throw else
  let p := if (pa p + pb p + pc p <? 0)%X
    then mkPoint (pface p) (pa p * rofZ (-1))%X (pb p * rofZ (-1))%X (pc p * rofZ (-1))%X else p in
  if (0 <? pa p)%X && (0 <? pb p)%X && (0 <? pc p)%X then Ok p else
  normalize_loop 4 s p.

(** PT:71-74, the constructor from barycentric coordinates. *)
Definition make_point (s : S) (f : halfedge) (a b c : K) : outcome P := normalize s (mkPoint f a b c).
(** PT:81-83, the constructor from an array. *)
Definition make_point_array (s : S) (f : halfedge) (w : triple) : outcome P := let '(a, b, c) := w in make_point s f a b c.
(** PT:68-69, the constructor from a vertex. *)
Definition make_point_vertex (s : S) (v : bits) : outcome P := make_point s (sbegin v) 1%X 0%X 0%X.

(** PT:167-174, [vertex]. *)
Definition point_vertex (s : S) (p : P) : outcome (option bits) :=
  if nz (pb p) || nz (pc p) then Ok None else
  do v <- vertex_source (fT s) (pface p); Ok (Some v).

(** PT:176-183, [edge]. *)
Definition point_edge (p : P) : option edge :=
  if nz (pc p) then None else Some (edge_of (pface p)).

(** PT:198-205, [on]; the edge is given as its positive half edge. *)
Definition point_on (s : S) (p : P) (e : edge) : outcome bool :=
  do v <- point_vertex s p;
  match v with
  | Some v =>
      do v1 <- vertex_source (fT s) (positive e);
      if vertex_eqb v v1 then Ok true else
      do v2 <- vertex_source (fT s) (negative e);
      Ok (vertex_eqb v v2)
  | None => Ok (match point_edge p with Some e' => e' =? e | None => false end)
  end.

(** PT:191-195, the second loop of [in]; a half edge converts to its edge. *)
Fixpoint point_on_any (s : S) (p : P) (sides : list halfedge) : outcome bool :=
  match sides with
  | [] => Ok false
  | side :: r => do b <- point_on s p (edge_of side); if b then Ok true else point_on_any s p r
  end.
(** FTCs:143-146 as a list. *)
Definition face_list (s : S) (f : halfedge) : outcome (list halfedge) :=
  do (e, f, g) <- face (fT s) f; Ok [e; f; g].
(** PT:185-196, [in]. *)
Definition point_in (s : S) (p : P) (f : halfedge) : outcome bool :=
  do sides <- face_list s f;
  if existsb (Nat.eqb (pface p)) sides then Ok true else point_on_any s p sides.

(** PT:207-210, [at]; comparing a [std::optional] with a value. *)
Definition point_at (s : S) (p : P) (v : bits) : outcome bool :=
  do w <- point_vertex s p;
  Ok (match w with Some w => vertex_eqb w v | None => false end).

(** PT:96-101, the second loop of [coordinates]. *)
Fixpoint coordinates_edge (s : S) (p : P) (f : halfedge) (sides : list halfedge) : outcome (option triple) :=
  match sides with
  | [] => Ok None
  | side :: r =>
      if (pface p =? neg side) && negb (nz (pc p)) then
        do w <- rotated s (mkPoint side (pb p) (pa p) (pc p)) f; Ok (Some w)
      else
        do g <- previousInFace (fT s) (pface p);
        if (g =? neg side) && negb (nz (pb p)) && negb (nz (pc p)) then
          do w <- rotated s (mkPoint side (pa p) (pb p) (pc p)) f; Ok (Some w)
        else coordinates_edge s p f r
  end.
(** PT:107-109, the third loop of [coordinates]. *)
Fixpoint coordinates_vertex (s : S) (v : bits) (f : halfedge) (sides : list halfedge) : outcome triple :=
  match sides with
  | [] => Throw
  | side :: r =>
      do w <- vertex_source (fT s) side;
      if vertex_eqb v w then rotated s (mkPoint side 1%X 0%X 0%X) f
      else coordinates_vertex s v f r
  end.
(** PT:85-112, [coordinates]; without a vertex the comparisons in the third loop are false. *)
Definition coordinates (s : S) (p : P) (f : halfedge) : outcome triple :=
  do b <- point_in s p f;
  if negb b then Throw else
  do sides <- face_list s f;
  if existsb (Nat.eqb (pface p)) sides then rotated s p f else
  do w <- coordinates_edge s p f sides;
  match w with
  | Some w => Ok w
  | None =>
      do v <- point_vertex s p;
      match v with
      | Some v => coordinates_vertex s v f sides
      | None => Throw
      end
  end.

(** PT:146-160, [operator==]. *)
Definition point_eqb (s : S) (p q : P) : outcome bool :=
  do i <- point_in s q (pface p);
  if negb i then Ok false else
  do v <- point_vertex s p;
  match v with
  | Some v =>
      do w <- point_vertex s q;
      Ok (match w with Some w => vertex_eqb v w | None => false end)
  | None =>
      do (a, b, c) <- coordinates s q (pface p);
      let l := (pa p + pb p + pc p)%X in
      let m := (a + b + c)%X in
      Ok ((l * a =? m * pa p)%X && (l * b =? m * pb p)%X && (l * c =? m * pc p)%X)
  end.

(** PT:295-329, [crossed]. *)
Definition crossed (s : S) (p : P) : outcome triple :=
  do h <- nextInFace (fT s) (neg (pface p));
  do va <- from_he s h;
  let A := vneg va in
  do h <- previousInFace (fT s) (neg (pface p));
  do B <- from_he s h;
  do h <- nextInFace (fT s) (pface p);
  do vc <- from_he s h;
  let C := vadd B vc in
  let det := (vx B * vy A - vy B * vx A)%X in
  let lb := (vy A * vx C - vx A * vy C)%X in
  let la := (- vy B * vx C + vx B * vy C)%X in
  let dc := (det - la - lb)%X in
  Ok ((det * pb p + pc p * lb)%X, (det * pa p + pc p * la)%X, (pc p * dc)%X).

(** linear_deformation_relation.cc:120-131, [truediv]: the quotient if it exists. *)
Variable truediv : K -> K -> option K.

(** PT:331-355, [cartesian]. *)
Definition cartesian (s : S) (p : P) : outcome V :=
  do h <- previousInFace (fT s) (pface p);
  do v <- from_he s h;
  let AC := vneg v in
  do BC <- from_he s (pface p);
  let abc := (pa p + pb p + pc p)%X in
  let xy := vadd (vscale (pc p) AC) (vscale (pb p) BC) in
  match truediv (vx xy) abc with
  | None => Throw
  | Some x => match truediv (vy xy) abc with None => Throw | Some y => Ok (mkVec x y) end
  end.

(** PT:212-216, [vector]. *)
Definition point_vector (s : S) (p : P) (origin : halfedge) : outcome V :=
  do w <- coordinates s p origin; cartesian s (at_face origin w).

(** PT:471-491, [barycentric]. *)
Definition barycentric (s : S) (f : halfedge) (xy : V) : outcome triple :=
  do AB <- from_he s f;
  do h <- previousInFace (fT s) f;
  do v <- from_he s h;
  let AC := vneg v in
  let det := (vx AB * vy AC - vx AC * vy AB)%X in
  let b := (vy AC * vx xy - vx AC * vy xy)%X in
  let c := (- vy AB * vx xy + vx AB * vy xy)%X in
  let a := (det - b - c)%X in
  Ok (a, b, c).

(** PT:367-384, the face into which a translation points. *)
Definition face_for (s : S) (p : P) (d : V) : outcome P :=
  if nz (pc p) then Ok p
  else if nz (pb p) then
    do v <- from_he s (pface p);
    match ccw v d with
    | CLOCKWISE => Ok (mkPoint (neg (pface p)) (pb p) (pa p) (pc p))
    | _ => Ok p
    end
  else
    do v <- from_he s (pface p);
    match ccw v d with
    | CLOCKWISE => Throw
    | _ =>
        do h <- nextAtVertex (fT s) (pface p);
        do w <- from_he s h;
        match ccw w d with COUNTERCLOCKWISE => Throw | _ => Ok p end
    end.
(** PT:357-399, [operator+=] of the implementation; [None] if the translation leaves the face, what
    happens then is not modelled. *)
Definition translate (s : S) (p : P) (d : V) : outcome (option P) :=
  do p <- face_for s p d;
  do xy0 <- cartesian s p;
  do (a, b, c) <- barycentric s (pface p) (vadd xy0 d);
  if nonneg a && nonneg b && nonneg c then
    do q <- normalize s (mkPoint (pface p) a b c); Ok (Some q)
  else Ok None.
(** PT:76-79 and 223-226, the constructor from a vector; [None] as in [translate]. *)
Definition make_point_vector (s : S) (f : halfedge) (xy : V) : outcome (option P) :=
  do p <- translate s (mkPoint f 1%X 0%X 0%X) xy;
  match p with
  | Some p => do q <- normalize s p; Ok (Some q)
  | None => Ok None
  end.

(** FDR:64-98, the image of a point under the deformation of a flip; [s] is the domain, [s'] the codomain and
    [flip] the half edge. *)
Definition flip_point (s s' : S) (flip : halfedge) (p : P) : outcome P :=
  do i <- point_in s p flip;
  do j <- point_in s p (neg flip);
  if negb i && negb j then
    do w <- coordinates s p (pface p);
    make_point_array s' (pface p) w
  else
    do AB <- (do i <- point_in s p flip; Ok (if i then flip else neg flip));
    do (ma, mb, mc) <- coordinates s p AB;
    do BC <- nextInFace (fT s) AB;
    do CD <- nextInFace (fT s') BC;
    do (nd, nc, na) <- crossed s' (mkPoint CD 0%X 0%X 1%X);
    let nu := (nd + nc + na)%X in
    let Q := mkPoint (neg CD) (mb * nd)%X (nu * mc + mb * nc)%X (nu * ma + mb * na)%X in
    if (pa Q <? 0)%X || (pb Q <? 0)%X || (pc Q <? 0)%X then
      do w <- crossed s' Q; make_point_array s' CD w
    else
      do w <- rotated s' Q (neg CD); make_point_array s' (neg CD) w.

End point.

(** ** Hashing *)
(** What is not part of the library: the hashes of half edges, edges and numbers and how they are
    combined ([hash_combine]); [hash_size] is the type [size_t]. *)
Record hashing := mkHashing {
  hash_size : Type;
  hash_half_edge : halfedge -> hash_size;
  combine_he : halfedge -> halfedge -> hash_size;
  combine_edge : edge -> hash_size -> hash_size;
  combine1 : halfedge -> hash_size -> hash_size;
  combine2 : halfedge -> hash_size -> hash_size -> hash_size
}.

Section hash.
Context {K : ExactReal}.
Notation S := (flat K).
Notation P := (point K).

(** PT:532-540, the digits of the binary expansion of [x / y]; [size_t] is a 64 bit number which does not overflow here. *)
Fixpoint expand (fuel : nat) (x y : K) (hash : N) : N :=
  match fuel with
  | O => hash
  | Datatypes.S k =>
      let '(x, hash) := if negb (x <? y)%X then ((x - y)%X, (hash + 1)%N) else (x, hash) in
      expand k (x * rofZ 2)%X y (hash * 2)%N
  end.
(** PT:527-542, [quot] for coordinates in number fields. *)
Definition quot_digits (a b : K) : N := expand 8 a b 0%N.

Variable H : hashing.
(** PT:515-544, [quot]. *)
Variable quot : K -> K -> hash_size H.

(** [std::max] of three values (PT:512). *)
Definition rmax (x y : K) : K := if (x <? y)%X then y else x.

(** PT:561, [std::min_element] by index. *)
Definition min3 (x y z : nat) : nat :=
  let m := if y <? x then y else x in if z <? m then z else m.

(** PT:500-577, [std::hash<Point>]; vertex.cc, [std::hash<Vertex>]. *)
Definition point_hash (s : S) (p : P) : outcome (hash_size H) :=
  do v <- point_vertex s p;
  match v with
  | Some v => Ok (hash_half_edge H (sbegin v))
  | None =>
      let f := pface p in
      do (a, b, c) <- coordinates s p f;
      let m := rmax (rmax a b) c in
      match point_edge p with
      | Some e => Ok (combine_edge H (edge_of f) (if (a =? m)%X then quot b a else quot a b))
      | None =>
          do (b0, b1, b2) <- face (fT s) f;
          if (a =? m)%X && (b =? m)%X && (c =? m)%X then
            let x := min3 b0 b1 b2 in
            do y <- nextInFace (fT s) x;
            Ok (combine_he H x y)
          else if (a =? m)%X && (b =? m)%X then Ok (combine1 H f (quot c m))
          else if (a =? m)%X && (c =? m)%X then Ok (combine1 H b2 (quot b m))
          else if (b =? m)%X && (c =? m)%X then Ok (combine1 H b1 (quot a m))
          else if (a =? m)%X then Ok (combine2 H f (quot b m) (quot c m))
          else if (b =? m)%X then Ok (combine2 H b1 (quot c m) (quot a m))
          else if (c =? m)%X then Ok (combine2 H b2 (quot a m) (quot b m))
          else Throw
      end
  end.
End hash.
