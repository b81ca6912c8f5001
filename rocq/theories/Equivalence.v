(** * Isomorphism classes of surfaces

    Model of /repo/libflatsurf/src/impl/equivalence_walker.hpp (EW), combinatorial_equivalence_walker.cc (CW), combinatorial_equivalence.cc (CE),
    linear_equivalence_walker.cc (LW), linear_equivalence.cc (LE), combinatorial_equivalence_class_code.cc (CC), linear_equivalence_class_code.cc (LC),
    equivalence_class.cc (EC) and equivalence.cc (EQ).

    Labels are unbounded integers.  Normalizations given by a callable are not modelled.  The exact division [div] (LE:40-55) throws when there is no quotient;
    it is given by the parameter [truediv], see [exact_division] in PointSpec.v.  Hashes and printing are not modelled. *)
From Coq Require Import ZArith List Arith Bool.
From Verif Require Import Base HalfEdge Perm IndexedSet Combinatorial ExactReal Vector FlatTri Point Linear Saddle Deform.
Import ListNotations.

(** ** Words *)
Section word.
Context {W C : Type}.
(** LW:67-81 or CW:46-87, [step]. *)
Variable step : W -> outcome (option C * W).
(** LW:43-64 or CW:90-98, [cmp]; [Lt], [Eq], [Gt] are -1, 0 and 1. *)
Variable cmp : C -> C -> comparison.

(** EW:129-141, [cmp] of optional characters. *)
Definition cmp_optional (lhs rhs : option C) : comparison :=
  match lhs, rhs with
  | None, None => Eq
  | None, Some _ => Gt
  | Some _, None => Lt
  | Some a, Some b => cmp a b
  end.
(** EW:76-102, the loop over the minimal walkers; the walkers after their step, the walkers that are still minimal, and the minimal character. *)
Fixpoint round (ws stepped still : list W) (best : option C) : outcome (list W * list W * option C) :=
  match ws with
  | [] => Ok (stepped, still, best)
  | w :: r =>
    do (c, w) <- step w;
    match c with
    | None => round r (stepped ++ [w]) still best
    | Some _ =>
      match cmp_optional c best with
      | Lt => round r (stepped ++ [w]) [w] c
      | Eq => round r (stepped ++ [w]) (still ++ [w]) best
      | Gt => round r (stepped ++ [w]) still best
      end
    end
  end.
(** EW:68-113, the characters of the word and the minimal walkers; [characters] are those found so far. *)
Fixpoint word (fuel : nat) (minimal : list W) (characters : list C) : outcome (list C * list W) :=
  match fuel with
  | O => OutOfFuel
  | S k =>
    do (stepped, still, best) <- round minimal [] [] None;
    match best with
    | None => Ok (characters, stepped)
    | Some c => word k still (characters ++ [c])
    end
  end.
End word.

(** [std::vector<int>::operator<] as used in CW:90-98. *)
Fixpoint compare_characters (a b : list Z) : comparison :=
  match a, b with
  | [], [] => Eq
  | [], _ :: _ => Lt
  | _ :: _, [] => Gt
  | x :: a, y :: b => match (x ?= y)%Z with Eq => compare_characters a b | o => o end
  end.
(** [std::vector<int>::operator==]. *)
Fixpoint characters_eqb (a b : list Z) : bool :=
  match a, b with
  | [], [] => true
  | x :: a, y :: b => (x =? y)%Z && characters_eqb a b
  | _, _ => false
  end.
(** [std::vector<T>::operator==]. *)
Fixpoint list_eqb {A} (eqb : A -> A -> bool) (a b : list A) : bool :=
  match a, b with
  | [], [] => true
  | x :: a, y :: b => eqb x y && list_eqb eqb a b
  | _, _ => false
  end.

Section walker.
Context {K : ExactReal}.
Local Notation F := (flat K).
(** linear_deformation_relation.cc:119-131, [truediv]; LE:40-55, [div]. *)
Variable truediv : K -> K -> option K.
(** The bound for the number of steps in loops. *)
Variable fuel : nat.

(** ** The combinatorial walker *)
(** impl/combinatorial_equivalence_walker.hpp:72-80, the members; [labels] is a list of pairs with distinct keys. *)
Record cwalker := mkCW { cw_surface : F; cw_labels : list (halfedge * Z); cw_labeled : list halfedge; cw_orientation : Z; cw_steps : nat }.
(** CW:37-43. *)
Definition make_cwalker (s : F) (start : halfedge) (orientation : Z) : cwalker := mkCW s [(neg start, 0%Z)] [neg start] orientation 0.
(** [std::unordered_map::find] for [labels]. *)
Definition find_label (labels : list (halfedge * Z)) (h : halfedge) : option Z :=
  match find (fun p => fst p =? h) labels with Some (_, l) => Some l | None => None end.
(** CW:106-132, [label]. *)
Definition cw_label (w : cwalker) (h : halfedge) : outcome (Z * cwalker) :=
  do first <- vat (cw_labeled w) 0;
  if h =? first then Ok (0%Z, w) else
  match find_label (cw_labels w) h with
  | Some l => Ok (l, w)
  | None =>
    match find_label (cw_labels w) (neg h) with
    | Some l => Ok ((- l)%Z, w)
    | None =>
      let l := Z.of_nat (length (cw_labels w)) in
      Ok (l, mkCW (cw_surface w) (cw_labels w ++ [(h, l)]) (cw_labeled w ++ [h]) (cw_orientation w) (cw_steps w))
    end
  end.
(** CW:68, the next half edge of the face. *)
Definition cw_next (w : cwalker) (pos : halfedge) : outcome halfedge :=
  if (0 <? cw_orientation w)%Z then nextInFace (fT (cw_surface w)) pos else
  do a <- previousAtVertex (fT (cw_surface w)) pos;
  do b <- previousAtVertex (fT (cw_surface w)) (neg a);
  Ok (neg b).
(** CW:61-84, the loop of [step]. *)
Fixpoint cw_face (k : nat) (w : cwalker) (start pos : halfedge) (character : list Z) : outcome (option (list Z) * cwalker) :=
  match k with
  | O => OutOfFuel
  | S k =>
    do pos <- cw_next w pos;
    if pos =? start then Ok (Some character, w) else
    do (label, w) <- cw_label w pos;
    let steps := Z.of_nat (cw_steps w) in
    if (0 <? label)%Z && (label <? steps)%Z then Ok (Some [], w) else
    if (label <? 0)%Z && (- label <? steps - 1)%Z then Ok (Some [], w) else
    cw_face k w start pos (character ++ [label])
  end.
(** CW:46-87, [step]. *)
Definition cw_step (w : cwalker) : outcome (option (list Z) * cwalker) :=
  if length (cw_labeled w) <=? cw_steps w then Ok (None, w) else
  do cross <- vget (cw_labeled w) (cw_steps w);
  let w := mkCW (cw_surface w) (cw_labels w) (cw_labeled w) (cw_orientation w) (S (cw_steps w)) in
  let start := neg cross in
  match find_label (cw_labels w) start with
  | Some _ => Ok (Some [], w)
  | None => cw_face fuel w start start []
  end.
(** CW:145-170, [relabeling]; following the iterator at the end is undefined. *)
Definition relabeling (w : cwalker) : outcome (list (halfedge * halfedge)) :=
  omap (fun h =>
    match find_label (cw_labels w) h with
    | Some l => Ok (h, he_of_id (l + 1))
    | None =>
      match find_label (cw_labels w) (neg h) with
      | Some l => Ok (h, he_of_id (- (l + 1)))
      | None => UB
      end
    end) (half_edges (fT (cw_surface w))).
(** CW:135-137, [normalization]. *)
Definition cw_normalization (w : cwalker) : outcome F :=
  do m <- relabeling w;
  do p <- perm_of_pairs m;
  do r <- deform_relabel (cw_surface w) p;
  fclone (codomain r).
(** CW:140-142, [deformation]. *)
Definition cw_deformation (w : cwalker) (u : F) : outcome (relation K) :=
  do m <- relabeling w; make_combinatorial (cw_surface w) u m.

(** ** The linear walker *)
(** impl/linear_equivalence.hpp:39, [Matrix]. *)
Definition matrix : Type := (K * K * K * K)%type.
(** impl/linear_equivalence_walker.hpp:63-65, the members. *)
Record lwalker := mkLW { lw_combinatorial : cwalker; lw_matrix : matrix }.
(** LW:30-34. *)
Definition make_lwalker (s : F) (start : halfedge) (m : matrix) : lwalker :=
  let '(a, b, c, d) := m in
  mkLW (make_cwalker s start (if (0 <? a * d - b * c)%X then 1 else -1)%Z) m.
(** LW:43-64, [cmp]. *)
Definition compare_linear (l r : list Z * vec K) : comparison :=
  match compare_characters (fst l) (fst r) with
  | Eq =>
    if rltb (vx (snd l)) (vx (snd r)) then Lt else
    if rltb (vx (snd r)) (vx (snd l)) then Gt else
    if rltb (vy (snd l)) (vy (snd r)) then Lt else
    if rltb (vy (snd r)) (vy (snd l)) then Gt else Eq
  | o => o
  end.
(** LW:67-81, [step]. *)
Definition lw_step (w : lwalker) : outcome (option (list Z * vec K) * lwalker) :=
  do (c, cw) <- cw_step (lw_combinatorial w);
  let w := mkLW cw (lw_matrix w) in
  match c with
  | None => Ok (None, w)
  | Some c =>
    do cross <- vget (cw_labeled cw) (cw_steps cw - 1);
    do v <- from_he (cw_surface cw) (neg cross);
    let '(a, b, c', d) := lw_matrix w in
    Ok (Some (c, vapply a b c' d v), w)
  end.
(** LW:95-103, [normalization]. *)
Definition lw_normalization (w : lwalker) : outcome F :=
  do u <- cw_normalization (lw_combinatorial w);
  let '(a, b, c, d) := lw_matrix w in
  do r <- deform_matrix u a b c d;
  fclone (codomain r).
(** LW:84-92, [deformation]. *)
Definition lw_deformation (w : lwalker) (u : F) : outcome (relation K) :=
  let '(a, b, c, d) := lw_matrix w in
  do deformed <- deform_matrix (cw_surface (lw_combinatorial w)) a b c d;
  do m <- relabeling (lw_combinatorial w);
  do r <- make_combinatorial (codomain deformed) u m;
  do (f, _, _) <- compose fuel r deformed;
  Ok f.

(** ** Equivalences *)
(** impl/linear_equivalence.hpp:41-45, [GROUP]. *)
Inductive GROUP := TRIVIAL | SL | GL.
(** impl/combinatorial_equivalence.hpp and impl/linear_equivalence.hpp: the two kinds of equivalences. *)
Inductive equivalence := ECombinatorial (oriented : bool) | ELinear (oriented : bool) (group : GROUP).
(** EQ:38-40. *)
Definition combinatorial (oriented : bool) : equivalence := ECombinatorial oriented.
(** EQ:43-50. *)
Definition unlabeled : equivalence := ELinear true TRIVIAL.
(** EQ:53-57. *)
Definition area_preserving (oriented : bool) : equivalence := ELinear oriented SL.
(** EQ:60-65, without a callable. *)
Definition linear (oriented : bool) : equivalence := ELinear oriented GL.

(** LE:40-55, [div]. *)
Definition div (x y : K) : outcome K := match truediv x y with Some z => Ok z | None => Throw end.
(** LE:162-171, [orthonormalize]. *)
Definition orthonormalize (s : F) (a b : halfedge) : outcome matrix :=
  do v <- from_he s a;
  do w <- from_he s b;
  let det := (vx v * vy w - vy v * vx w)%X in
  do p <- div (vy w) det;
  do q <- div (vx w) det;
  do r <- div (vy v) det;
  do t <- div (vx v) det;
  Ok (p, ropp q, ropp r, t).
(** LE:147-159, [orthogonalize]. *)
Definition orthogonalize (s : F) (e f : halfedge) : outcome matrix :=
  do (a, b, c, d) <- orthonormalize s e f;
  let det := (a * d - b * c)%X in
  let det := if (det <? 0)%X then ropp det else det in
  do c <- div c det;
  do d <- div d det;
  Ok (a, b, c, d).
(** LE:129-144, [normalize]. *)
Definition normalize_matrix (g : GROUP) (s : F) (e f : halfedge) : outcome matrix :=
  match g with
  | TRIVIAL => Ok (rofZ 1, rofZ 0, rofZ 0, rofZ 1)
  | GL => orthonormalize s e f
  | SL => orthogonalize s e f
  end.
(** CE:55-62, the walkers. *)
Definition combinatorial_walkers (oriented : bool) (s : F) : list cwalker :=
  flat_map (fun h => make_cwalker s h 1 :: if oriented then [] else [make_cwalker s h (-1)]) (half_edges (fT s)).
(** LE:109-123, the walkers. *)
Definition linear_walkers (oriented : bool) (g : GROUP) (s : F) : outcome (list lwalker) :=
  do ws <- omap (fun h =>
    do f <- nextAtVertex (fT s) h;
    do m <- normalize_matrix g s h f;
    if oriented then Ok [make_lwalker s h m] else
    do p <- previousAtVertex (fT s) h;
    do m' <- normalize_matrix g s h p;
    Ok [make_lwalker s h m; make_lwalker s h m']) (half_edges (fT s));
  Ok (concat ws).

(** The words: CW:101-103 and LW:37-40, [append]. *)
Inductive code := CCombinatorial (w : list (list Z)) | CLinear (w : list (list Z)) (vs : list (vec K)).
(** CC:80-86, LC:51-57, [equal]. *)
Definition code_eqb (c d : code) : bool :=
  match c, d with
  | CCombinatorial w, CCombinatorial w' => list_eqb characters_eqb w w'
  | CLinear w vs, CLinear w' vs' => list_eqb characters_eqb w w' && list_eqb veqb vs vs'
  | _, _ => false
  end.
(** EW:117-122; the minimal walker whose normalization is used, and the deformations; reading the first entry of an empty vector is undefined. *)
Definition finish {W} (normalization : W -> outcome F) (deformation : W -> F -> outcome (relation K)) (ws : list W) : outcome (F * list (relation K)) :=
  do w <- vget ws 0;
  do u <- normalization w;
  do ds <- omap (fun w => deformation w u) ws;
  Ok (u, ds).
(** CE:54-65 and LE:108-126 with EW:42-125, [code]. *)
Definition code_of (e : equivalence) (s : F) : outcome (code * F * list (relation K)) :=
  match e with
  | ECombinatorial oriented =>
    do (cs, ws) <- word cw_step compare_characters fuel (combinatorial_walkers oriented s) [];
    do (u, ds) <- finish cw_normalization cw_deformation ws;
    Ok (CCombinatorial cs, u, ds)
  | ELinear oriented g =>
    do ws <- linear_walkers oriented g s;
    do (cs, ws) <- word lw_step compare_linear fuel ws [];
    do (u, ds) <- finish lw_normalization lw_deformation ws;
    Ok (CLinear (map fst cs) (map snd cs), u, ds)
  end.

(** impl/equivalence_class.impl.hpp:36-39, the members of a class. *)
Record eclass := mkClass { ec_code : code; ec_surface : F; ec_automorphisms : nat }.
(** EC:50-58, the constructor. *)
Definition make_class (e : equivalence) (s : F) : outcome eclass :=
  do (c, u, ds) <- code_of e s; Ok (mkClass c u (length ds)).
(** EQ:68-70, [isomorphic], with EC:35-37, [operator==]; both classes hold the same equivalence. *)
Definition isomorphic (e : equivalence) (s u : F) : outcome bool :=
  do x <- make_class e s; do y <- make_class e u; Ok (code_eqb (ec_code x) (ec_code y)).
(** EQ:86-107, [isomorphisms]; composing with a trivial deformation may replace the latter (deformation.cc) which does not change the result. *)
Definition isomorphisms (e : equivalence) (s u : F) : outcome (list (relation K)) :=
  do (c, sn, sds) <- code_of e s;
  do (d, un, uds) <- code_of e u;
  if negb (code_eqb c d) then Ok [] else
  do eq <- flat_eqb sn un;
  if negb eq then Throw else
  do here <- flat_eqb un u;
  if here then Ok sds else
  do first <- vat uds 0;
  do back <- relation_section truediv first;
  omap (fun f => do (r, _, _) <- compose fuel back f; Ok r) sds.
End walker.
