(** * Chains

    Model of /repo/libflatsurf/src/chain.cc (CH), chain_vector.cc (CV), chain_iterator.cc (CI)
    and impl/chain.impl.hpp.  A state is the list of all chain objects on one surface.  The
    surface does not change while chains on it exist.

    Coefficients are FLINT integers.  FLINT is external: an [fmpz] stores its value either
    in a word or in an allocated mpz; a zero check looks at the word only. *)
From Coq Require Import ZArith QArith List Arith Bool.
From Verif Require Import Base HalfEdge Perm IndexedSet Combinatorial ExactReal Vector Arb FlatTri.
Import ListNotations.
Local Open Scope Z_scope.

(** fmpz of FLINT: an immediate value or a pointer to an mpz. *)
Inductive fmpz := Small (z : Z) | Big (z : Z).
Definition fval (f : fmpz) : Z := match f with Small z => z | Big z => z end.
(** COEFF_MAX of FLINT. *)
Definition coeff_max : Z := 2 ^ 62 - 1.
Definition normalize (z : Z) : fmpz := if (Z.abs z <=? coeff_max) then Small z else Big z.
(** fmpz_is_zero of FLINT: compares the word with zero. *)
Definition fmpz_is_zero (f : fmpz) : bool := match f with Small z => z =? 0 | Big _ => false end.
(** _fmpz_promote_val of FLINT. *)
Definition fmpz_promote (f : fmpz) : fmpz := Big (fval f).
(** _fmpz_demote_val of FLINT: follows the pointer without checking that there is one. *)
Definition fmpz_demote (f : fmpz) : outcome fmpz := match f with Small _ => UB | Big z => Ok (normalize z) end.
(** fmpz_add, fmpz_sub, fmpz_add_si of FLINT: the result is normalized. *)
Definition fmpz_add (f g : fmpz) : fmpz := normalize (fval f + fval g).
Definition fmpz_sub (f g : fmpz) : fmpz := normalize (fval f - fval g).
(** _fmpz_vec_scalar_mul_fmpz of FLINT for one entry: an mpz stays an mpz unless the product is zero. *)
Definition fmpz_mul (f : fmpz) (c : Z) : fmpz :=
  match f with
  | Small z => normalize (z * c)
  | Big z => if c =? 0 then Small 0 else Big (z * c)
  end.

(** impl/chain_vector.hpp: the members [value], [pendingMoves] (true for ADD) and [pendingMovesCost] of ChainVector. *)
Record cvec (V : Type) := mkCvec { cval : option V; cpend : list (bool * V); ccost : Z }.
Arguments mkCvec {V} _ _ _.
Arguments cval {V} _.
Arguments cpend {V} _.
Arguments ccost {V} _.

(** CV:32-85, the estimated costs for the two vector types (all are whole numbers). *)
Record costs := mkCosts { exact_add : Z; exact_copy : Z; exact_convert : Z; arb_add : Z; arb_copy : Z }.

(** CV:88-97, the constructors without and with a value. *)
Definition cv_none {V} : cvec V := mkCvec None [] 0.
Definition cv_value {V} (v : V) : cvec V := mkCvec (Some v) [] 0.

(** Vector<Arb>: vector.cc:92-125. *)
Definition aneg (b : ball) : ball := mkBall (Qopp (mid b)) (rad b).

Section chains.
Variable A : ArbOps.
Context {K : ExactReal}.
Variable arb : K -> ball.
Variable C : costs.
Variable s : flat K.

Definition avadd (v w : avec) : avec := mkAVec (aadd A (ax v) (ax w)) (aadd A (ay v) (ay w)).
Definition avneg (v : avec) : avec := mkAVec (aneg (ax v)) (aneg (ay v)).
Definition avsub (v w : avec) : avec := avadd v (avneg w).

(** impl/chain.impl.hpp: the members of a chain. *)
Record chain := mkChain { coefs : list fmpz; cexact : cvec (vec K); capprox : cvec avec }.
Definition store := list chain.

(** [surface.size()], the number of edges. *)
Definition chain_size : nat := tsize (fT s) / 2.
(** FT:451-453 with FT:1120-1146, [fromHalfEdgeApproximate]; the table is filled by casts. *)
Definition from_he_approx (h : halfedge) : outcome avec := do v <- from_he s h; Ok (approx arb v).

(** CV:80-82, [Cost::recompute]. *)
Definition recompute : Z := Z.of_nat chain_size * (2 * exact_add C).
(** CV:205-210, [recomputeCost] for the exact vector of a chain and for its approximate vector. *)
Definition recompute_exact (c : chain) : Z :=
  match cval (cexact c) with Some _ => ccost (cexact c) | None => recompute end.
Definition recompute_approx (c : chain) : Z :=
  match cval (cexact c) with Some _ => ccost (cexact c) + exact_convert C | None => recompute + exact_convert C end.

(** CV:214-228, apply all pending moves. *)
Definition apply_pending {V} (add sub : V -> V -> V) (v : V) (l : list (bool * V)) : V :=
  fold_left (fun v (m : bool * V) => if fst m then add v (snd m) else sub v (snd m)) l v.
Definition flush {V} (add sub : V -> V -> V) (x : cvec V) : cvec V :=
  match cval x with
  | Some v => cv_value (apply_pending add sub v (cpend x))
  | None => x
  end.

(** CH:233-241, [operator\[\]] of the implementation; promotes a coefficient that is not zero. *)
Definition coefficient (c : chain) (i : nat) : outcome (chain * option Z) :=
  do f <- vget (coefs c) i;
  if fmpz_is_zero f then Ok (c, None)
  else Ok (mkChain (upd (coefs c) i (fmpz_promote f)) (cexact c) (capprox c), Some (fval f)).

(** CV:243-247, the loop over the edges. *)
Fixpoint exact_loop (c : chain) (es : list edge) (exact : vec K) : outcome (chain * vec K) :=
  match es with
  | [] => Ok (c, exact)
  | e :: r =>
      do (c', x) <- coefficient c (e / 2);
      match x with
      | Some z => do v <- from_he s (positive e); exact_loop c' r (vadd exact (vscaleZ z v))
      | None => exact_loop c' r exact
      end
  end.
(** CV:213-257, reading the exact vector; also sets the approximate vector when it recomputes. *)
Definition read_exact (c : chain) : outcome (chain * vec K) :=
  match cval (cexact c) with
  | Some v =>
      let x := flush vadd vsub (cexact c) in
      Ok (mkChain (coefs c) x (capprox c), apply_pending vadd vsub v (cpend (cexact c)))
  | None =>
      do (c', v) <- exact_loop c (edges (fT s)) vzero;
      Ok (mkChain (coefs c') (cv_value v) (cv_value (approx arb v)), v)
  end.
(** CV:213-257, reading the approximate vector. *)
Definition read_approx (c : chain) : outcome (chain * avec) :=
  match cval (capprox c) with
  | Some v => Ok (mkChain (coefs c) (cexact c) (flush avadd avsub (capprox c)), apply_pending avadd avsub v (cpend (capprox c)))
  | None =>
      do (c', v) <- read_exact c;
      match cval (capprox c') with
      | Some w => Ok (c', w)
      | None => Ok (mkChain (coefs c') (cexact c') (cv_value (approx arb v)), approx arb v)
      end
  end.

(** CV:121-140, [operator+=(HalfEdge)]; [cost] is recomputeCost(). *)
Definition cv_add {V} (cost add_cost copy_cost : Z) (x : cvec V) (v : V) : cvec V :=
  match cval x with
  | None => x
  | Some _ =>
      if cost <? ccost x + copy_cost + add_cost then cv_none
      else mkCvec (cval x) (cpend x ++ [(true, v)]) (ccost x + add_cost)
  end.

(** CH:105-113, [operator+=(HalfEdge)]. *)
Definition add_half_edge (c : chain) (h : halfedge) : outcome chain :=
  do f <- vget (coefs c) (h / 2);
  let c := mkChain (upd (coefs c) (h / 2) (fmpz_add f (Small (if Nat.even h then 1 else -1)))) (cexact c) (capprox c) in
  do v <- from_he s h;
  let c := mkChain (coefs c) (cv_add (recompute_exact c) (exact_add C) (exact_copy C) (cexact c) v) (capprox c) in
  do w <- from_he_approx h;
  Ok (mkChain (coefs c) (cexact c) (cv_add (recompute_approx c) (arb_add C) (arb_copy C) (capprox c) w)).

(** CH:43-45 and 201-206, the zero chain. *)
Definition new_chain : chain := mkChain (repeat (Small 0) chain_size) cv_none cv_none.
(** CH:48-50 and 209-216, the chain of a half edge. *)
Definition new_half_edge (h : halfedge) : outcome chain :=
  do v <- from_he s h;
  do w <- from_he_approx h;
  do cs <- (do f <- vget (repeat (Small 0) chain_size) (h / 2);
            vset (repeat (Small 0) chain_size) (h / 2) (fmpz_add f (Small (if Nat.even h then 1 else -1))));
  Ok (mkChain cs (cv_value v) (cv_value w)).

(** _fmpz_vec_add and _fmpz_vec_sub of FLINT; both vectors must have the length of the first. *)
Fixpoint vec_op (op : fmpz -> fmpz -> fmpz) (a b : list fmpz) : outcome (list fmpz) :=
  match a, b with
  | [], _ => Ok []
  | x :: a, y :: b => do r <- vec_op op a b; Ok (op x y :: r)
  | _ :: _, [] => UB
  end.

(** CV:169-202, [record], on the exact vectors of the chains [i] and [j] (possibly the same);
    the test for rvalue references is always false, so nothing is moved. *)
Definition record_exact (add : bool) (st : store) (i j : nat) : outcome store :=
  do ci <- vget st i;
  do cj <- vget st j;
  match cval (cexact ci) with
  | None => Ok st
  | Some _ =>
      match cval (cexact cj) with
      | None => Ok (upd st i (mkChain (coefs ci) cv_none (capprox ci)))
      | Some _ =>
          if recompute_exact ci <? ccost (cexact cj) + ccost (cexact ci) + exact_copy C + exact_add C
          then Ok (upd st i (mkChain (coefs ci) cv_none (capprox ci)))
          else
            do (cj', v) <- read_exact cj;
            let st := upd st j cj' in
            do ci <- vget st i;
            Ok (upd st i (mkChain (coefs ci) (mkCvec (cval (cexact ci)) (cpend (cexact ci) ++ [(add, v)]) (ccost (cexact ci) + exact_add C)) (capprox ci)))
      end
  end.
(** The same for the approximate vectors. *)
Definition record_approx (add : bool) (st : store) (i j : nat) : outcome store :=
  do ci <- vget st i;
  do cj <- vget st j;
  match cval (capprox ci) with
  | None => Ok st
  | Some _ =>
      match cval (capprox cj) with
      | None => Ok (upd st i (mkChain (coefs ci) (cexact ci) cv_none))
      | Some _ =>
          if recompute_approx ci <? ccost (capprox cj) + ccost (capprox ci) + arb_copy C + arb_add C
          then Ok (upd st i (mkChain (coefs ci) (cexact ci) cv_none))
          else
            do (cj', v) <- read_approx cj;
            let st := upd st j cj' in
            do ci <- vget st i;
            Ok (upd st i (mkChain (coefs ci) (cexact ci) (mkCvec (cval (capprox ci)) (cpend (capprox ci) ++ [(add, v)]) (ccost (capprox ci) + arb_add C))))
      end
  end.
(** CH:121-158, [operator+=] and [operator-=] with another chain, chain number [i] += chain number [j]. *)
Definition add_chain (add : bool) (st : store) (i j : nat) : outcome store :=
  do ci <- vget st i;
  do cj <- vget st j;
  do cs <- vec_op (if add then fmpz_add else fmpz_sub) (coefs ci) (coefs cj);
  do st <- record_exact add (upd st i (mkChain cs (cexact ci) (capprox ci))) i j;
  record_approx add st i j.

(** CH:172-178, [operator*=]. *)
Definition mul_chain (c : chain) (z : Z) : chain := mkChain (map (fun f => fmpz_mul f z) (coefs c)) (cexact c) (capprox c).

(** CH:219-225 with CV:100-102, the copy constructor; reads the vectors of the original.  The result is
    the original and the copy. *)
Definition copy_chain (c : chain) : outcome (chain * chain) :=
  do (c, v) <- read_exact c;
  do (c, w) <- read_approx c;
  Ok (c, mkChain (coefs c) (cv_value v) (cv_value w)).

(** A program with chains.  Chains are numbered in the order of their creation. *)
Inductive chain_op :=
| New | NewHE (h : halfedge) | Copy (i : nat) | AddHE (i : nat) (h : halfedge) | SubHE (i : nat) (h : halfedge)
| Add (i j : nat) | Sub (i j : nat) | Negate (i : nat) | Mul (i : nat) (z : Z)
| Read (i : nat) | ReadApprox (i : nat) | Coef (i : nat) (e : nat).

(** CH:98-102, unary minus: a new zero chain from which [i] is subtracted. *)
Definition step (st : store) (op : chain_op) : outcome store :=
  match op with
  | New => Ok (st ++ [new_chain])
  | NewHE h => do c <- new_half_edge h; Ok (st ++ [c])
  | Copy i => do c <- vget st i; do (c, d) <- copy_chain c; Ok (upd st i c ++ [d])
  | AddHE i h => do c <- vget st i; do c <- add_half_edge c h; Ok (upd st i c)
  (* CH:116-118 *)
  | SubHE i h => do c <- vget st i; do c <- add_half_edge c (neg h); Ok (upd st i c)
  | Add i j => add_chain true st i j
  | Sub i j => add_chain false st i j
  | Negate i => add_chain false (st ++ [new_chain]) (length st) i
  | Mul i z => do c <- vget st i; Ok (upd st i (mul_chain c z))
  | Read i => do c <- vget st i; do (c, _) <- read_exact c; Ok (upd st i c)
  | ReadApprox i => do c <- vget st i; do (c, _) <- read_approx c; Ok (upd st i c)
  (* CH:53-57 *)
  | Coef i e => do c <- vget st i; do (c, _) <- coefficient c (e / 2); Ok (upd st i c)
  end.
Fixpoint run (st : store) (ops : list chain_op) : outcome store :=
  match ops with [] => Ok st | op :: r => do st <- step st op; run st r end.

(** CH:53-57, [operator\[\]] for edges. *)
Definition coef_edge (c : chain) (e : edge) : outcome Z :=
  do (_, x) <- coefficient c (e / 2); Ok (match x with Some z => z | None => 0 end).
(** CH:60-64, [operator\[\]] for half edges. *)
Definition coef_half_edge (c : chain) (h : halfedge) : outcome Z :=
  do z <- coef_edge c (edge_of h); Ok (if (h =? positive (edge_of h))%nat then z else - z).
(** CH:77-79, [operator bool]; _fmpz_vec_is_zero of FLINT. *)
Definition chain_bool (c : chain) : bool := negb (forallb fmpz_is_zero (coefs c)).
(** CH:161-169, [operator==] for chains on the same surface: a copy of [i] from which [j] is subtracted;
    boost/operators.hpp. The temporary is the last chain of the store. *)
Definition chain_eq (st : store) (i j : nat) : outcome (store * bool) :=
  do ci <- vget st i;
  do (ci, d) <- copy_chain ci;
  do st <- add_chain false (upd st i ci ++ [d]) (length st) j;
  do d <- vget st (length st - 1);
  Ok (firstn (length st - 1) st, negb (chain_bool d)).
(** boost/operators.hpp: [chain * z] copies and multiplies. *)
Definition times (st : store) (i : nat) (z : Z) : outcome store :=
  do st' <- step st (Copy i); step st' (Mul (length st) z).
(** CH:82-95, comparisons with a bound. *)
Definition chain_lt (c : chain) (b : bound) : outcome bool :=
  do (c, w) <- read_approx c;
  match alt A w b with
  | Some r => Ok r
  | None => do (_, v) <- read_exact c; Ok (vltb v b)
  end.
Definition chain_gt (c : chain) (b : bound) : outcome bool :=
  do (c, w) <- read_approx c;
  match agt A w b with
  | Some r => Ok r
  | None => do (_, v) <- read_exact c; Ok (vgtb v b)
  end.

(** util/hash.ipp:39-64, [hash_combine] for 64 bit words. *)
Definition word (z : Z) : Z := z mod 2 ^ 64.
Definition ror64 (w k : Z) : Z := Z.lor (Z.shiftr w k) (word (Z.shiftl w (64 - k))).
Definition rrxmxmx (v : Z) : Z :=
  let v := Z.lxor v (Z.lxor (ror64 v 49) (ror64 v 24)) in
  let v := word (v * 11507291218515648293) in
  let v := Z.lxor v (Z.shiftr v 28) in
  let v := word (v * 11507291218515648293) in
  Z.lxor v (Z.shiftr v 28).
Definition hash_combine (a b : Z) : Z := Z.lxor (rrxmxmx b) a.
(** CH:245-255, the hash of a coefficient: its value as a signed word or else its lowest limb. *)
Definition hash_fmpz (f : fmpz) : Z :=
  let z := fval f in
  if (- 2 ^ 63 <=? z) && (z <? 2 ^ 63) then word z else word (Z.abs z).
(** CH:244-262, [hash]; without any edges the first coefficient is read out of bounds. *)
Definition chain_hash (c : chain) : outcome Z :=
  match coefs c with
  | [] => UB
  | f :: r => Ok (fold_left (fun h g => hash_combine h (hash_fmpz g)) r (hash_fmpz f))
  end.

(** CI:79-87, [findNext] called with [pos - 1]. *)
Fixpoint find_next (fuel : nat) (cs : list fmpz) (pos : nat) : nat :=
  match fuel with
  | O => pos
  | S k => match nth_error cs pos with
           | Some f => if fmpz_is_zero f then find_next k cs (S pos) else pos
           | None => pos
           end
  end.
(** CI:90-96, [make]: promotes the coefficient unless the iterator is at the end.  An iterator is its position. *)
Definition it_make (c : chain) (pos : nat) : outcome (chain * nat) :=
  if (pos =? length (coefs c))%nat then Ok (c, pos) else do (c, _) <- coefficient c pos; Ok (c, pos).
(** CI:63-71, [begin]. *)
Definition it_begin (c : chain) : outcome (chain * nat) := it_make c (find_next (length (coefs c)) (coefs c) 0).
(** CI:35-39, [increment]. *)
Definition it_next (c : chain) (pos : nat) : outcome (chain * nat) :=
  do f <- vget (coefs c) pos;
  do f <- fmpz_demote f;
  let c := mkChain (upd (coefs c) pos f) (cexact c) (capprox c) in
  it_make c (find_next (length (coefs c)) (coefs c) (S pos)).
(** for (const auto& [edge, coefficient] : chain). *)
Fixpoint it_loop (fuel : nat) (c : chain) (pos : nat) : outcome (chain * list (edge * Z)) :=
  if (pos =? length (coefs c))%nat then Ok (c, []) else
  match fuel with
  | O => OutOfFuel
  | S k =>
      do f <- vget (coefs c) pos;
      do (c, pos') <- it_next c pos;
      do (c, l) <- it_loop k c pos';
      Ok (c, (2 * pos, fval f)%nat :: l)
  end.
Definition chain_items (c : chain) : outcome (chain * list (edge * Z)) :=
  do (c, pos) <- it_begin c; it_loop (S (length (coefs c))) c pos.
End chains.
