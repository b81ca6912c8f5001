(** * Permutations

    Model of /repo/libflatsurf/src/permutation.cc.  Elements of the domain are
    half edges, i.e. natural number indexes. *)

From Coq Require Import List Arith Bool.
From Verif Require Import Base HalfEdge.
Import ListNotations.

(** /repo/libflatsurf/flatsurf/permutation.hpp: members [permutation] and [inverse]. *)
Record perm := mkPerm { fwd : list nat; bwd : list nat }.

(** permutation.cc:131-134, [operator()]. *)
Definition papp (p : perm) (i : nat) : outcome nat := vget (fwd p) i.

(** permutation.cc:136-139, [preimage]. *)
Definition ppre (p : perm) (i : nat) : outcome nat := vget (bwd p) i.

(** permutation.cc:141-144, [size]. *)
Definition psize (p : perm) : nat := length (fwd p).

(** permutation.cc:146-149, [domain] returns the vector [permutation]. *)
Definition pdomain (p : perm) : list nat := fwd p.

(** permutation.cc:41-57, [check]: every element of the domain is hit, and hit
    only once.  The counters [hits] are expressed with [count_occ]; the out of
    bounds increment [hits[index(target)]++] is UB. *)
Definition pcheck (l : list nat) : outcome unit :=
  if forallb (fun t => t <? length l) l then
    if forallb (fun i => negb (count_occ Nat.eq_dec l i =? 0)) (seq 0 (length l)) then
      if forallb (fun i => count_occ Nat.eq_dec l i =? 1) (seq 0 (length l)) then Ok tt
      else Throw
    else Throw
  else UB.

(** permutation.cc:68-69, the loop [inverse[index(this(v))] = v]. *)
Fixpoint fill_inverse (l : list nat) (vs : list nat) (inverse : list nat) : outcome (list nat) :=
  match vs with
  | [] => Ok inverse
  | v :: r =>
      do w <- vget l v;
      do inverse' <- vset inverse w v;
      fill_inverse l r inverse'
  end.

(** permutation.cc:64-72, [Permutation(const std::vector<T>&)]. *)
Definition perm_of_vector (l : list nat) : outcome perm :=
  do inverse <- fill_inverse l l l;
  do _ <- pcheck l;
  Ok (mkPerm l inverse).

(** [std::vector<T> data(n)] holds invalid half edges [HalfEdge()], whose index
    2^64-1 is beyond any vector: reading them in the constructor above is an out
    of bounds access.  [None] is such an invalid half edge. *)
Fixpoint all_valid (data : list (option nat)) : outcome (list nat) :=
  match data with
  | [] => Ok []
  | None :: _ => UB
  | Some x :: r => do s <- all_valid r; Ok (x :: s)
  end.

(** permutation.cc:79-82, one cycle: [data[index(cycle[i])] = cycle[(i + 1) % cycle.size()]]. *)
Fixpoint write_cycle (first : nat) (cycle : list nat) (data : list (option nat)) : outcome (list (option nat)) :=
  match cycle with
  | [] => Ok data
  | x :: r =>
      let y := match r with [] => first | y :: _ => y end in
      do data' <- vset data x (Some y);
      write_cycle first r data'
  end.

Fixpoint write_cycles (cycles : list (list nat)) (data : list (option nat)) : outcome (list (option nat)) :=
  match cycles with
  | [] => Ok data
  | c :: r =>
      do data' <- write_cycle (hd 0 c) c data;
      write_cycles r data'
  end.

(** permutation.cc:74-85, [Permutation(const std::vector<std::vector<T>>&)]. *)
Definition perm_of_cycles (cycles : list (list nat)) : outcome perm :=
  do data <- write_cycles cycles (repeat None (list_sum (map (@length nat) cycles)));
  do l <- all_valid data;
  perm_of_vector l.

(** permutation.cc:92-95, [data[index(ab.first)] = ab.second]. *)
Fixpoint write_pairs (ps : list (nat * nat)) (data : list (option nat)) : outcome (list (option nat)) :=
  match ps with
  | [] => Ok data
  | (a, b) :: r =>
      do data' <- vset data a (Some b);
      write_pairs r data'
  end.

(** permutation.cc:87-98, [Permutation(const std::vector<std::pair<T, T>>&)];
    permutation.cc:100-111, the version for an unordered_map, is the same loop
    over pairs with distinct first entries in unspecified order. *)
Definition perm_of_pairs (ps : list (nat * nat)) : outcome perm :=
  do data <- write_pairs ps (repeat None (length ps));
  do l <- all_valid data;
  perm_of_vector l.

(** permutation.cc:185-188, [operator~]. *)
Definition pinv (p : perm) : outcome perm := perm_of_vector (bwd p).

(** permutation.cc:190-198, [operator*=(const Permutation&)]. *)
Definition pmul (p rhs : perm) : outcome perm :=
  if psize p =? psize rhs then
    do l <- omap (papp p) (fwd rhs);
    perm_of_vector l
  else Throw.

(** permutation.cc:200-206, [trivial]. *)
Fixpoint ptrivial_from (p : perm) (vs : list nat) : outcome bool :=
  match vs with
  | [] => Ok true
  | v :: r =>
      do w <- papp p v;
      if w =? v then ptrivial_from p r else Ok false
  end.
Definition ptrivial (p : perm) : outcome bool := ptrivial_from p (pdomain p).

(** permutation.cc:255-258, [operator==]. *)
Definition peqb (p q : perm) : bool :=
  if list_eq_dec Nat.eq_dec (fwd p) (fwd q) then true else false.

(** Number of distinct entries, [std::unordered_set<T>(...).size()]. *)
Definition distinct (c : list nat) : nat := length (nodup Nat.eq_dec c).

(** permutation.cc:245-250, the loop of the right multiplication and the two
    writes after the loop; [x] is [*it]. *)
Fixpoint rmul_loop (tmp : nat) (x : nat) (c : list nat) (p : perm) : outcome perm :=
  match c with
  | [] =>
      do f <- vset (fwd p) x tmp;
      do b <- vset (bwd p) tmp x;
      Ok (mkPerm f b)
  | y :: r =>
      do py <- papp p y;
      do f <- vset (fwd p) x py;
      do py' <- vget f y;
      do b <- vset (bwd p) py' x;
      rmul_loop tmp y r (mkPerm f b)
  end.

(** permutation.cc:238-253, [operator*=(Permutation<T> &self, const std::vector<T> &cycle)]. *)
Definition rmul_cycle (p : perm) (c : list nat) : outcome perm :=
  if distinct c <=? 1 then Ok p else
  if distinct c =? length c then
    match c with
    | [] => UB
    | x :: r => do tmp <- papp p x; rmul_loop tmp x r p
    end
  else Throw.

(** permutation.cc:228-233, the loop of the left multiplication. *)
Fixpoint lmul_loop (tmp : nat) (x : nat) (c : list nat) (p : perm) : outcome perm :=
  match c with
  | [] =>
      do b <- vset (bwd p) x tmp;
      do f <- vset (fwd p) tmp x;
      Ok (mkPerm f b)
  | y :: r =>
      do py <- ppre p y;
      do b <- vset (bwd p) x py;
      do py' <- vget b y;
      do f <- vset (fwd p) py' x;
      lmul_loop tmp y r (mkPerm f b)
  end.

(** permutation.cc:221-236, [operator*=(const std::vector<T> &cycle, Permutation<T> &self)]. *)
Definition lmul_cycle (c : list nat) (p : perm) : outcome perm :=
  if distinct c <=? 1 then Ok p else
  if distinct c =? length c then
    match c with
    | [] => UB
    | x :: r => do tmp <- ppre p x; lmul_loop tmp x r p
    end
  else Throw.

(** permutation.cc:160-165, the do-while of [cycles()]: elements of the cycle
    after [s], in reverse order in the accumulator. *)
Fixpoint walk_cycle (fuel : nat) (p : perm) (t s : nat) (acc : list nat) : outcome (list nat) :=
  match fuel with
  | O => OutOfFuel
  | S k =>
      do s' <- papp p s;
      if s' =? t then Ok (rev (s :: acc)) else walk_cycle k p t s' (s :: acc)
  end.

(** permutation.cc:151-171, [cycles()].  [seen] is kept as the list of the
    cycles found so far. *)
Fixpoint cycles_from (p : perm) (ts : list nat) (found : list (list nat)) : outcome (list (list nat)) :=
  match ts with
  | [] => Ok (rev found)
  | t :: r =>
      if existsb (fun c => existsb (Nat.eqb t) c) found then cycles_from p r found
      else
        do c <- walk_cycle (psize p) p t t [];
        cycles_from p r (c :: found)
  end.
Definition pcycles (p : perm) : outcome (list (list nat)) := cycles_from p (pdomain p) [].

(** permutation.cc:208-219, [cycle(first)]; same loop as in [cycles()], with
    the last (repeated) element popped. *)
Definition pcycle (p : perm) (first : nat) : outcome (list nat) :=
  walk_cycle (psize p) p first first [].

(** permutation.cc:173-183, [drop].  [permutation.size() - items.size()] is
    unsigned: when there are more items than elements it wraps to a huge number
    and the second CHECK fails (items are nonempty then, and no index is that
    large). *)
Definition pdrop (p : perm) (items : list nat) : outcome perm :=
  do images <- omap (papp p) items;
  if forallb (fun w => existsb (Nat.eqb w) items) images then
    if (length items <=? psize p)
       && forallb (fun i => psize p - length items <=? i) items then
      Ok (mkPerm (firstn (psize p - length items) (fwd p))
                 (firstn (length (bwd p) - length items) (bwd p)))
    else Throw
  else Throw.
