(** * What a program with chains computes *)
From Coq Require Import ZArith Reals List Arith Bool.
From Verif Require Import Base HalfEdge Combinatorial ExactReal Vector Arb PlaneSpec FlatTri FlatSpec Chain.
Import ListNotations.

(** A chain is an integer for each edge; the edge with the half edges 2i and 2i+1 has number i. *)
Definition coeffs := nat -> Z.
Definition czero : coeffs := fun _ => 0%Z.
(** The chain of a half edge: the two half edges of an edge are opposite. *)
Definition single (h : nat) : coeffs := fun i => if i =? h / 2 then (if Nat.even h then 1 else -1)%Z else 0%Z.

Definition spec_step (st : list coeffs) (op : chain_op) : list coeffs :=
  let at_ i := nth i st czero in
  match op with
  | New => st ++ [czero]
  | NewHE h => st ++ [single h]
  | Copy i => st ++ [at_ i]
  | AddHE i h => upd st i (fun e => at_ i e + single h e)%Z
  | SubHE i h => upd st i (fun e => at_ i e - single h e)%Z
  | Add i j => upd st i (fun e => at_ i e + at_ j e)%Z
  | Sub i j => upd st i (fun e => at_ i e - at_ j e)%Z
  | Negate i => st ++ [fun e => - at_ i e]%Z
  | Mul i z => upd st i (fun e => z * at_ i e)%Z
  | Read _ | ReadApprox _ | Coef _ _ => st
  end.
Definition spec_run (ops : list chain_op) : list coeffs := fold_left spec_step ops [].

(** The number of chains after a program. *)
Definition creates (op : chain_op) : nat := match op with New | NewHE _ | Copy _ | Negate _ => 1 | _ => 0 end.
(** The program refers only to half edges of the surface and to chains that exist. *)
Definition valid_op (n k : nat) (op : chain_op) : Prop :=
  match op with
  | New => True
  | NewHE h => h < n
  | Copy i | Negate i | Mul i _ | Read i | ReadApprox i => i < k
  | AddHE i h | SubHE i h | Coef i h => i < k /\ h < n
  | Add i j | Sub i j => i < k /\ j < k
  end.
Fixpoint valid (n k : nat) (ops : list chain_op) : Prop :=
  match ops with [] => True | op :: r => valid_op n k op /\ valid n (k + creates op) r end.
Definition no_mul (ops : list chain_op) : Prop := forall i z, ~ In (Mul i z) ops.

(** The sum of the vectors of the edges. *)
Fixpoint psum (l : list pt) : pt := match l with [] => (0, 0)%R | p :: r => padd p (psum r) end.
Definition chain_vector {K : ExactReal} (n : nat) (s : flat K) (a : coeffs) : pt :=
  psum (map (fun i => pscale (IZR (a i)) (vv s (2 * i))) (seq 0 (n / 2))).
