(** * Outcomes of modelled functions and list utilities

    [outcome] is how every modelled C++ function that can fail returns:
    - [Ok v]       normal return;
    - [Throw]      a LIBFLATSURF_CHECK / LIBFLATSURF_CHECK_ARGUMENT failed or an
                   exception was thrown explicitly
                   (/repo/libflatsurf/src/util/assert.ipp, lines 20-90);
    - [UB]         undefined behaviour, e.g. [std::vector::operator[]] out of bounds;
    - [OutOfFuel]  a loop did not finish within the fuel given to the model. *)

From Coq Require Import List Arith Lia Bool.
Import ListNotations.

Inductive outcome (A : Type) : Type :=
| Ok (a : A)
| Throw
| UB
| OutOfFuel.
Arguments Ok {A} a.
Arguments Throw {A}.
Arguments UB {A}.
Arguments OutOfFuel {A}.

Definition bind {A B} (x : outcome A) (f : A -> outcome B) : outcome B :=
  match x with
  | Ok a => f a
  | Throw => Throw
  | UB => UB
  | OutOfFuel => OutOfFuel
  end.

Notation "'do' x <- e ; f" := (bind e (fun x => f))
  (at level 200, x pattern, e at level 100, f at level 200, right associativity).

(** Run [f] on every element of a list from left to right. *)
Fixpoint omap {A B} (f : A -> outcome B) (l : list A) : outcome (list B) :=
  match l with
  | [] => Ok []
  | a :: r => do b <- f a; do s <- omap f r; Ok (b :: s)
  end.

(** [std::vector<T>::operator[]] for reading. *)
Definition vget {A} (l : list A) (i : nat) : outcome A :=
  match nth_error l i with
  | Some a => Ok a
  | None => UB
  end.

(** Replace entry [i]; no effect beyond the end (see [vset]). *)
Fixpoint upd {A} (l : list A) (i : nat) (x : A) : list A :=
  match l, i with
  | [], _ => []
  | _ :: r, O => x :: r
  | a :: r, S j => a :: upd r j x
  end.

(** [std::vector<T>::operator[]] for writing. *)
Definition vset {A} (l : list A) (i : nat) (x : A) : outcome (list A) :=
  if i <? length l then Ok (upd l i x) else UB.

Lemma upd_length {A} (l : list A) i x : length (upd l i x) = length l.
Proof. revert i; induction l as [|a l IH]; intros [|i]; cbn; auto. Qed.

Lemma nth_error_upd_eq {A} (l : list A) i x :
  i < length l -> nth_error (upd l i x) i = Some x.
Proof. revert i; induction l as [|a l IH]; intros [|i] H; cbn in *; try lia; auto. apply IH; lia. Qed.

Lemma nth_error_upd_ne {A} (l : list A) i j x :
  i <> j -> nth_error (upd l i x) j = nth_error l j.
Proof. revert i j; induction l as [|a l IH]; intros [|i] [|j] H; cbn in *; auto; try lia. Qed.

Lemma nth_upd_eq {A} (l : list A) i x d :
  i < length l -> nth i (upd l i x) d = x.
Proof. revert i; induction l as [|a l IH]; intros [|i] H; cbn in *; try lia; auto. apply IH; lia. Qed.

Lemma nth_upd_ne {A} (l : list A) i j x d :
  i <> j -> nth j (upd l i x) d = nth j l d.
Proof. revert i j; induction l as [|a l IH]; intros [|i] [|j] H; cbn in *; auto; try lia. Qed.

Lemma nth_upd {A} (l : list A) i j x d :
  i < length l -> nth j (upd l i x) d = if j =? i then x else nth j l d.
Proof.
  intros H. destruct (Nat.eqb_spec j i) as [->|E].
  - now apply nth_upd_eq.
  - apply nth_upd_ne; auto.
Qed.

Lemma vget_nth {A} (l : list A) i d : i < length l -> vget l i = Ok (nth i l d).
Proof.
  intros H. unfold vget. rewrite (nth_error_nth' l d H). reflexivity.
Qed.

Lemma vget_Ok {A} (l : list A) i a : vget l i = Ok a -> i < length l /\ forall d, nth i l d = a.
Proof.
  unfold vget. destruct (nth_error l i) eqn:E; intros H; inversion H; subst.
  split.
  - apply nth_error_Some. congruence.
  - intros d. apply nth_error_nth with (d := d) in E. auto.
Qed.

Lemma vset_Ok {A} (l : list A) i x : i < length l -> vset l i x = Ok (upd l i x).
Proof. intros H. unfold vset. apply Nat.ltb_lt in H. now rewrite H. Qed.

Lemma vset_inv {A} (l : list A) i x l' : vset l i x = Ok l' -> i < length l /\ l' = upd l i x.
Proof.
  unfold vset. destruct (Nat.ltb_spec i (length l)); intros H1; inversion H1; auto.
Qed.

Lemma bind_Ok {A B} (x : outcome A) (f : A -> outcome B) b :
  bind x f = Ok b -> exists a, x = Ok a /\ f a = Ok b.
Proof. destruct x; cbn; intros H; try discriminate; eauto. Qed.

Lemma omap_Ok {A B} (f : A -> outcome B) l r :
  omap f l = Ok r -> Forall2 (fun a b => f a = Ok b) l r.
Proof.
  revert r. induction l as [|a l IH]; cbn; intros r H.
  - inversion H. constructor.
  - apply bind_Ok in H as (b & Hb & H). apply bind_Ok in H as (s & Hs & H).
    inversion H; subst. constructor; auto.
Qed.

Lemma omap_map {A B} (f : A -> outcome B) (g : A -> B) l :
  (forall a, In a l -> f a = Ok (g a)) -> omap f l = Ok (map g l).
Proof.
  induction l as [|a l IH]; cbn; intros H; auto.
  rewrite H by auto. cbn. rewrite IH by auto. reflexivity.
Qed.

Lemma nth_ext_nat (l l' : list nat) :
  length l = length l' ->
  (forall i, i < length l -> nth i l 0 = nth i l' 0) -> l = l'.
Proof. intros H1 H2. apply nth_ext with (d := 0) (d' := 0); auto. Qed.

(** Inject a goal [x = Ok _] stepwise. *)
Ltac inv H := inversion H; subst; clear H.
