(** * Exact coordinates

    The coordinate types of the library (LIBFLATSURF_REAL_TYPES in
    /repo/libflatsurf/src/util/instantiate.ipp) are external number types; this is the
    interface that the model uses of them. *)
From Coq Require Import ZArith QArith Qround Reals Lra Lia Bool Qreals.

(** A type of real numbers with exact arithmetic: a carrier with the operations
    that the library calls, a denotation as real numbers and the statement that the
    operations are exact. *)
Record ExactReal := mkExactReal {
  car :> Type;
  den : car -> R;
  rofZ : Z -> car;
  radd : car -> car -> car;
  rsub : car -> car -> car;
  rmul : car -> car -> car;
  ropp : car -> car;
  rltb : car -> car -> bool;
  reqb : car -> car -> bool;
  rfloor : car -> Z;
  den_ofZ : forall z, den (rofZ z) = IZR z;
  den_add : forall x y, den (radd x y) = (den x + den y)%R;
  den_sub : forall x y, den (rsub x y) = (den x - den y)%R;
  den_mul : forall x y, den (rmul x y) = (den x * den y)%R;
  den_opp : forall x, den (ropp x) = (- den x)%R;
  rltb_spec : forall x y, rltb x y = true <-> (den x < den y)%R;
  reqb_spec : forall x y, reqb x y = true <-> den x = den y;
  rfloor_spec : forall x, (IZR (rfloor x) <= den x < IZR (rfloor x) + 1)%R
}.

Arguments den {_} _.
Arguments rofZ {_} _.
Arguments radd {_} _ _.
Arguments rsub {_} _ _.
Arguments rmul {_} _ _.
Arguments ropp {_} _.
Arguments rltb {_} _ _.
Arguments reqb {_} _ _.
Arguments rfloor {_} _.

Declare Scope exact_scope.
Delimit Scope exact_scope with X.
Bind Scope exact_scope with car.
Infix "+" := radd : exact_scope.
Infix "-" := rsub : exact_scope.
Infix "*" := rmul : exact_scope.
Notation "- x" := (ropp x) : exact_scope.
Infix "<?" := rltb : exact_scope.
Infix "=?" := reqb : exact_scope.
Notation "0" := (rofZ 0%Z) : exact_scope.
Notation "1" := (rofZ 1%Z) : exact_scope.

#[global] Hint Rewrite den_ofZ den_add den_sub den_mul den_opp : den.

Lemma rltb_reflect (K : ExactReal) (x y : K) : reflect (den x < den y)%R (rltb x y).
Proof. apply iff_reflect. symmetry. apply rltb_spec. Qed.
Lemma reqb_reflect (K : ExactReal) (x y : K) : reflect (den x = den y)%R (reqb x y).
Proof. apply iff_reflect. symmetry. apply reqb_spec. Qed.
Arguments rltb_reflect {_} _ _.
Arguments reqb_reflect {_} _ _.

(** [std::ceil] from floor: for the types with a member [ceil()]. *)
Definition rceil {K : ExactReal} (x : K) : Z := (- rfloor (ropp x))%Z.

Lemma rceil_spec (K : ExactReal) (x : K) : (IZR (rceil x) - 1 < den x <= IZR (rceil x))%R.
Proof.
  unfold rceil. destruct (rfloor_spec K (ropp x)) as [A B]. rewrite den_opp in A, B. rewrite opp_IZR. lra.
Qed.

(** ** Instances, to compute with: integers and rationals (mpz_class, mpq_class) *)

Definition ExactZ : ExactReal.
Proof.
  refine (mkExactReal Z IZR (fun z => z) Z.add Z.sub Z.mul Z.opp Z.ltb Z.eqb (fun z => z) _ _ _ _ _ _ _ _).
  - reflexivity.
  - apply plus_IZR.
  - apply minus_IZR.
  - apply mult_IZR.
  - apply opp_IZR.
  - intros x y. rewrite Z.ltb_lt. split; [apply IZR_lt|apply lt_IZR].
  - intros x y. rewrite Z.eqb_eq. split; [congruence|apply eq_IZR].
  - intros x. split; lra.
Defined.

Definition Qltb (x y : Q) : bool := negb (Qle_bool y x).

Definition ExactQ : ExactReal.
Proof.
  refine (mkExactReal Q Q2R inject_Z Qplus Qminus Qmult Qopp Qltb Qeq_bool Qfloor _ _ _ _ _ _ _ _).
  - intros z. unfold Q2R. cbn. lra.
  - apply Q2R_plus.
  - apply Q2R_minus.
  - apply Q2R_mult.
  - apply Q2R_opp.
  - intros x y. unfold Qltb. rewrite negb_true_iff. split.
    + intros H. apply Qlt_Rlt. apply Qnot_le_lt. intros L. apply Qle_bool_iff in L. congruence.
    + intros H. apply not_true_is_false. intros L. apply Qle_bool_iff in L. apply Qle_Rle in L. lra.
  - intros x y. rewrite Qeq_bool_iff. split; [apply Qeq_eqR|apply eqR_Qeq].
  - intros x. split.
    + assert (A := Qfloor_le x). apply Qle_Rle in A. unfold Q2R in A at 1. cbn in A. lra.
    + assert (A := Qlt_floor x). apply Qlt_Rlt in A. unfold Q2R in A at 2. cbn [Qnum Qden inject_Z] in A.
      rewrite plus_IZR in A. lra.
Defined.
