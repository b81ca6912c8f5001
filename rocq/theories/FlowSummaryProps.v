(** * Theorems about the summaries of a flow decomposition (C47) *)
From Coq Require Import QArith ZArith Reals Qreals List Arith Bool Lia Lra Psatz Permutation.
From Verif Require Import Base ExactReal Vector Sqrt2 FlowSummary.
Import ListNotations.
Local Open Scope R_scope.

(** ** Specification *)
(** The ratio of two numbers is rational. *)
Definition commensurable (x y : R) : Prop := exists q : Q, x = Q2R q * y.
Definition norm2 {K : ExactReal} (v : vec K) : R := den (vx v) * den (vx v) + den (vy v) * den (vy v).
(** The modulus of a cylinder: its height divided by its circumference, its area divided by the square of its circumference. *)
Definition modulus {K : ExactReal} (c : component K) : R := den (carea2 c) / norm2 (choly c).
(** Components have an area and the holonomy of their boundary is not trivial. *)
Definition proper {K : ExactReal} (c : component K) : Prop := norm2 (choly c) <> 0 /\ den (carea2 c) <> 0.

(** Linear combinations with rational coefficients, and numbers that are independent over the rationals. *)
Fixpoint combination (u : list Q) (b : list R) : R :=
  match u, b with x :: u, y :: b => Q2R x * y + combination u b | _, _ => 0 end.
Definition independent (b : list R) : Prop :=
  forall u, length u = length b -> combination u b = 0 -> forall x, In x u -> (x == 0)%Q.
(** The contract of intervalxt's Coefficients. *)
Definition coefficients_in_a_basis {K : ExactReal} (coefficients : K -> K -> list Q * list Q) : Prop :=
  forall x y, exists b, independent b /\ length (fst (coefficients x y)) = length b /\ length (snd (coefficients x y)) = length b /\
    den x = combination (fst (coefficients x y)) b /\ den y = combination (snd (coefficients x y)) b.

(** ** Linear algebra *)
Lemma combination_scale q u b : Q2R q * combination u b = combination (map (Qmult q) u) b.
Proof.
  revert b. induction u as [|x u IH]; intros b; cbn; [lra|]. destruct b as [|y b]; [lra|]. rewrite <- IH, Q2R_mult. lra.
Qed.
Lemma combination_sub u : forall v b, length u = length b -> length v = length b ->
  combination u b - combination v b = combination (map (fun p => (fst p - snd p)%Q) (combine u v)) b.
Proof.
  induction u as [|x u IH]; intros [|y v] [|z b]; cbn; try lra; try discriminate. intros E F. rewrite <- IH by lia. rewrite Q2R_minus. lra.
Qed.
Lemma independent_tail y b : independent (y :: b) -> independent b.
Proof.
  intros I u L E x Hx. apply (I (0%Q :: u)); [cbn; lia| |cbn; auto]. cbn. rewrite E. unfold Q2R; cbn. lra.
Qed.
Lemma combination_ext u v b : Forall2 Qeq u v -> combination u b = combination v b.
Proof. intros F. revert b. induction F as [|x y u v E F IH]; intros b; cbn; auto. destruct b; auto. now rewrite (Qeq_eqR _ _ E), IH. Qed.

Lemma same_ratio_spec x y u v : same_ratio x y u v = true <->
  (forall a b, In (a, b) (combine u v) -> (x * b == a * y)%Q).
Proof.
  revert v. induction u as [|a u IH]; intros [|b v]; cbn; [split; auto; intros; contradiction..|].
  destruct (Qeq_bool (x * b) (a * y)) eqn:E; cbn.
  - rewrite IH. split; intros H.
    + intros a' b' [X|X]; [injection X as <- <-; now apply Qeq_bool_iff|auto].
    + auto.
  - split; [discriminate|]. intros H. assert (X := H a b (or_introl eq_refl)). apply Qeq_bool_iff in X. congruence.
Qed.

Lemma proportional_spec u : forall v b, independent b -> length u = length b -> length v = length b ->
  combination u b <> 0 -> combination v b <> 0 ->
  (proportional u v = true <-> commensurable (combination u b) (combination v b)).
Proof.
  unfold proportional. induction u as [|x u IH]; intros [|y v] [|z b] I L M A B; cbn in L, M; try discriminate; [cbn in A; lra|].
  cbn [skip_zeros]. destruct (Qeq_bool x 0 && Qeq_bool y 0) eqn:E.
  - apply andb_true_iff in E as [Ex Ey]. apply Qeq_bool_iff, Qeq_eqR in Ex, Ey. cbn in A, B |- *. rewrite Ex, Ey in *.
    change (Q2R 0) with (0 * / 1) in *. rewrite !Rmult_0_l in *. rewrite !Rplus_0_l in *. apply IH; auto. eapply independent_tail; eauto.
  - assert (Z : Forall2 Qeq (x :: u) (x :: u) /\ Forall2 Qeq (y :: v) (y :: v)).
    { split; [generalize (x :: u)|generalize (y :: v)]; intros l; induction l; constructor; auto; reflexivity. }
    rewrite same_ratio_spec. split.
    + intros H. destruct (Qeq_dec y 0) as [Y|Y].
      * exfalso. assert (X : ~ (x == 0)%Q).
        { intros X. apply Qeq_bool_iff in X, Y. rewrite X, Y in E. discriminate. }
        apply B. cbn. rewrite (Qeq_eqR _ _ Y). change (Q2R 0) with (0 * / 1). rewrite !Rmult_0_l, Rplus_0_l.
        assert (V : forall q, In q v -> (q == 0)%Q).
        { intros q Hq. assert (exists a, In (a, q) (combine u v)) as (a & Ha).
          { clear - Hq L M. assert (length u = length v) by lia. clear L M. revert u H. induction v as [|w v IH]; intros [|a u] H; cbn in *; try contradiction; try discriminate.
            destruct Hq as [->|Hq]; [exists a; auto|]. destruct (IH Hq u) as (a' & Ha'); [lia|]. exists a'. auto. }
          apply H in Ha. rewrite Y, Qmult_0_r in Ha. apply Qmult_integral in Ha as [|]; tauto. }
        clear - V. revert b. induction v as [|w v IH]; intros b; cbn; auto. destruct b as [|z b]; auto. rewrite IH by (intros; apply V; cbn; auto).
        rewrite (Qeq_eqR _ _ (V w (or_introl eq_refl))). change (Q2R 0) with (0 * / 1). lra.
      * exists (x / y)%Q. rewrite combination_scale. apply combination_ext. cbn. constructor; [field; auto|].
        clear - H Y L M. assert (LL : length u = length v) by lia. clear L M. revert v H LL. induction u as [|a u IH]; intros [|w v] H LL; cbn in *; try discriminate; constructor.
        -- assert (T := H a w (or_introl eq_refl)). apply (Qmult_inj_r _ _ y Y). rewrite <- T. field. auto.
        -- apply IH; [auto|lia].
    + intros (q & Q) a c Hac. rewrite combination_scale in Q.
      assert (D : combination (x :: u) (z :: b) - combination (map (Qmult q) (y :: v)) (z :: b) = 0) by lra.
      rewrite combination_sub in D by (cbn; rewrite ?map_length; lia).
      assert (W := fun H => I _ H D). specialize (W ltac:(rewrite map_length, combine_length; cbn; rewrite map_length; lia)).
      assert (Hx : (x == q * y)%Q).
      { assert (T := W (x - q * y)%Q ltac:(cbn; auto)). apply (Qplus_inj_r _ _ (- (q * y))). rewrite T. ring. }
      assert (Ha : (a == q * c)%Q).
      { assert (T : (a - q * c == 0)%Q).
        { apply W. cbn. right. clear - Hac. revert v Hac. induction u as [|a' u IH]; intros [|w v] H; cbn in *; try contradiction.
          destruct H as [H|H]; [injection H as -> ->; auto|]. right. auto. }
        apply (Qplus_inj_r _ _ (- (q * c))). rewrite T. ring. }
      rewrite Hx, Ha. ring.
Qed.

Lemma commensurable_refl x : commensurable x x.
Proof. exists 1%Q. unfold Q2R; cbn. lra. Qed.
Lemma commensurable_sym x y : x <> 0 -> commensurable x y -> commensurable y x.
Proof.
  intros X (q & E). assert (Q : ~ (q == 0)%Q) by (intros Z; apply Qeq_eqR in Z; rewrite Z in E; apply X; rewrite E; unfold Q2R; cbn; lra).
  exists (/ q)%Q. rewrite Q2R_inv by auto. rewrite E. assert (Q2R q <> 0) by (intros Z; apply Q; apply eqR_Qeq; rewrite Z; unfold Q2R; cbn; lra). field. auto.
Qed.
Lemma commensurable_trans x y z : commensurable x y -> commensurable y z -> commensurable x z.
Proof. intros (q & ->) (r & ->). exists (q * r)%Q. rewrite Q2R_mult. ring. Qed.

Lemma commensurable_moduli a h a' h' : h <> 0 -> h' <> 0 -> (commensurable (a * h') (a' * h) <-> commensurable (a / h) (a' / h')).
Proof.
  intros H H'. split; intros (q & E); exists q.
  - apply (Rmult_eq_reg_r (h * h')); [|nra]. transitivity (a * h'); [field; auto|rewrite E; field; auto].
  - assert (E' : a / h * (h * h') = Q2R q * (a' / h') * (h * h')) by (rewrite E; ring).
    replace (a / h * (h * h')) with (a * h') in E' by (field; auto). rewrite E'. field. auto.
Qed.

(** ** C47 *)
Section summary.
Context {K : ExactReal}.
Implicit Types cs : list (component K).

Lemma has_cylinder_loop_spec cs : forall state, state <> Yes ->
  match has_cylinder_loop state cs with
  | Yes => exists c, In c cs /\ ccylinder c = Yes
  | No => state = No /\ forall c, In c cs -> ccylinder c = No
  | Maybe => (forall c, In c cs -> ccylinder c <> Yes) /\ (state = Maybe \/ exists c, In c cs /\ ccylinder c = Maybe)
  end.
Proof.
  induction cs as [|c cs IH]; intros state S; cbn [has_cylinder_loop].
  - destruct state; [contradiction|split; auto; intros; contradiction|split; auto; intros; contradiction].
  - destruct (ccylinder c) eqn:E.
    + replace (t_or state Yes) with Yes by (destruct state; auto). cbn. exists c. cbn; auto.
    + replace (t_or state No) with state by (destruct state; auto; contradiction).
      replace (holds state) with false by (destruct state; auto; contradiction).
      specialize (IH state S). destruct (has_cylinder_loop state cs).
      * destruct IH as (d & ? & ?). exists d. cbn; auto.
      * destruct IH as (-> & IH). split; auto. intros d [<-|H]; auto.
      * destruct IH as (H1 & H2). split; [intros d [<-|H]; auto; congruence|]. destruct H2 as [H2|(d & ? & ?)]; auto. right. exists d. cbn; auto.
    + replace (t_or state Maybe) with Maybe by (destruct state; auto; contradiction). cbn [holds].
      specialize (IH Maybe ltac:(discriminate)). destruct (has_cylinder_loop Maybe cs).
      * destruct IH as (d & ? & ?). exists d. cbn; auto.
      * destruct IH as (IH & _). discriminate.
      * destruct IH as (H1 & H2). split; [intros d [<-|H]; auto; congruence|]. right. exists c. cbn; auto.
Qed.
End summary.

(** [hasCylinder] is true iff some component is known to be a cylinder, false iff all are known not to be. *)
Theorem C47_has_cylinder : forall (K : ExactReal) (cs : list (component K)),
  (has_cylinder cs = Yes <-> exists c, In c cs /\ ccylinder c = Yes) /\
  (has_cylinder cs = No <-> forall c, In c cs -> ccylinder c = No).
Proof.
  intros K cs. assert (H := has_cylinder_loop_spec cs No ltac:(discriminate)). unfold has_cylinder. destruct (has_cylinder_loop No cs).
  - split; split; auto; [discriminate|]. intros A. destruct H as (c & I & C). rewrite (A c I) in C. discriminate.
  - destruct H as (_ & H). split; split; auto; [discriminate|]. intros (c & I & C). rewrite (H c I) in C. discriminate.
  - destruct H as (H & [Q|(c & I & C)]); [discriminate|]. split; split; try discriminate.
    + intros (d & J & D). destruct (H d J D).
    + intros A. rewrite (A c I) in C. discriminate.
Qed.
Print Assumptions C47_has_cylinder.

(** [completelyPeriodic] is false iff some component is known not to be a cylinder; it is true otherwise: it does not depend on
    the order of the components and is right if it is known of all components whether they are cylinders, ... *)
Theorem C47_completely_periodic : forall (K : ExactReal) (cs : list (component K)),
  (completely_periodic cs = No <-> exists c, In c cs /\ ccylinder c = No) /\
  ((forall c, In c cs -> ccylinder c <> Maybe) -> (completely_periodic cs = Yes <-> forall c, In c cs -> ccylinder c = Yes)) /\
  (forall ds, Permutation cs ds -> completely_periodic ds = completely_periodic cs).
Proof.
  intros K cs.
  assert (H : forall ds : list (component K), match completely_periodic ds with Yes => forall c, In c ds -> ccylinder c <> No | No => exists c, In c ds /\ ccylinder c = No | Maybe => False end).
  { induction ds as [|c ds IH]; cbn; [intros; contradiction|]. destruct (ccylinder c) eqn:E; cbn.
    - destruct (completely_periodic ds); auto; [intros d [<-|I]; auto; congruence|]. destruct IH as (d & ? & ?). exists d; auto.
    - exists c; auto.
    - destruct (completely_periodic ds); auto; [intros d [<-|I]; auto; congruence|]. destruct IH as (d & ? & ?). exists d; auto. }
  assert (Q := H cs). split; [|split].
  - destruct (completely_periodic cs); [|split; auto|contradiction]. split; [discriminate|]. intros (c & I & C). destruct (Q c I C).
  - intros D. destruct (completely_periodic cs); [|split; [discriminate|]|contradiction].
    + split; auto. intros _ c I. specialize (Q c I). specialize (D c I). destruct (ccylinder c); congruence.
    + intros A. destruct Q as (c & I & C). rewrite (A c I) in C. discriminate.
  - intros ds P. assert (R := H ds). destruct (completely_periodic cs), (completely_periodic ds); try contradiction; auto; exfalso.
    + destruct R as (c & I & C). apply (Q c); auto. eapply Permutation_in; [symmetry; eauto|auto].
    + destruct Q as (c & I & C). apply (R c); auto. eapply Permutation_in; eauto.
Qed.
Print Assumptions C47_completely_periodic.

(** ... but it is also true for a component of which nothing is known. *)
Theorem C47_completely_periodic_refuted : exists cs : list (component ExactS2), completely_periodic cs = Yes /\
  (forall c, In c cs -> proper c) /\ exists c, In c cs /\ ccylinder c = Maybe.
Proof.
  exists [@mkComponent ExactS2 Maybe (@mkVec ExactS2 (1%Z, 0%Z) (0%Z, 0%Z)) (1%Z, 0%Z)]. split; [reflexivity|]. split.
  - intros c [<-|[]]. unfold proper, norm2; cbn. unfold s2_den; cbn. split; lra.
  - eexists. split; [left; reflexivity|reflexivity].
Qed.
Print Assumptions C47_completely_periodic_refuted.

(** [parabolic] only claims that all is commensurable if all components are known to be cylinders with commensurable moduli, it is
    undecided only if some component is, and it is right about decided components. *)
Lemma parabolic_loop_spec (K : ExactReal) coefficients (cs : list (component K)) : coefficients_in_a_basis coefficients ->
  (forall c, In c cs -> proper c) -> forall (c0 : component K) a0 h0 answer, proper c0 -> den a0 = den (carea2 c0) -> den h0 = norm2 (choly c0) ->
  match parabolic_loop coefficients a0 h0 answer cs with
  | Ok Yes => answer = Yes /\ forall c, In c cs -> ccylinder c = Yes /\ commensurable (modulus c0) (modulus c)
  | Ok No => answer = No \/ exists c, In c cs /\ (ccylinder c = No \/ ~ commensurable (modulus c0) (modulus c))
  | Ok Maybe => answer = Maybe \/ exists c, In c cs /\ ccylinder c = Maybe
  | _ => False
  end /\
  (answer <> No -> (forall c, In c cs -> ccylinder c = Yes /\ commensurable (modulus c0) (modulus c)) ->
     parabolic_loop coefficients a0 h0 answer cs = Ok answer).
Proof.
  intros CO. induction cs as [|c cs IH]; intros P c0 a0 h0 answer P0 A0 H0; cbn [parabolic_loop].
  - split; auto. destruct answer; auto. split; auto. intros; contradiction.
  - assert (IH' := IH (fun d H => P d (or_intror H))). assert (Pc := P c (or_introl eq_refl)). clear IH.
    assert (Z : reqb h0 (rofZ 0) = false).
    { pose proof (reqb_spec K h0 (rofZ 0)) as R. destruct (reqb h0 (rofZ 0)); auto. exfalso. rewrite den_ofZ, H0 in R. destruct P0 as [P0 _]. apply P0. now apply R. }
    destruct (ccylinder c) eqn:Y; [|cbn [holds t_eq]; split; [right; exists c; cbn; auto|intros _ X; destruct (X c (or_introl eq_refl)); congruence]|].
    all: unfold circumference; rewrite Y; cbn [holds t_eq t_not bind]; rewrite Z;
      set (x := (a0 * (vx (choly c) * vx (choly c) + vy (choly c) * vy (choly c)))%X); set (y := (carea2 c * h0)%X);
      destruct (CO x y) as (b & Ib & L1 & L2 & X1 & X2); destruct (coefficients x y) as [u v]; cbn [fst snd] in *;
      assert (Ex : den x = den (carea2 c0) * norm2 (choly c)) by (unfold x, norm2; rewrite den_mul, den_add, !den_mul, A0; auto);
      assert (Ey : den y = den (carea2 c) * norm2 (choly c0)) by (unfold y; rewrite den_mul, H0; auto);
      destruct P0 as [P1 P2]; destruct Pc as [P3 P4];
      assert (PS := proportional_spec u v b Ib L1 L2); rewrite <- X1, <- X2, Ex, Ey in PS;
      specialize (PS (Rmult_integral_contrapositive_currified _ _ P2 P3) (Rmult_integral_contrapositive_currified _ _ P4 P1));
      rewrite (commensurable_moduli _ _ _ _ P1 P3) in PS; change (den (carea2 c0) / norm2 (choly c0)) with (modulus c0) in PS;
      change (den (carea2 c) / norm2 (choly c)) with (modulus c) in PS.
    + replace (t_and answer Yes) with answer by (destruct answer; auto). destruct (proportional u v).
      * destruct (IH' c0 a0 h0 answer (conj P1 P2) A0 H0) as [IH IH2]. split.
        -- destruct (parabolic_loop _ _ _ answer cs) as [[]| | |]; auto.
           ++ destruct IH as [-> IH]. split; auto. intros d [<-|D]; auto. split; auto. now apply PS.
           ++ destruct IH as [|(d & D & E)]; auto. right. exists d. cbn; auto.
           ++ destruct IH as [|(d & D & E)]; auto. right. exists d. cbn; auto.
        -- intros N A. apply IH2; auto. intros d D. apply A. cbn; auto.
      * split.
        -- right. exists c. split; [cbn; auto|]. right. intros Q. apply PS in Q. discriminate.
        -- intros N A. destruct (A c (or_introl eq_refl)) as [_ A']. apply PS in A'. discriminate.
    + destruct (proportional u v).
      * destruct (IH' c0 a0 h0 (t_and answer Maybe) (conj P1 P2) A0 H0) as [IH IH2]. split.
        -- destruct (parabolic_loop _ _ _ (t_and answer Maybe) cs) as [[]| | |]; auto.
           ++ destruct IH as [IH _]. destruct answer; discriminate.
           ++ destruct IH as [IH|(d & D & E)]; [left; destruct answer; auto; discriminate|]. right. exists d. cbn; auto.
           ++ destruct IH as [IH|(d & D & E)]; [right; exists c; cbn; auto|]. right. exists d. cbn; auto.
        -- intros N A. destruct (A c (or_introl eq_refl)). congruence.
      * split.
        -- right. exists c. split; [cbn; auto|]. right. intros Q. apply PS in Q. discriminate.
        -- intros N A. destruct (A c (or_introl eq_refl)). congruence.
Qed.

Theorem C47_parabolic : forall (K : ExactReal) coefficients (cs : list (component K)), coefficients_in_a_basis coefficients ->
  (forall c, In c cs -> proper c) ->
  exists answer, parabolic coefficients cs = Ok answer /\
    (answer = Yes <-> (forall c, In c cs -> ccylinder c = Yes) /\ forall c d, In c cs -> In d cs -> commensurable (modulus c) (modulus d)) /\
    (answer = Maybe -> exists c, In c cs /\ ccylinder c = Maybe) /\
    ((forall c, In c cs -> ccylinder c <> Maybe) -> answer = No ->
       (exists c, In c cs /\ ccylinder c = No) \/ exists c d, In c cs /\ In d cs /\ ~ commensurable (modulus c) (modulus d)).
Proof.
  intros K co cs CO P. unfold parabolic. destruct cs as [|c cs].
  { exists Yes. split; [reflexivity|]. split; [split; auto; intros _; split; intros; contradiction|]. split; discriminate. }
  assert (Pc := P c (or_introl eq_refl)). cbn [parabolic_loop].
  assert (Z : reqb (rofZ 0 : K) (rofZ 0) = true) by (apply (reqb_spec K); auto).
  assert (M : modulus c <> 0).
  { destruct Pc as [P1 P2]. unfold modulus. intros E. apply P2. replace (den (carea2 c)) with (den (carea2 c) / norm2 (choly c) * norm2 (choly c)) by (field; auto).
    rewrite E. ring. }
  assert (M' : forall d, In d (c :: cs) -> modulus d <> 0).
  { intros d D. destruct (P d D) as [P1 P2]. unfold modulus. intros E. apply P2. replace (den (carea2 d)) with (den (carea2 d) / norm2 (choly d) * norm2 (choly d)) by (field; auto).
    rewrite E. ring. }
  destruct (ccylinder c) eqn:Y; cbn [holds t_eq t_and].
  - unfold circumference. rewrite Y. cbn [holds t_not bind]. rewrite Z.
    set (h0 := (vx (choly c) * vx (choly c) + vy (choly c) * vy (choly c))%X).
    assert (H0 : den h0 = norm2 (choly c)) by (unfold h0, norm2; rewrite den_add, !den_mul; auto).
    destruct (parabolic_loop_spec K co cs CO (fun d H => P d (or_intror H)) c (carea2 c) h0 Yes Pc eq_refl H0) as [R R2].
    destruct (parabolic_loop co (carea2 c) h0 Yes cs) as [a| | |] eqn:E; try contradiction. exists a. split; auto.
    assert (FR : (forall d, In d (c :: cs) -> ccylinder d = Yes) /\ (forall d e, In d (c :: cs) -> In e (c :: cs) -> commensurable (modulus d) (modulus e)) -> a = Yes).
    { intros [A B]. assert (Ok a = Ok Yes) as X; [|now injection X]. apply R2; [discriminate|]. intros d D. split; [apply A; cbn; auto|apply B; cbn; auto]. }
    split; [split; auto|split].
    + intros ->. destruct R as [_ R]. split.
      * intros d [<-|D]; auto. now apply R.
      * assert (T : forall d, In d (c :: cs) -> commensurable (modulus c) (modulus d)).
        { intros d [<-|D]; [apply commensurable_refl|]. now apply R. }
        intros d e D E'. apply (commensurable_trans _ (modulus c)); auto. apply commensurable_sym; auto.
    + intros ->. destruct R as [R|(d & D & R)]; [discriminate|]. exists d. cbn; auto.
    + intros U ->. destruct R as [R|(d & D & [R|R])]; [discriminate| |].
      * left. exists d. cbn; auto.
      * right. exists c, d. cbn; auto.
  - exists No. split; auto. split; [split; [discriminate|intros [A _]; rewrite (A c (or_introl eq_refl)) in Y; discriminate]|]. split; [discriminate|].
    intros _ _. left. exists c. cbn; auto.
  - unfold circumference. rewrite Y. cbn [holds t_not bind]. rewrite Z.
    set (h0 := (vx (choly c) * vx (choly c) + vy (choly c) * vy (choly c))%X).
    assert (H0 : den h0 = norm2 (choly c)) by (unfold h0, norm2; rewrite den_add, !den_mul; auto).
    destruct (parabolic_loop_spec K co cs CO (fun d H => P d (or_intror H)) c (carea2 c) h0 Maybe Pc eq_refl H0) as [R R2].
    destruct (parabolic_loop co (carea2 c) h0 Maybe cs) as [a| | |] eqn:E; try contradiction. exists a. split; auto.
    split; [split|split].
    + intros ->. destruct R as [R _]. discriminate.
    + intros [A _]. rewrite (A c (or_introl eq_refl)) in Y. discriminate.
    + intros _. exists c. cbn; auto.
    + intros U. exfalso. apply (U c (or_introl eq_refl) Y).
Qed.
Print Assumptions C47_parabolic.

(** Coefficients of numbers a + b √2. *)
Definition s2_coefficients (x y : ExactS2) : list Q * list Q := ([inject_Z (fst x); inject_Z (snd x)], [inject_Z (fst y); inject_Z (snd y)]).
Lemma Q2R_ratio q : (Q2R q * IZR (Zpos (Qden q)) = IZR (Qnum q))%R.
Proof. unfold Q2R. field. apply not_0_IZR. discriminate. Qed.
Lemma s2_basis : coefficients_in_a_basis s2_coefficients.
Proof.
  intros x y. exists [1; sqrt 2]. split; [|repeat split; cbn; unfold s2_den, Q2R; cbn; lra].
  intros [|p [|q [|? ?]]] L; try discriminate. cbn. intros E.
  assert (s2_den (Qnum p * Zpos (Qden q), Qnum q * Zpos (Qden p))%Z = 0).
  { unfold s2_den; cbn [fst snd]. rewrite !mult_IZR. rewrite <- !Q2R_ratio.
    transitivity (IZR (Zpos (Qden p)) * IZR (Zpos (Qden q)) * (Q2R p * 1 + (Q2R q * sqrt 2 + 0))); [ring|rewrite E; ring]. }
  apply s2_zero in H. injection H as H1 H2. intros r [<-|[<-|[]]]; unfold Qeq; cbn; nia.
Qed.

(** Documented is that [parabolic] is only false if there is a component without cylinders or if two cylinders have incommensurable
    moduli.  It is also false if a component of which nothing is known looks different. *)
Definition s2_component (t : tribool) (w a b : Z) : component ExactS2 := @mkComponent ExactS2 t (@mkVec ExactS2 (w, 0%Z) (0%Z, 0%Z)) (a, b).
Lemma s2_component_modulus t w a b : modulus (s2_component t w a b) = (IZR a + IZR b * sqrt 2) / (IZR w * IZR w).
Proof. unfold modulus, norm2; cbn. unfold s2_den; cbn. f_equal. ring. Qed.
Lemma s2_component_proper t w a b : w <> 0%Z -> (a, b) <> (0, 0)%Z -> proper (s2_component t w a b).
Proof.
  intros W A. unfold proper, norm2; cbn. split.
  - unfold s2_den; cbn. apply not_0_IZR in W. nra.
  - intros E. apply A, s2_zero, E.
Qed.
Theorem C47_parabolic_refuted : exists cs : list (component ExactS2), coefficients_in_a_basis s2_coefficients /\ (forall c, In c cs -> proper c) /\
  parabolic s2_coefficients cs = Ok No /\ (forall c, In c cs -> ccylinder c <> No) /\
  (forall c d, In c cs -> In d cs -> ccylinder c = Yes -> ccylinder d = Yes -> commensurable (modulus c) (modulus d)).
Proof.
  exists [s2_component Yes 1 1 0; s2_component Maybe 1 0 1]. split; [apply s2_basis|]. split; [|split; [reflexivity|split]].
  - intros c [<-|[<-|[]]]; apply s2_component_proper; (lia || congruence).
  - intros c [<-|[<-|[]]]; discriminate.
  - intros c d [<-|[<-|[]]] [<-|[<-|[]]]; try discriminate. intros. apply commensurable_refl.
Qed.
Print Assumptions C47_parabolic_refuted.

Example C47_ex : coefficients_in_a_basis s2_coefficients /\ (forall t w, w <> 0%Z -> proper (s2_component t w 1 1)) /\
  has_cylinder [s2_component No 1 1 1; s2_component Maybe 1 1 1; s2_component Yes 1 1 1] = Yes /\
  has_cylinder [s2_component No 1 1 1; s2_component Maybe 1 1 1] = Maybe /\
  completely_periodic [s2_component Yes 1 1 1; s2_component No 1 1 1] = No /\
  parabolic s2_coefficients [s2_component Yes 1 1 1; s2_component Yes 2 3 3] = Ok Yes /\
  parabolic s2_coefficients [s2_component Yes 1 1 1; s2_component Yes 2 3 2] = Ok No /\
  parabolic s2_coefficients [s2_component Yes 1 1 1; s2_component Maybe 2 3 3] = Ok Maybe.
Proof.
  split; [apply s2_basis|]. split; [intros; apply s2_component_proper; auto; discriminate|]. repeat (split; [reflexivity|]). reflexivity.
Qed.
