(** * Counting corners of cells

    A line of a given direction through the corners of a polygon with [p] sides enters the polygon at [p - 2] of the corners.
    Therefore, the number of the corners at which it enters only depends on the number of half edges, and maps of cells are injective. *)
From Coq Require Import ZArith Reals List Arith Bool Lia Lra.
From Verif Require Import Base HalfEdge HalfEdgeFacts Perm PermSpec PermFacts PermCycles IndexedSet Combinatorial CombinatorialSpec CombinatorialFacts CombinatorialOps
  ExactReal Vector PlaneSpec Plane VectorFacts FlatTri FlatSpec FlatFacts FlatSum FlatLinear FlatDelaunay FlatAngle Deform DeformSpec Equivalence EquivalenceSpec EquivalenceFacts EquivalenceCode Isomorphism IsomorphismSpec IsomorphismFacts IsomorphismFaces IsomorphismCells.
Import ListNotations.
Local Open Scope nat_scope.

(** ** Finite sets *)
Lemma filter_length_le (P Q : nat -> bool) (n m : nat) (f : nat -> nat) :
  (forall x, x < n -> P x = true -> f x < m /\ Q (f x) = true) -> (forall x y, x < n -> y < n -> P x = true -> P y = true -> f x = f y -> x = y) ->
  length (filter P (seq 0 n)) <= length (filter Q (seq 0 m)).
Proof.
  intros L I. rewrite <- (map_length f (filter P (seq 0 n))). apply NoDup_incl_length.
  - assert (G : forall l, NoDup l -> (forall x, In x l -> x < n /\ P x = true) -> NoDup (map f l)).
    { induction l as [|x l IH]; intros D H; cbn; [constructor|]. inversion D as [|? ? D1 D2]; subst. constructor; [|apply IH; auto; intros y Hy; apply H; now right].
      intros X. apply in_map_iff in X as (y & E & Hy). destruct (H x (or_introl eq_refl)) as [H1 H2]. destruct (H y (or_intror Hy)) as [H3 H4]. assert (y = x) by now apply I. congruence. }
    apply G; [apply NoDup_filter, seq_NoDup|]. intros x Hx. apply filter_In in Hx as [Hx E]. apply in_seq in Hx. split; auto. lia.
  - intros y Hy. apply in_map_iff in Hy as (x & <- & Hx). apply filter_In in Hx as [Hx E]. apply in_seq in Hx. destruct (L x) as [L1 L2]; auto; [lia|]. apply filter_In. split; auto. apply in_seq. lia.
Qed.
(** A surjective map between sets of the same size is injective. *)
Lemma surjective_injective (P Q : nat -> bool) (n m : nat) (f : nat -> nat) :
  (forall y, y < m -> Q y = true -> exists x, x < n /\ P x = true /\ f x = y) -> length (filter P (seq 0 n)) <= length (filter Q (seq 0 m)) ->
  forall x y, x < n -> y < n -> P x = true -> P y = true -> f x = f y -> x = y.
Proof.
  intros Sj L x y Hx Hy Px Py E. destruct (Nat.eq_dec x y) as [|N]; auto. exfalso.
  (* remove [x] *)
  assert (G : length (filter Q (seq 0 m)) <= length (filter (fun z => P z && negb (z =? x)) (seq 0 n))).
  { rewrite <- (map_length f (filter (fun z => P z && negb (z =? x)) (seq 0 n))). apply NoDup_incl_length; [apply NoDup_filter, seq_NoDup|].
    intros z Hz. apply filter_In in Hz as [Hz Qz]. apply in_seq in Hz. destruct (Sj z) as (w & W1 & W2 & W3); auto; [lia|]. apply in_map_iff.
    destruct (Nat.eq_dec w x) as [-> |Nw].
    - exists y. split; [congruence|]. apply filter_In. split; [apply in_seq; lia|]. rewrite Py. apply Nat.eqb_neq in N. rewrite Nat.eqb_sym, N. reflexivity.
    - exists w. split; auto. apply filter_In. split; [apply in_seq; lia|]. rewrite W2. apply Nat.eqb_neq in Nw. now rewrite Nw. }
  assert (R : forall l, length (filter (fun z => P z && negb (z =? x)) l) + (if in_dec Nat.eq_dec x l then 1 else 0) <= length (filter P l)).
  { induction l as [|a l IH]; [cbn; lia|]. cbn [filter]. destruct (Nat.eq_dec a x) as [-> |Na].
    - rewrite Px, Nat.eqb_refl. cbn [andb negb length]. destruct (in_dec Nat.eq_dec x (x :: l)); destruct (in_dec Nat.eq_dec x l); lia.
    - assert (Na' := Na). apply Nat.eqb_neq in Na. rewrite Na. cbn [negb]. rewrite andb_true_r.
      assert (X : (if in_dec Nat.eq_dec x (a :: l) then 1 else 0) = (if in_dec Nat.eq_dec x l then 1 else 0)). { destruct (in_dec Nat.eq_dec x (a :: l)) as [I|I], (in_dec Nat.eq_dec x l) as [J|J]; auto; exfalso; [destruct I; [congruence|auto]|apply I; now right]. }
      rewrite X. destruct (P a); cbn [length]; lia. }
  specialize (R (seq 0 n)). destruct (in_dec Nat.eq_dec x (seq 0 n)) as [I|I]; [lia|]. apply I, in_seq. lia.
Qed.

(** ** Lines *)
Definition sgn (d v : pt) : bool := if Rlt_dec 0 (pdet v d) then true else false.
Definition enters (d v w : pt) : bool := xorb (sgn d v) (sgn d w).
Lemma enters_between d v w z : (pdet v d <> 0)%R -> (pdet w d <> 0)%R -> (pdet z d <> 0)%R -> (0 < pdet v w)%R -> (0 < pdet w z)%R -> (0 < pdet v z)%R ->
  enters d v z = enters d v w || enters d w z /\ enters d v w && enters d w z = false.
Proof.
  intros V W Z A B C.
  assert (E : (pdet w d * pdet v z = pdet v d * pdet w z + pdet z d * pdet v w)%R) by (unfold pdet; ring).
  assert (G : sgn d v = sgn d z -> sgn d w = sgn d v).
  { unfold sgn. destruct (Rlt_dec 0 (pdet v d)) as [V1|V1], (Rlt_dec 0 (pdet z d)) as [Z1|Z1]; intros X; try discriminate X.
    - destruct (Rlt_dec 0 (pdet w d)) as [|N]; auto. exfalso. assert (0 < pdet v d * pdet w z)%R by now apply Rmult_lt_0_compat. assert (0 < pdet z d * pdet v w)%R by now apply Rmult_lt_0_compat.
      assert (0 < - pdet w d * pdet v z)%R by (apply Rmult_lt_0_compat; lra). lra.
    - destruct (Rlt_dec 0 (pdet w d)) as [Y|]; auto. exfalso. assert (0 < - pdet v d * pdet w z)%R by (apply Rmult_lt_0_compat; lra). assert (0 < - pdet z d * pdet v w)%R by (apply Rmult_lt_0_compat; lra).
      assert (0 < pdet w d * pdet v z)%R by now apply Rmult_lt_0_compat. lra. }
  unfold enters. destruct (sgn d v), (sgn d z), (sgn d w); cbn; auto; specialize (G eq_refl); discriminate G.
Qed.

Section count.
Context {K : ExactReal}.
Variables (n : nat) (s : flat K) (d : pt).
Hypothesis CS : closed_flat n s.
Hypothesis Hd : forall x, x < n -> (pdet (vv s x) d <> 0)%R.

Definition tcorner (x : nat) : bool := enters d (vv s x) (vv s (fV s x)).
Definition ccorner (x : nat) : bool := acts s x && enters d (vv s x) (vv s (left_of n s x)).

(** In a triangle. *)
Lemma sgn_neg v : (pdet v d <> 0)%R -> sgn d (pneg v) = negb (sgn d v).
Proof. intros N. unfold sgn. assert (E : pdet (pneg v) d = (- pdet v d)%R) by (unfold pdet, pneg; cbn; ring). rewrite E. destruct (Rlt_dec 0 (pdet v d)), (Rlt_dec 0 (- pdet v d)); cbn; auto; lra. Qed.
Lemma triangle_corner x : x < n -> Nat.b2n (tcorner x) + Nat.b2n (tcorner (fF s x)) + Nat.b2n (tcorner (fF s (fF s x))) = 1.
Proof.
  intros H. assert (S := proj1 CS). assert (C := proj2 CS). assert (H1 := fF_lt n s _ S H). assert (H2 := fF_lt n s _ S H1). destruct (fs_flat n s S x H (C x H)) as [Z _]. unfold tcorner.
  rewrite !(vv_fV n s) by auto. rewrite !(fF3 n s) by auto. unfold enters. rewrite !sgn_neg by auto.
  assert (E : (pdet (vv s x) d + pdet (vv s (fF s x)) d + pdet (vv s (fF s (fF s x))) d = 0)%R).
  { assert (X : pdet (padd (padd (vv s x) (vv s (fF s x))) (vv s (fF s (fF s x)))) d = 0%R) by (rewrite Z; unfold pdet; cbn; ring). rewrite <- X. unfold pdet, padd. cbn. ring. }
  assert (N0 := Hd x H). assert (N1 := Hd _ H1). assert (N2 := Hd _ H2). unfold sgn.
  destruct (Rlt_dec 0 (pdet (vv s x) d)), (Rlt_dec 0 (pdet (vv s (fF s x)) d)), (Rlt_dec 0 (pdet (vv s (fF s (fF s x))) d)); cbn; auto; exfalso; lra.
Qed.
Lemma filter_face (P : nat -> bool) : length (filter (fun x => P (fF s x)) (seq 0 n)) = length (filter P (seq 0 n)).
Proof.
  assert (S := proj1 CS). assert (L := fun x => fF_lt n s x S). assert (F := fun x => fF3 n s x S). apply Nat.le_antisymm.
  - apply (filter_length_le _ _ n n (fF s)); auto. intros x y Hx Hy _ _ E. rewrite <- (F x), <- (F y), E; auto.
  - apply (filter_length_le _ _ n n (fun x => fF s (fF s x))); [intros x Hx E; rewrite F by auto; auto|]. intros x y Hx Hy _ _ E. rewrite <- (F x), <- (F y), E; auto.
Qed.
Lemma triangle_count : 3 * length (filter tcorner (seq 0 n)) = n.
Proof.
  assert (E1 := filter_face tcorner). assert (E2 := filter_face (fun x => tcorner (fF s x))). cbv beta in E2. rewrite E1 in E2.
  assert (G : forall l, (forall x, In x l -> x < n) -> length (filter tcorner l) + length (filter (fun x => tcorner (fF s x)) l) + length (filter (fun x => tcorner (fF s (fF s x))) l) = length l).
  { induction l as [|x l IH]; intros Hl; auto. cbn [filter length]. assert (T := triangle_corner x (Hl x (or_introl eq_refl))). specialize (IH (fun z Hz => Hl z (or_intror Hz))).
    destruct (tcorner x), (tcorner (fF s x)), (tcorner (fF s (fF s x))); cbn [Nat.b2n length] in *; lia. }
  specialize (G (seq 0 n)). rewrite seq_length in G. rewrite E1, E2 in G. assert (X : forall x, In x (seq 0 n) -> x < n) by (intros x Hx; apply in_seq in Hx; lia). specialize (G X). lia.
Qed.
(** In a cell, the line enters at most one of the triangles at a corner. *)
Lemma chain_enters x k : x < n -> (forall j, 0 < j < k -> ambs s (Nat.iter j (fV s) x) = true) -> 0 < k ->
  (enters d (vv s x) (vv s (Nat.iter k (fV s) x)) = true <-> exists j, j < k /\ tcorner (Nat.iter j (fV s) x) = true) /\
  (forall i j, i < k -> j < k -> tcorner (Nat.iter i (fV s) x) = true -> tcorner (Nat.iter j (fV s) x) = true -> i = j).
Proof.
  intros H. assert (Hi := fun j => iterv n s CS j x H). induction k as [|k IH]; intros A Hk; [lia|]. destruct k as [|k].
  - split.
    + split; [intros E; exists 0; split; auto|]. intros (j & Hj & E). assert (j = 0) by lia. subst j. exact E.
    + intros i j ? ?. lia.
  - destruct IH as [I1 I2]; [intros j Hj; apply A; lia|lia|].
    destruct (enters_between d (vv s x) (vv s (Nat.iter (Datatypes.S k) (fV s) x)) (vv s (Nat.iter (Datatypes.S (Datatypes.S k)) (fV s) x))) as [B1 B2]; auto.
    + apply (left_chain n s CS); auto; [intros j Hj; apply A; lia|lia].
    + rewrite (iter_S _ (Datatypes.S k)). now apply (cdet n s CS).
    + apply (left_chain n s CS); auto.
    + change (enters d (vv s (Nat.iter (Datatypes.S k) (fV s) x)) (vv s (Nat.iter (Datatypes.S (Datatypes.S k)) (fV s) x))) with (tcorner (Nat.iter (Datatypes.S k) (fV s) x)) in B1, B2.
      rewrite B1. rewrite orb_true_iff. apply andb_false_iff in B2. split.
      * rewrite I1. split.
        -- intros [(j & Hj & E)|E]; [exists j; split; auto; lia|exists (Datatypes.S k); split; auto].
        -- intros (j & Hj & E). destruct (Nat.eq_dec j (Datatypes.S k)) as [-> |N]; [now right|]. left. exists j. split; auto. lia.
      * intros i j Hi' Hj' Ei Ej. destruct (Nat.eq_dec i (Datatypes.S k)) as [-> |Ni], (Nat.eq_dec j (Datatypes.S k)) as [-> |Nj]; auto.
        -- exfalso. destruct B2 as [B2|B2]; [|congruence]. apply not_true_iff_false in B2. apply B2, I1. exists j. split; auto. lia.
        -- exfalso. destruct B2 as [B2|B2]; [|congruence]. apply not_true_iff_false in B2. apply B2, I1. exists i. split; auto. lia.
        -- apply I2; auto; lia.
Qed.
(** The side of the cell to the right of a half edge. *)
Lemma firstc_chain x : x < n -> firstc n s x < n /\ acts s (firstc n s x) = true /\ exists j, x = Nat.iter j (fV s) (firstc n s x) /\ forall l, 0 < l <= j -> ambs s (Nat.iter l (fV s) (firstc n s x)) = true.
Proof.
  intros H. unfold firstc. destruct (acts s x) eqn:A.
  - split; auto. split; auto. exists 0. split; auto. lia.
  - split; [now apply right_of_lt|]. split; [now apply right_of_act|]. destruct (right_of_spec n s CS x H) as (j & J1 & -> & _ & J4). exists j. split; [symmetry; now apply (iter_left n s CS)|].
    intros l Hl. rewrite (iter_left_sub n s CS) by lia. destruct (Nat.eq_dec l j) as [-> |N]; [|apply J4; lia]. rewrite Nat.sub_diag. cbn. unfold acts in A. now apply negb_false_iff in A.
Qed.
Lemma chain_firstc y j : y < n -> acts s y = true -> (forall l, 0 < l <= j -> ambs s (Nat.iter l (fV s) y) = true) -> firstc n s (Nat.iter j (fV s) y) = y.
Proof.
  intros H A L. unfold firstc. destruct j as [|j]; [cbn; now rewrite A|]. unfold acts. rewrite (L (Datatypes.S j)) by lia. cbn [negb]. rewrite (right_of_unique n s CS _ (Datatypes.S j)).
  - now apply (iter_right n s CS).
  - now apply (iterv n s CS).
  - lia.
  - now rewrite (iter_right n s CS).
  - intros l Hl. rewrite (iter_right_sub n s CS) by lia. apply L. lia.
Qed.
Lemma chain_bound y j k : y < n -> (forall l, 0 < l <= j -> ambs s (Nat.iter l (fV s) y) = true) -> acts s (Nat.iter k (fV s) y) = true -> 0 < k -> j < k.
Proof. intros H L A Hk. destruct (le_lt_dec k j) as [G|G]; auto. exfalso. unfold acts in A. rewrite L in A by lia. discriminate. Qed.
Lemma cell_count : 3 * length (filter ccorner (seq 0 n)) = n.
Proof.
  assert (E : length (filter ccorner (seq 0 n)) = length (filter tcorner (seq 0 n))); [|rewrite E; apply triangle_count].
  assert (Sj : forall y, y < n -> ccorner y = true -> exists j, tcorner (Nat.iter j (fV s) y) = true /\ firstc n s (Nat.iter j (fV s) y) = y).
  { intros y Hy Cy. unfold ccorner in Cy. apply andb_true_iff in Cy as [Ay Ey]. destruct (left_of_spec n s CS y Hy) as (k & K1 & K2 & K3 & K4). rewrite K2 in Ey.
    destruct (chain_enters y k Hy K4) as [I _]; [lia|]. apply I in Ey as (j & Hj & Tj). exists j. split; auto. apply chain_firstc; auto. intros l Hl. apply K4. lia. }
  apply Nat.le_antisymm.
  - (* choose a triangle for each side *)
    assert (Ch : exists c, forall y, y < n -> ccorner y = true -> c y < n /\ tcorner (c y) = true /\ firstc n s (c y) = y).
    { exists (fun y => match find (fun x => tcorner x && (firstc n s x =? y)) (seq 0 n) with Some x => x | None => 0 end). intros y Hy Cy. destruct (Sj y Hy Cy) as (j & Tj & Fj). assert (Hj := iterv n s CS j y Hy).
      destruct (find _ _) as [x|] eqn:Ex.
      - apply find_some in Ex as [I Ex]. apply in_seq in I. apply andb_true_iff in Ex as [X1 X2]. apply Nat.eqb_eq in X2. split; auto. lia.
      - apply find_none with (x := Nat.iter j (fV s) y) in Ex; [|apply in_seq; lia]. rewrite Tj, Fj, Nat.eqb_refl in Ex. discriminate. }
    destruct Ch as (c & Hc). apply (filter_length_le _ _ n n c).
    + intros y Hy Cy. destruct (Hc y Hy Cy) as (? & ? & ?). auto.
    + intros x y Hx Hy Cx Cy Exy. destruct (Hc x Hx Cx) as (_ & _ & <-). destruct (Hc y Hy Cy) as (_ & _ & <-). now rewrite Exy.
  - apply (filter_length_le _ _ n n (firstc n s)).
    + intros x Hx Tx. destruct (firstc_chain x Hx) as (F1 & F2 & j & Ej & Fj). split; auto. unfold ccorner. rewrite F2. cbn [andb]. set (y := firstc n s x) in *. destruct (left_of_spec n s CS y F1) as (k & K1 & K2 & K3 & K4). rewrite K2.
      apply (chain_enters y k F1 K4); [lia|]. exists j. rewrite <- Ej. split; auto. apply (chain_bound y j k F1 Fj); [now rewrite <- K2|lia].
    + intros x x' Hx Hx' Tx Tx' E. destruct (firstc_chain x Hx) as (F1 & F2 & j & Ej & Fj). destruct (firstc_chain x' Hx') as (_ & _ & j' & Ej' & Fj'). rewrite <- E in *. set (y := firstc n s x) in *. clearbody y. 
      destruct (left_of_spec n s CS y F1) as (k & K1 & K2 & K3 & K4). rewrite K2 in K3.
      destruct (chain_enters y k F1 K4) as [_ I]; [lia|]. rewrite Ej, Ej'. f_equal. apply I; try congruence; [apply (chain_bound y j k F1 Fj)|apply (chain_bound y j' k F1 Fj')]; auto; lia.
Qed.
End count.

(** ** Directions that are not parallel to any half edge *)
Lemma avoid (l : list (R * R)) : (forall p, In p l -> p <> (0, 0)%R) -> exists t, (0 < t)%R /\ forall p, In p l -> (fst p + t * snd p <> 0)%R.
Proof.
  intros H.
  assert (G : exists M, (0 < M)%R /\ forall t p, (M < t)%R -> In p l -> (fst p + t * snd p <> 0)%R).
  { induction l as [|[a b] l IH]; [exists 1%R; split; [lra|intros t p _ []]|]. destruct IH as (M & M1 & M2); [intros p Hp; apply H; now right|].
    destruct (Req_dec b 0) as [-> |B].
    - exists M. split; auto. intros t p Ht [<-|I]; [|now apply M2]. cbn. intros Z. apply (H (a, 0%R)); [now left|]. f_equal. lra.
    - exists (Rmax M (Rabs (a / b))). split; [pose proof (Rmax_l M (Rabs (a / b))); lra|]. intros t p Ht [<-|I]; [|apply M2; auto; pose proof (Rmax_l M (Rabs (a / b))); lra].
      cbn. intros Z. pose proof (Rmax_r M (Rabs (a / b))) as X. assert (E : t = (- (a / b))%R) by (apply (Rmult_eq_reg_r b); auto; field_simplify; auto; lra). pose proof (Rle_abs (- (a / b))) as Y. rewrite Rabs_Ropp in Y. lra. }
  destruct G as (M & M1 & M2). exists (M + 1)%R. split; [lra|]. intros p Hp. apply M2; auto. lra.
Qed.

(** ** Maps of corners *)
Section maps.
Context {K : ExactReal}.
Variables (n m : nat) (s u : flat K) (a b c e : R).
Hypothesis CS : closed_flat n s.
Hypothesis CU : closed_flat m u.
Hypothesis D : (a * e - b * c <> 0)%R.
Notation M := (papply a b c e).
Notation G := (left_of n s).
Notation G' := (left_of m u).

Lemma papply_det p q : pdet (M p) (M q) = ((a * e - b * c) * pdet p q)%R.
Proof. unfold pdet, papply. cbn. ring. Qed.
Lemma papply_sgn d v : (pdet v d <> 0)%R -> sgn (M d) (M v) = (if Rlt_dec 0 (a * e - b * c) then sgn d v else negb (sgn d v)).
Proof.
  intros N. unfold sgn. rewrite papply_det. destruct (Rlt_dec 0 (a * e - b * c)) as [P|P].
  - destruct (Rlt_dec 0 (pdet v d)) as [Q|Q]; destruct (Rlt_dec 0 ((a * e - b * c) * pdet v d)) as [X|X]; auto; exfalso; [apply X; now apply Rmult_lt_0_compat|].
    assert (0 < (a * e - b * c) * - pdet v d)%R by (apply Rmult_lt_0_compat; lra). lra.
  - destruct (Rlt_dec 0 (pdet v d)) as [Q|Q]; destruct (Rlt_dec 0 ((a * e - b * c) * pdet v d)) as [X|X]; auto; exfalso.
    + assert (0 < - (a * e - b * c) * pdet v d)%R by (apply Rmult_lt_0_compat; lra). lra.
    + apply X. assert (0 < - (a * e - b * c) * - pdet v d)%R by (apply Rmult_lt_0_compat; lra). lra.
Qed.
Lemma papply_enters d v w : (pdet v d <> 0)%R -> (pdet w d <> 0)%R -> enters (M d) (M v) (M w) = enters d v w.
Proof. intros V W. unfold enters. rewrite !papply_sgn by auto. destruct (Rlt_dec 0 (a * e - b * c)); destruct (sgn d v), (sgn d w); reflexivity. Qed.
Lemma enters_sym d v w : enters d v w = enters d w v. Proof. apply xorb_comm. Qed.

(** A direction between two vectors that is not parallel to any half edge. *)
Lemma generic v w : (0 < pdet v w)%R -> exists d, (forall x, x < n -> (pdet (vv s x) d <> 0)%R) /\ (forall y, y < m -> (pdet (vv u y) (M d) <> 0)%R) /\ enters d v w = true.
Proof.
  intros P.
  assert (Ind : forall p q z, (pdet p q <> 0)%R -> z <> (0, 0)%R -> (pdet z p, pdet z q) <> (0, 0)%R).
  { intros [p1 p2] [q1 q2] [z1 z2] N Z E. apply Z. unfold pdet in *. cbn [fst snd] in *. injection E as E1 E2. 
    f_equal; apply (Rmult_eq_reg_r (p1 * q2 - p2 * q1)); auto; rewrite Rmult_0_l.
    - replace (z1 * (p1 * q2 - p2 * q1))%R with (p1 * (z1 * q2 - z2 * q1) - q1 * (z1 * p2 - z2 * p1))%R by ring. rewrite E1, E2. ring.
    - replace (z2 * (p1 * q2 - p2 * q1))%R with (p2 * (z1 * q2 - z2 * q1) - q2 * (z1 * p2 - z2 * p1))%R by ring. rewrite E1, E2. ring. }
  assert (Nz : forall k (t : flat K) x, closed_flat k t -> x < k -> vv t x <> (0, 0)%R).
  { intros k t x Ct Hx Z. assert (X := cdet k t Ct x Hx). rewrite Z in X. unfold pdet in X. cbn in X. lra. }
  destruct (avoid (map (fun x => (pdet (vv s x) v, pdet (vv s x) w)) (seq 0 n) ++ map (fun y => (pdet (vv u y) (M v), pdet (vv u y) (M w))) (seq 0 m))) as (t & T1 & T2).
  { intros p Hp. apply in_app_iff in Hp as [Hp|Hp]; apply in_map_iff in Hp as (x & <- & Hx); apply in_seq in Hx; apply Ind.
    - lra.
    - apply (Nz n); auto. lia.
    - rewrite papply_det. intros Z. apply Rmult_integral in Z. destruct Z; lra.
    - apply (Nz m); auto. lia. }
  exists (padd v (fst w * t, snd w * t)%R). split; [|split].
  - intros x Hx Z. apply (T2 (pdet (vv s x) v, pdet (vv s x) w)); [apply in_app_iff; left; apply in_map_iff; exists x; split; auto; apply in_seq; lia|]. cbn [fst snd]. rewrite <- Z. unfold pdet, padd. cbn. ring.
  - intros y Hy Z. apply (T2 (pdet (vv u y) (M v), pdet (vv u y) (M w))); [apply in_app_iff; right; apply in_map_iff; exists y; split; auto; apply in_seq; lia|]. cbn [fst snd]. rewrite <- Z. unfold pdet, padd, papply. cbn. ring.
  - unfold enters, sgn. assert (E1 : pdet v (padd v (fst w * t, snd w * t)%R) = (t * pdet v w)%R) by (unfold pdet, padd; cbn; ring). assert (E2 : pdet w (padd v (fst w * t, snd w * t)%R) = (- pdet v w)%R) by (unfold pdet, padd; cbn; ring).
    rewrite E1, E2. destruct (Rlt_dec 0 (t * pdet v w)) as [X|X]; [|exfalso; apply X; now apply Rmult_lt_0_compat]. destruct (Rlt_dec 0 (- pdet v w)); auto. lra.
Qed.

(** A map of corners. *)
Variable F : nat -> nat.
Hypothesis HF : forall x, x < n -> acts s x = true -> F x < m /\ acts u (F x) = true /\
  (vv u (F x) = M (vv s x) /\ vv u (G' (F x)) = M (vv s (G x)) \/ vv u (F x) = M (vv s (G x)) /\ vv u (G' (F x)) = M (vv s x)).
Hypothesis HS : forall y, y < m -> acts u y = true -> exists x, x < n /\ acts s x = true /\ F x = y.
Lemma corner_image d x : (forall x, x < n -> (pdet (vv s x) d <> 0)%R) -> x < n -> acts s x = true -> ccorner m u (M d) (F x) = ccorner n s d x.
Proof.
  intros Hd Hx Ax. destruct (HF x Hx Ax) as (F1 & F2 & V). unfold ccorner. rewrite Ax, F2. cbn [andb]. assert (Hg := left_of_lt n s CS x Hx).
  destruct V as [[-> ->]|[-> ->]]; [apply papply_enters; auto|]. rewrite papply_enters by auto. apply enters_sym.
Qed.
Lemma corner_surjective d : (forall x, x < n -> (pdet (vv s x) d <> 0)%R) -> forall y, y < m -> ccorner m u (M d) y = true -> exists x, x < n /\ ccorner n s d x = true /\ F x = y.
Proof.
  intros Hd y Hy Cy. assert (Ay : acts u y = true) by (unfold ccorner in Cy; now apply andb_true_iff in Cy). destruct (HS y Hy Ay) as (x & Hx & Ax & <-). exists x. split; auto. split; auto. now rewrite <- corner_image.
Qed.
(** The vectors at a corner determine how lines enter. *)
Lemma corner_map_injective : n = m -> forall x y, x < n -> y < n -> acts s x = true -> acts s y = true -> vv s x = vv s y -> vv s (G x) = vv s (G y) -> F x = F y -> x = y.
Proof.
  intros E x y Hx Hy Ax Ay V1 V2 EF. destruct (generic (vv s x) (vv s (G x)) (left_of_det n s CS x Hx)) as (d & Hd & Hd' & En).
  assert (C1 := cell_count n s d CS Hd). assert (C2 := cell_count m u (M d) CU Hd').
  apply (surjective_injective (ccorner n s d) (ccorner m u (M d)) n m F); auto; [now apply corner_surjective|lia|unfold ccorner; now rewrite Ax|unfold ccorner; rewrite Ay; now rewrite <- V1, <- V2].
Qed.
(** Bijections only exist for surfaces of the same size. *)
Lemma corner_map_size : 0 < n -> (forall x y, x < n -> y < n -> acts s x = true -> acts s y = true -> F x = F y -> x = y) -> n = m.
Proof.
  intros Hn Inj. destruct (generic (vv s 0) (vv s (G 0)) (left_of_det n s CS 0 Hn)) as (d & Hd & Hd' & _).
  assert (C1 := cell_count n s d CS Hd). assert (C2 := cell_count m u (M d) CU Hd').
  assert (L1 : length (filter (ccorner n s d) (seq 0 n)) <= length (filter (ccorner m u (M d)) (seq 0 m))).
  { apply (filter_length_le _ _ n m F).
    - intros x Hx Cx. assert (Ax : acts s x = true) by (unfold ccorner in Cx; now apply andb_true_iff in Cx). destruct (HF x Hx Ax) as (? & ? & _). split; auto. now rewrite corner_image.
    - intros x y Hx Hy Cx Cy. unfold ccorner in Cx, Cy. apply andb_true_iff in Cx as [Ax _]. apply andb_true_iff in Cy as [Ay _]. now apply Inj. }
  assert (L2 : length (filter (ccorner m u (M d)) (seq 0 m)) <= length (filter (ccorner n s d) (seq 0 n))).
  { rewrite <- (map_length F (filter (ccorner n s d) (seq 0 n))). apply NoDup_incl_length; [apply NoDup_filter, seq_NoDup|].
    intros y Hy. apply filter_In in Hy as [Hy Cy]. apply in_seq in Hy. destruct (corner_surjective d Hd y) as (x & X1 & X2 & X3); auto; [lia|]. apply in_map_iff. exists x. split; auto. apply filter_In. split; auto. apply in_seq. lia. }
  lia.
Qed.
End maps.
