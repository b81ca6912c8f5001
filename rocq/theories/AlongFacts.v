(** * Facts about saddle connections in the direction of a Vertical *)
From Coq Require Import ZArith Reals List Arith Bool Lia Lra Psatz Permutation Sorted.
From Verif Require Import Base HalfEdge Combinatorial ExactReal Vector PlaneSpec Plane VectorFacts VectorProps FlatTri FlatSpec FlatFacts FlatAngle FlatProps FlatAngleProps
  Chain ChainSpec Saddle SaddleSpec SaddleFacts Search SearchSpec SearchPlane SearchProps SectorSpec SectorFacts SectorProps ByLength ByLengthProps Connect ConnectFacts Along.
Import ListNotations.
Local Open Scope R_scope.

(** ** More fuel does not change what a search reports *)
Definition below {A} (a b : outcome A) : Prop := a = OutOfFuel \/ a = b.
Lemma below_refl {A} (a : outcome A) : below a a. Proof. now right. Qed.
Lemma below_out {A} (a : outcome A) : below OutOfFuel a. Proof. now left. Qed.
Lemma below_bind {A B} (a b : outcome A) (f g : A -> outcome B) : below a b -> (forall x, below (f x) (g x)) -> below (do x <- a; f x) (do x <- b; g x).
Proof. intros [->| ->] H; [now left|]. destruct b; cbn [bind]; auto using below_refl. Qed.
Lemma below_trans {A} (a b c : outcome A) : below a b -> below b c -> below a c.
Proof. unfold below. intros [->| ->]; auto. Qed.

Section fuel.
Context {K : ExactReal} (cs : conns K).
Lemma search_steps k : (forall m, below (increment_with cs k m) (increment_with cs (S k) m)) /\ (forall m, below (prepare cs k m) (prepare cs (S k) m)) /\ (forall m, below (advance cs k m) (advance cs (S k) m)).
Proof.
  induction k as [|k (I1 & I2 & I3)]; [split; [|split]; intros m; apply below_out|]. split; [|split]; intros m.
  - cbn [increment_with].
    apply below_bind; [apply below_refl|]. intros (x & m'). destruct x; try apply below_refl. apply below_bind; [apply below_refl|]. intros m2. destruct (it_sectors m2) as [|? [|? ?]]; try apply below_refl.
    apply below_bind; [apply I2|]. intros; apply below_refl.
  - cbn [prepare]. destruct (it_sectors m) as [|x rest]; [apply below_refl|]. apply below_bind; [apply below_refl|]. intros [|]; [apply I2|]. apply below_bind; [apply below_refl|]. intros ([|] & m'); [apply below_refl|apply I3].
  - cbn [advance]. apply below_bind; [apply I1|]. intros ([|] & m'); [apply below_refl|apply I3].
Qed.
Lemma search_from_step k : forall m, below (search_from cs k m) (search_from cs (S k) m).
Proof.
  induction k as [|k IH]; intros m; [apply below_out|]. cbn [search_from]. destruct (at_end m); [apply below_refl|]. apply below_bind; [apply below_refl|]. intros x.
  apply below_bind; [apply search_steps|]. intros m'. apply below_bind; [apply IH|]. intros; apply below_refl.
Qed.
Lemma search_step k : below (search cs k) (search cs (S k)).
Proof. unfold search, search_begin. apply below_bind; [apply search_steps|]. intros m. apply search_from_step. Qed.
Lemma search_more k j : below (search cs k) (search cs (k + j)).
Proof. induction j as [|j IH]; [rewrite Nat.add_0_r; apply below_refl|]. rewrite Nat.add_succ_r. eapply below_trans; [exact IH|apply search_step]. Qed.
Lemma search_once k l : (forall f, (k <= f)%nat -> search cs f = Ok l) -> forall f, search cs f = OutOfFuel \/ search cs f = Ok l.
Proof. intros H f. rewrite <- (H (f + k)%nat) by lia. apply search_more. Qed.
End fuel.

(** ** The first connection of a collection without a bound on the length *)
Section first.
Context {K : ExactReal} (n : nat) (cs : conns K) (D : nat -> pt -> nat -> Prop) (sort : list (sconn K) -> list (sconn K)).
Hypothesis C : collection n cs D.
Hypothesis Er : cn_radius cs = None.
Hypothesis Sort : sorts n sort.
Hypothesis Hn : (0 < n)%nat.

Definition in_D (x : sconn K) : Prop := sc_valid n x /\ sc_surface x = cn_surface cs /\ D (sc_source x) (sv n x) (sc_target x).
Lemma window_search lower upper : (0 <= upper)%Z -> exists k l, (forall f, (k <= f)%nat -> search (cn_lower_bound (cn_bound cs upper) lower) f = Ok l) /\
  (forall x, In x l -> in_D x) /\ forall h v g, D h v g -> IZR lower < pdot v v -> pdot v v <= IZR upper -> l <> [].
Proof.
  intros Hu. pose proof (C34_lower_bound n _ _ lower (C34_bound n _ _ upper C Hu)) as C'.
  destruct (C34_search n _ _ upper C') as (k & l & Hl & _ & Vl & Dl); [unfold cn_lower_bound, cn_bound; cbn [cn_radius]; now rewrite Er|].
  exists k, l. split; auto. split.
  - intros x I. destruct (Vl x I) as (V & E). split; auto. split; auto. destruct (proj2 (Dl (sc_source x) (sv n x) (sc_target x))) as ((X & _) & _); eauto.
  - intros h v g X A B ->. destruct (proj1 (Dl h v g)) as (y & [] & _). auto.
Qed.
Lemma sort_nil : sort [] = [].
Proof. destruct (Sort []) as (P & _); [intros y []|]. now apply Permutation_nil, Permutation_sym. Qed.
Lemma ended_not lower : ended cs lower = false.
Proof. unfold ended. now rewrite Er. Qed.

Definition arrives (m : biter K) : Prop := exists k x, (forall f, (k <= f)%nat -> exists lo up w, refill sort cs f m = Ok (mkBiter lo up (x :: w))) /\ in_D x.
Lemma arrive_step m lower upper h v g : bi_within m = [] -> window cs m lower upper -> (0 <= upper)%Z -> D h v g -> IZR lower < pdot v v ->
  (IZR upper < pdot v v -> arrives (mkBiter lower upper [])) -> arrives m.
Proof.
  intros Em Wi Hu X Hv Next. destruct (window_search lower upper Hu) as (k & l & Hl & In' & Ne). destruct (Sort l) as (P & _); [intros y I; now apply In'|].
  destruct (sort l) as [|x w] eqn:Es.
  - apply Permutation_nil in P. subst l. destruct Next as (k' & x & Hk' & Hx); [destruct (Rlt_le_dec (IZR upper) (pdot v v)); auto; exfalso; now apply (Ne h v g)|].
    exists (k + k' + 1)%nat, x. split; auto. intros f Hf. destruct f as [|f]; [lia|]. rewrite (refill_window cs sort f m lower upper Em Wi), ended_not, Hl by lia. cbn [bind]. rewrite Es. apply Hk'. lia.
  - exists (k + 2)%nat, x. split.
    + intros f Hf. destruct f as [|[|f]]; try lia. exists lower, upper, w. rewrite (refill_window cs sort (S f) m lower upper Em Wi), ended_not, Hl by lia. cbn [bind]. now rewrite Es.
    + apply In'. apply (Permutation_in _ P). now left.
Qed.
Lemma arrive_from h v g : D h v g -> forall j a u, (1 <= u)%Z -> IZR u < pdot v v -> pdot v v <= IZR (u * 4 ^ Z.of_nat j) -> arrives (mkBiter a u []).
Proof.
  intros X. induction j as [|j IH]; intros a u Hu A B.
  - rewrite Z.pow_0_r, Z.mul_1_r in B. lra.
  - apply (arrive_step _ u (4 * u) h v g); auto; try lia; [now apply (window_next n)|]. intros A'. apply IH; auto; [lia|].
    rewrite Nat2Z.inj_succ, Z.pow_succ_r in B by lia. now replace (4 * u * 4 ^ Z.of_nat j)%Z with (u * (4 * 4 ^ Z.of_nat j))%Z by ring.
Qed.
Lemma arrive h v g : D h v g -> 0 < pdot v v -> arrives bend.
Proof.
  intros X Hv. destruct (window_first n cs (co_surface n cs D C) Hn (co_edges n cs D C)) as (u & Hu & Wi).
  apply (arrive_step _ 0 u h v g); auto; try lia. intros A. apply (arrive_from h v g X (Z.to_nat (up (pdot v v)))); auto.
  destruct (archimed (pdot v v)) as (U & _). set (z := up (pdot v v)) in *. assert (0 < z)%Z by (apply lt_IZR; lra).
  apply Rle_trans with (IZR z); [lra|]. apply IZR_le. rewrite Z2Nat.id by lia. assert (z < 4 ^ z)%Z by (apply Z.pow_gt_lin_r; lia). nia.
Qed.

Lemma never_from : (forall h v g, ~ D h v g) -> forall f m, bi_within m = [] -> (exists lower upper, window cs m lower upper /\ (1 <= upper)%Z) -> refill sort cs f m = OutOfFuel.
Proof.
  intros No. induction f as [|f IH]; intros m Em (lower & upper & Wi & Hu); auto. rewrite (refill_window cs sort f m lower upper Em Wi), ended_not.
  destruct (window_search lower upper) as (k & l & Hl & In' & _); [lia|]. assert (l = []) as -> by (destruct l as [|x l]; auto; destruct (In' x (or_introl eq_refl)) as (_ & _ & Q); exfalso; now apply No in Q).
  destruct (search_once _ k [] Hl f) as [-> | ->]; auto. cbn [bind]. rewrite sort_nil. apply IH; auto. exists upper, (4 * upper)%Z. split; [now apply (window_next n)|lia].
Qed.
Lemma never : (forall h v g, ~ D h v g) -> forall f, bbegin sort cs f = OutOfFuel.
Proof.
  intros No f. destruct (window_first n cs (co_surface n cs D C) Hn (co_edges n cs D C)) as (u & Hu & Wi). apply never_from; auto. exists 0%Z, u. auto.
Qed.
End first.
