(** * Properties of chains *)
From Coq Require Import ZArith QArith Qreals Reals List Arith Bool Lia Lra.
From Verif Require Import Base HalfEdge HalfEdgeFacts Perm Combinatorial CombinatorialSpec CombinatorialFacts CombinatorialOps ExactReal Vector Arb PlaneSpec Plane VectorFacts VectorProps ArbFacts
  FlatTri FlatSpec FlatFacts FlatProps Chain ChainSpec ChainFacts ChainRun ChainIter.
Import ListNotations.
Local Open Scope nat_scope.

Definition sound {K : ExactReal} (arb : K -> ball) : Prop := forall x, within (den x) (arb x).

Lemma no_mul_existsb ops : no_mul ops -> existsb is_mul ops = false.
Proof.
  intros H. apply not_true_iff_false. intros E. apply existsb_exists in E as (op & J & Q). destruct op; try discriminate. now apply (H i z).
Qed.
Lemma run_start {K : ExactReal} A (arb : K -> ball) C n s ops : sound arb -> flat_surface n s -> valid n 0 ops ->
  exists st, run A arb C s [] ops = Ok st /\ CI n st (spec_run ops) /\ (no_mul ops -> EI n s st (spec_run ops) /\ AI A n s st (spec_run ops)).
Proof.
  intros Sd S V. destruct (run_Ok A arb Sd C n s S ops [] []) as (st & E & G & H); [constructor|exact V|]. exists st. split; auto. split; auto.
  intros M. destruct (H (no_mul_existsb _ M)); [constructor|]. split; auto. apply H1. constructor.
Qed.
Lemma nth_dchain {K : ExactReal} (st : list (@chain K)) i c : nth_error st i = Some c -> i < length st /\ nth i st dchain = c.
Proof. intros E. split; [apply nth_error_Some; congruence|]. now apply nth_error_nth. Qed.

(** ** C26: the vectors of chains *)
(** The full statement covers also programs that use [*=]; for these it is false, see [C26_product_refuted]. *)
Theorem C26_vector_partial : forall (K : ExactReal) A (arb : K -> ball) C n s ops, sound arb -> flat_surface n s -> valid n 0 ops -> no_mul ops ->
  exists st, run A arb C s [] ops = Ok st /\ length st = length (spec_run ops) /\
  forall i c, nth_error st i = Some c ->
    (exists c' v, read_exact arb s c = Ok (c', v) /\ vden v = chain_vector n s (nth i (spec_run ops) czero)) /\
    (exists c' w, read_approx A arb s c = Ok (c', w) /\ pwithin (chain_vector n s (nth i (spec_run ops) czero)) w).
Proof.
  intros K A arb C n s ops Sd S V M. destruct (run_start A arb C n s ops Sd S V) as (st & E & I & H). destruct (H M) as [He Ha]. exists st. split; auto.
  split; [now apply CI_len in I|]. intros i c N. apply nth_dchain in N as [L <-]. pose proof (CI_nth n _ _ _ I L) as Ii. pose proof (EI_nth n s _ _ _ He L) as Ie.
  pose proof (AI_nth A n s _ _ _ Ha L) as Ia. split.
  - destruct (read_exact_Ok A arb Sd n s S _ _ Ii) as (c' & v & R & _ & _ & Q & _). exists c', v. split; auto.
  - destruct (read_approx_Ok A arb Sd n s S _ _ Ii) as (c' & v & R & _ & _ & _ & Q & _). exists c', v. split; auto.
Qed.
Print Assumptions C26_vector_partial.

(** Comparisons of chains with bounds compare the length of that vector. *)
Theorem C26_bounds_partial : forall (K : ExactReal) A (arb : K -> ball) C n s ops, sound arb -> flat_surface n s -> valid n 0 ops -> no_mul ops ->
  exists st, run A arb C s [] ops = Ok st /\
  forall i c b, nth_error st i = Some c -> (0 <= b)%Z ->
    (exists r, chain_lt A arb s c b = Ok r /\ (r = true <-> (plength (chain_vector n s (nth i (spec_run ops) czero)) < blength b)%R)) /\
    (exists r, chain_gt A arb s c b = Ok r /\ (r = true <-> (blength b < plength (chain_vector n s (nth i (spec_run ops) czero)))%R)).
Proof.
  intros K A arb C n s ops Sd S V M. destruct (run_start A arb C n s ops Sd S V) as (st & E & I & H). destruct (H M) as [He Ha]. exists st. split; auto.
  intros i c b N Hb. apply nth_dchain in N as [L <-]. pose proof (CI_nth n _ _ _ I L) as Ii. pose proof (EI_nth n s _ _ _ He L) as Ie.
  pose proof (AI_nth A n s _ _ _ Ha L) as Ia. set (p := chain_vector n s _) in *.
  destruct (read_approx_Ok A arb Sd n s S _ _ Ii) as (c' & w & R & I' & _ & _ & Q & X & _). specialize (Q Ie Ia).
  destruct (read_exact_Ok A arb Sd n s S _ _ I') as (c2 & v & R2 & _ & _ & Q2 & _). specialize (Q2 (X Ie)). fold p in Q, Q2.
  assert (LT : (pdot p p < IZR b)%R <-> (plength p < blength b)%R).
  { apply IZR_le in Hb as Hb'. unfold plength, blength. pose proof (pdot_ge p). split; intros Y; [apply sqrt_lt_1|apply sqrt_lt_0_alt]; lra. }
  assert (GT : (IZR b < pdot p p)%R <-> (blength b < plength p)%R).
  { apply IZR_le in Hb as Hb'. unfold plength, blength. pose proof (pdot_ge p). split; intros Y; [apply sqrt_lt_1|apply sqrt_lt_0_alt]; lra. }
  split.
  - unfold chain_lt. rewrite R. cbn [bind]. destruct (alt A w b) as [r|] eqn:D.
    + exists r. split; auto. rewrite (alt_sound A w p b r Hb Q D). exact LT.
    + rewrite R2. cbn [bind]. eexists. split; [reflexivity|]. rewrite vltb_spec, Q2 by auto. exact LT.
  - unfold chain_gt. rewrite R. cbn [bind]. destruct (agt A w b) as [r|] eqn:D.
    + exists r. split; auto. rewrite (agt_sound A w p b r Hb Q D). exact GT.
    + rewrite R2. cbn [bind]. eexists. split; [reflexivity|]. rewrite vgtb_spec, Q2 by auto. exact GT.
Qed.
Print Assumptions C26_bounds_partial.

(** The sum of the half edges around a triangle has the zero vector. *)
Theorem C26_boundary_of_triangle : forall (K : ExactReal) A (arb : K -> ball) C n s h, sound arb -> flat_surface n s -> h < n -> fF s h <> h ->
  exists c c' v, run A arb C s [] [NewHE h; AddHE 0 (fF s h); AddHE 0 (fF s (fF s h))] = Ok [c] /\ read_exact arb s c = Ok (c', v) /\ vden v = (0, 0)%R.
Proof.
  intros K A arb C n s h Sd S Hh N. pose proof (fs_wf n s S) as W.
  assert (H1 : fF s h < n) by now apply (nF_lt n (fT s) W). assert (H2 : fF s (fF s h) < n) by now apply (nF_lt n (fT s) W).
  destruct (C26_vector_partial K A arb C n s [NewHE h; AddHE 0 (fF s h); AddHE 0 (fF s (fF s h))] Sd S) as (st & E & L & H).
  - cbn. auto 10.
  - intros i z J. cbn in J. intuition discriminate.
  - cbn in L. destruct st as [|c [|]]; try discriminate. destruct (H 0 c eq_refl) as [(c' & v & R & Q) _]. exists c, c', v. split; auto. split; auto. rewrite Q. cbn [spec_run fold_left spec_step nth upd app].
    change (chain_vector n s (fun e => single h e + single (fF s h) e + single (fF s (fF s h)) e)%Z = (0, 0)%R).
    rewrite (cvec_add n s (fun e => single h e + single (fF s h) e)%Z), (cvec_add n s), !(cv_single n s S) by auto.
    destruct (fs_flat n s S h Hh N) as [F _]. rewrite <- F. unfold padd; cbn [fst snd]. f_equal; lra.
Qed.
Print Assumptions C26_boundary_of_triangle.

(** [*=] does not change the vectors once they are known. *)
Theorem C26_product_stale : forall (K : ExactReal) (arb : K -> ball) s (c c' : @chain K) v z, read_exact arb s c = Ok (c', v) ->
  exists c2, read_exact arb s (mul_chain c' z) = Ok (c2, v).
Proof.
  intros K arb s c c' v z R. unfold read_exact in *. destruct (cval (cexact c)) as [u|] eqn:E.
  - inversion R as [[R1 R2]]. unfold mul_chain. cbn [cexact]. unfold flush. rewrite E. cbn. eauto.
  - destruct (exact_loop s c _ _) as [[c1 u]| | |]; try discriminate. cbn [bind] in R. inversion R. unfold mul_chain. cbn. eauto.
Qed.
Print Assumptions C26_product_stale.

(** Since the chain of a half edge knows its vector, its multiples have a wrong vector. *)
Theorem C26_product_refuted : exists (s : flat ExactZ) (arb : ExactZ -> ball) C st c c' v, sound arb /\ flat_surface 6 s /\
  valid 6 0 [NewHE 0; Mul 0 2] /\ run QArb arb C s [] [NewHE 0; Mul 0 2] = Ok st /\ nth_error st 0 = Some c /\
  coef_half_edge c 0 = Ok 2%Z /\ read_exact arb s c = Ok (c', v) /\ vden v <> chain_vector 6 s (nth 0 (spec_run [NewHE 0; Mul 0 2]) czero).
Proof.
  exists torus_s, (arb_Z : ExactZ -> ball), (mkCosts 16 2 2 2 2).
  eexists _, _, _, (zv 1 0). split; [intros x; apply within_Z|]. split; [apply torus_flat|]. split; [cbn; lia|]. split; [reflexivity|]. split; [reflexivity|].
  split; [reflexivity|]. split; [reflexivity|]. unfold chain_vector, vv; cbn. unfold pscale, padd; cbn. intros Q. injection Q. intros. lra.
Qed.
Print Assumptions C26_product_refuted.

(** The program computes 3 - 2, reads in between, and adds a chain to itself. *)
Definition ex_ops : list chain_op := [NewHE 0; NewHE 2; Add 0 1; Read 0; Copy 0; AddHE 0 5; Sub 1 0; ReadApprox 1; Add 1 1; Negate 1; Coef 1 3].
Definition ex_costs : costs := mkCosts 16 2 2 2 2.
Definition item_list {K} (x : outcome (@chain K * list (nat * Z))) : list (nat * Z) := match x with Ok (_, l) => l | _ => [] end.
Definition vector_of {K : ExactReal} (x : outcome (@chain K * vec K)) : vec K := match x with Ok (_, v) => v | _ => vzero end.
Definition chains_of {K} (x : outcome (list (@chain K))) : list (@chain K) := match x with Ok st => st | _ => [] end.
Definition ex_chains : list (@chain ExactZ) := chains_of (run QArb (arb_Z : ExactZ -> ball) ex_costs torus_s [] ex_ops).
Example C26_ex : sound (arb_Z : ExactZ -> ball) /\ flat_surface 6 torus_s /\ valid 6 0 ex_ops /\ no_mul ex_ops /\ fF torus_s 0 <> 0 /\
  map (fun c => vector_of (read_exact (arb_Z : ExactZ -> ball) torus_s c)) ex_chains = [zv 2 2; zv (-4) (-2); zv 1 1; zv 4 2] /\
  map (fun c => chain_lt QArb (arb_Z : ExactZ -> ball) torus_s c 8%Z) ex_chains = [Ok false; Ok false; Ok true; Ok false].
Proof.
  split; [intros x; apply within_Z|]. split; [apply torus_flat|]. split; [cbn; lia|]. split; [intros i z J; cbn in J; intuition discriminate|]. split; [cbn; discriminate|].
  split; reflexivity.
Qed.

(** ** C27: the coefficients of chains *)
(** The coefficients of the chains are what the program computes with integers. *)
Theorem C27_coefficients : forall (K : ExactReal) A (arb : K -> ball) C n s ops, sound arb -> flat_surface n s -> valid n 0 ops ->
  exists st, run A arb C s [] ops = Ok st /\ length st = length (spec_run ops) /\
  forall i c, nth_error st i = Some c ->
    (forall e, e < n / 2 -> coef_edge c (2 * e) = Ok (nth i (spec_run ops) czero e) /\
       coef_half_edge c (2 * e) = Ok (nth i (spec_run ops) czero e) /\ coef_half_edge c (2 * e + 1) = Ok (- nth i (spec_run ops) czero e)%Z) /\
    (chain_bool c = true <-> exists e, e < n / 2 /\ nth i (spec_run ops) czero e <> 0%Z).
Proof.
  intros K A arb C n s ops Sd S V. destruct (run_start A arb C n s ops Sd S V) as (st & E & I & _). exists st. split; auto.
  split; [now apply CI_len in I|]. intros i c N. apply nth_dchain in N as [L <-]. pose proof (CI_nth n _ _ _ I L) as Ii. split; [|now apply chain_bool_Ok].
  intros e He. split; [now apply (coef_edge_Ok n)|]. split.
  - rewrite (coef_half_edge_Ok n _ _ _ Ii) by (now rewrite div2_even). now rewrite div2_even, Nat.even_mul.
  - rewrite Nat.add_1_r. rewrite (coef_half_edge_Ok n _ _ _ Ii) by (now rewrite div2_odd). now rewrite div2_odd, Nat.even_succ, <- Nat.negb_even, Nat.even_mul.
Qed.
Print Assumptions C27_coefficients.

(** [==] compares the coefficients and changes nothing that can be observed: the chains that remain have the same coefficients.
    Equal chains have the same hash. *)
Theorem C27_equality : forall (K : ExactReal) A (arb : K -> ball) C n s ops i j, sound arb -> flat_surface n s -> valid n 0 ops ->
  i < length (spec_run ops) -> j < length (spec_run ops) ->
  exists st st' b, run A arb C s [] ops = Ok st /\ chain_eq A arb C s st i j = Ok (st', b) /\
  (b = true <-> forall e, e < n / 2 -> nth i (spec_run ops) czero e = nth j (spec_run ops) czero e) /\
  length st' = length st /\
  (forall k c c' e, nth_error st k = Some c -> nth_error st' k = Some c' -> e < n / 2 -> coef_edge c' (2 * e) = coef_edge c (2 * e)) /\
  (forall ci cj, nth_error st i = Some ci -> nth_error st j = Some cj -> b = true -> 0 < n -> exists h, chain_hash ci = Ok h /\ chain_hash cj = Ok h).
Proof.
  intros K A arb C n s ops i j Sd S V Hi Hj. destruct (run_start A arb C n s ops Sd S V) as (st & E & I & _).
  pose proof (CI_len n _ _ I) as L. destruct (chain_eq_Ok A arb Sd C n s S st _ i j I) as (st' & b & E' & I' & B & _); [lia|lia|].
  exists st, st', b. split; auto. split; auto. split; auto. pose proof (CI_len n _ _ I') as L'. split; [lia|]. split.
  - intros k c c' e N N' He. apply nth_dchain in N as [H <-]. apply nth_dchain in N' as [H' <-]. pose proof (CI_nth n _ _ _ I H) as I1. pose proof (CI_nth n _ _ _ I' H') as I2.
    now rewrite (coef_edge_Ok n _ _ _ I1), (coef_edge_Ok n _ _ _ I2).
  - intros ci cj N N' Bt Hn. apply nth_dchain in N as [H <-]. apply nth_dchain in N' as [H' <-]. pose proof (CI_nth n _ _ _ I H) as I1. pose proof (CI_nth n _ _ _ I H') as I2.
    assert (I3 : cinv (n / 2) (coefs (nth i st dchain)) (nth j (spec_run ops) czero)) by (eapply cinv_ext; [exact I1|]; now apply B).
    assert (Hm : 0 < n / 2) by (pose proof (n_even n s S); lia).
    destruct (chain_hash_Ok n _ _ _ I3 I2 Hm) as [Q (h & Eh)]. exists h. split; congruence.
Qed.
Print Assumptions C27_equality.

(** Iteration yields the edges with a coefficient that is not zero, in increasing order, and changes nothing that can be observed. *)
Theorem C27_iteration : forall (K : ExactReal) A (arb : K -> ball) C n s ops, sound arb -> flat_surface n s -> valid n 0 ops ->
  exists st, run A arb C s [] ops = Ok st /\
  forall i c, nth_error st i = Some c -> let a := nth i (spec_run ops) czero in
    exists c', chain_items c = Ok (c', map (fun e => (2 * e, a e)) (filter (fun e => negb (a e =? 0)%Z) (seq 0 (n / 2)))) /\
      cexact c' = cexact c /\ capprox c' = capprox c /\ forall e, e < n / 2 -> coef_edge c' (2 * e) = coef_edge c (2 * e).
Proof.
  intros K A arb C n s ops Sd S V. destruct (run_start A arb C n s ops Sd S V) as (st & E & I & _). exists st. split; auto.
  intros i c N a. apply nth_dchain in N as [L <-]. pose proof (CI_nth n _ _ _ I L) as Ii. destruct (chain_items_Ok n _ _ Ii) as (c' & Q & I' & E' & A').
  exists c'. split; [exact Q|]. split; auto. split; auto. intros e He. now rewrite (coef_edge_Ok n _ _ _ Ii), (coef_edge_Ok n _ _ _ I').
Qed.
Print Assumptions C27_iteration.

(** Two iterators at the same position of the same chain: when both advance, an integer is demoted that is not an mpz anymore. *)
Definition nested {K : ExactReal} (c : @chain K) : outcome (@chain K * nat) :=
  do (c, i) <- it_begin c; do (c, j) <- it_begin c; do (c, _) <- it_next c j; it_next c i.
Theorem C27_nested_iteration_refuted : exists (s : flat ExactZ) (arb : ExactZ -> ball) C st c, sound arb /\ flat_surface 6 s /\ valid 6 0 [NewHE 0] /\
  run QArb arb C s [] [NewHE 0] = Ok st /\ nth_error st 0 = Some c /\ nested c = UB.
Proof.
  exists torus_s, (arb_Z : ExactZ -> ball), ex_costs. eexists _, _. split; [intros x; apply within_Z|]. split; [apply torus_flat|]. split; [cbn; lia|].
  split; [reflexivity|]. split; reflexivity.
Qed.
Print Assumptions C27_nested_iteration_refuted.

Example C27_ex : sound (arb_Z : ExactZ -> ball) /\ flat_surface 6 torus_s /\ valid 6 0 (ex_ops ++ [Mul 1 (2 ^ 80); Sub 2 2]) /\
  map (fun c => item_list (chain_items c)) ex_chains = [[(0, (1)%Z); (2, (1)%Z); (4, (-1)%Z)]; [(0, (-2)%Z); (4, (2)%Z)]; [(0, (1)%Z); (2, (1)%Z)]; [(0, (2)%Z); (4, (-2)%Z)]] /\
  map (fun c => item_list (chain_items c)) (chains_of (run QArb (arb_Z : ExactZ -> ball) ex_costs torus_s ex_chains [Mul 1 (2 ^ 80); Sub 2 2])) =
    [[(0, (1)%Z); (2, (1)%Z); (4, (-1)%Z)]; [(0, (- 2 ^ 81)%Z); (4, (2 ^ 81)%Z)]; []; [(0, (2)%Z); (4, (-2)%Z)]].
Proof.
  split; [intros x; apply within_Z|]. split; [apply torus_flat|]. split; [cbn; lia|]. split; reflexivity.
Qed.
