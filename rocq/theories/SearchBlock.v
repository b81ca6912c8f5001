(** * The search behind an edge is complete *)
From Coq Require Import ZArith Reals List Arith Bool Lia Lra Psatz.
From Verif Require Import Base HalfEdge HalfEdgeFacts Perm PermSpec PermFacts IndexedSet Combinatorial CombinatorialSpec
  CombinatorialFacts CombinatorialHistory CombinatorialOps ExactReal Vector PlaneSpec Plane VectorFacts
  FlatTri FlatSpec FlatFacts FlatSum Chain ChainSpec ChainFacts Saddle SaddleSpec SaddleFacts Quadratic QuadraticSpec QuadraticFacts
  Search SearchSpec SearchMoves SearchPlane SearchDepth SearchRun PointFacts.
Import ListNotations.
Local Open Scope R_scope.

Section block.
Context {K : ExactReal} (n : nat) (cs : conns K) (r : Z).
Local Notation s := (cn_surface cs).
Hypothesis S0 : flat_surface n s.
Hypothesis Rad : cn_radius cs = Some r.
Hypothesis R0 : (0 <= r)%Z.
Hypothesis L0 : (0 <= cn_lower cs)%Z.
Variable x0 : ssector K.
Variable rest : list (ssector K).
Local Notation block := (block n cs r x0 rest).
Local Notation bdir := (bdir n cs).
Local Notation bgood := (bgood n).
Local Notation outside := (outside cs r).

(** What is to be found behind an edge. *)
Definition sel (vec : bool) (d0 d1 : pt) (x : pt * nat) (v : pt) (g : nat) : Prop := hits s (fst x) (snd x) v g /\ inside vec d0 d1 v /\ within cs r v.
(** After [k] steps, all the edges are outside. *)
Definition deep (k : nat) (x : pt * nat) (d0 d1 : pt) : Prop :=
  forall d l, cone (fst x) (padd (fst x) (vv s (snd x))) d -> 0 <= pdet d0 d -> 0 <= pdet d d1 -> path_ok n s d x l -> length l = k -> outside (walk s x l).

Lemma sel_outside vec d0 d1 x v g : (snd x < n)%nat -> 0 < pdet (fst x) (padd (fst x) (vv s (snd x))) -> outside x -> ~ sel vec d0 d1 x v g.
Proof. intros Hx D O (H & _ & _ & B). pose proof (outside_hits n s S0 _ _ _ _ (IZR r) H Hx D O). lra. Qed.
Lemma sel_boundary vec d0 d1 x v g : fF s (neg (snd x)) = neg (snd x) -> ~ sel vec d0 d1 x v g.
Proof. intros B (H & _). apply hits_inv in H. tauto. Qed.
Lemma child_lt b x : (snd x < n)%nat -> (snd (child s b x) < n)%nat.
Proof.
  intros H. assert (Hn : (neg (snd x) < n)%nat) by (apply (neg_ltn n (fT s)); auto; apply S0). unfold child. destruct b; cbn [snd]; [do 2 (apply (fF_lt n); auto)|apply (fF_lt n); auto].
Qed.

Lemma main_block (Deg : bool -> Prop) :
  (Deg true -> forall x c, (snd x < n)%nat -> length c = (n / 2)%nat -> node_end s (fst x) (snd x) (cvector n s c) (cvector n s c) -> block x (BChain c) (BChain c) (fun _ _ => False)) ->
  forall k vec x b0 b1, Deg vec -> Deg false -> is_chain b0 = negb vec -> bgood b0 -> bgood b1 -> (snd x < n)%nat ->
  node_ok s vec (fst x) (snd x) (bdir b0) (bdir b1) -> deep k x (bdir b0) (bdir b1) -> block x b0 b1 (sel vec (bdir b0) (bdir b1) x).
Proof.
  intros HD. induction k as [|k IH]; intros vec x b0 b1 Dv Df Iv G0 G1 Hx N Dp; pose proof N as (D & C0 & C1 & O01 & Q0 & V).
  all: apply (block_step n cs r S0 Rad R0 L0 x0 rest x b0 b1 (sel vec (bdir b0) (bdir b1) x) Hx G0 G1); [intros O v g; now apply sel_outside|intros B v g; now apply sel_boundary|intros No Nb].
  { exfalso. apply No. apply (Dp (bdir b0) []); auto; [unfold pdet; lra|]. split; auto. split; auto. }
  set (p := fst x) in *. set (h := snd x) in *. set (d0 := bdir b0) in *. set (d1 := bdir b1) in *. set (w := apex cs x).
  assert (Ex : x = (p, h)) by now destruct x.
  assert (Ew : padd w (vv s (fF s (fF s (neg h)))) = padd p (vv s h)) by (apply (across' n s S0 p h); auto).
  assert (Dpc : forall b d l, cone p (padd p (vv s h)) d -> 0 <= pdet d0 d -> 0 <= pdet d d1 -> path_ok n s d (child s b x) l -> length l = k -> outside (walk s (child s b x) l)).
  { intros b d l Cd L1 L2 Pl Ll. apply (Dp d (b :: l)); auto; [|cbn; lia]. split; [split; auto; split; auto|]. split; auto. }
  split; [|split].
  - (* clockwise *)
    intros C. assert (C' : pdet d0 w < 0 \/ (pdet d0 w = 0 /\ vec = false)) by (destruct C as [C|[C C2]]; [now left|right; split; auto; rewrite C2 in Iv; destruct vec; auto; discriminate]).
    destruct (step_clockwise n s S0 vec p h d0 d1 Hx Nb N C') as (N' & Co & Eq).
    apply (block_ext _ _ _ _ _ (child s true x) b0 b1 (sel vec d0 d1 (child s true x))).
    + apply IH; auto; [now apply child_lt|]. intros d l Cd L1 L2 Pl Ll. change (cone w (padd w (vv s (fF s (fF s (neg h))))) d) in Cd. rewrite Ew in Cd. apply (Dpc true d l); auto.
    + intros v g. unfold sel. cbn [child fst snd]. split; intros (H & I & Wi); (split; [|auto]); apply (Eq v g I); auto.
  - (* counterclockwise *)
    intros C C'. destruct (step_counterclockwise n s S0 vec p h d0 d1 Hx Nb N C C') as (N' & Co & Eq).
    apply (block_ext _ _ _ _ _ (child s false x) b0 b1 (sel vec d0 d1 (child s false x))).
    + apply IH; auto; [now apply child_lt|]. intros d l Cd L1 L2 Pl Ll. change (cone p w d) in Cd. apply (Dpc false d l); auto.
    + intros v g. unfold sel. cbn [child fst snd]. split; intros (H & I & Wi); (split; [|auto]); apply (Eq v g I); auto.
  - (* found *)
    intros C. destruct (Req_EM_T (pdet d0 w) 0) as [Z|NZ].
    + assert (Ib : is_chain b0 = false) by (destruct C as [[C _]|[_ C]]; [lra|auto]). assert (Ev : vec = true) by (rewrite Ib in Iv; destruct vec; auto; discriminate). rewrite Ib.
      destruct (step_first n s S0 vec p h d0 d1 Hx Nb N Ev Z) as (Wp & N2 & Co & Iw & Eq).
      assert (L1 : pdet d1 w <= 0). { destruct N2 as (_ & _ & (A & _ & _) & _). fold w in A. rewrite pdet_swap. change (padd p (vv s (fF s (neg h)))) with w in A. lra. }
      split; auto. exists (fun _ _ => False), (sel false w d1 (child s true x)). split; [|split; [|split]].
      * intros c (Lc & Dc). split.
        -- apply HD; auto; [now rewrite <- Ev|now apply child_lt|]. rewrite Dc. change (0 < pdet p w /\ same_direction w w /\ same_direction w w).
           split; [exact Wp|]. assert (Sw : same_direction w w) by (exists 1; split; [lra|]; unfold pscale; apply pt_eq; cbn [fst snd]; ring). auto.
        -- assert (Ed : w = bdir (BChain c)) by (symmetry; exact Dc). rewrite Ed. apply IH; auto; [now apply child_lt|rewrite <- Ed; exact N2|]. rewrite <- Ed.
           intros d l Cd M1 M2 Pl Ll. change (cone w (padd w (vv s (fF s (fF s (neg h))))) d) in Cd. rewrite Ew in Cd. destruct (Co d) as (X1 & X2 & X3); auto. apply (Dpc true d l); auto.
      * intros v g. unfold sel. cbn [child fst snd]. split.
        -- intros (H & I & Wi). destruct (proj1 (Eq v g) (conj H I)) as [[E1 E2]|[H' I']]; [left|right; right]; auto. change (padd p (vv s (fF s (neg h)))) with w in E1. split; [split; auto|now rewrite <- E1].
        -- intros [[[E1 E2] Wi]|[[]|(H & I & Wi)]].
           ++ destruct (proj2 (Eq v g) (or_introl (conj E1 E2))) as [H I]. split; auto. split; auto. now rewrite E1.
           ++ destruct (proj2 (Eq v g) (or_intror (conj H I))) as [H' I']. auto.
      * intros g. split; [tauto|]. intros (_ & I & _). destruct I as [[I _]|[I _]]; [unfold pdet in I; lra|discriminate].
      * tauto.
    + assert (C' : 0 < pdet d0 w /\ pdet d1 w < 0) by (destruct C as [C|[C _]]; [auto|contradiction]). destruct C' as [C1' C2'].
      destruct (step_found n s S0 vec p h d0 d1 Hx Nb N C1' C2') as (N1 & N2 & Co1 & Co2 & Iw & Eq).
      split; [lra|]. exists (sel vec d0 w (child s false x)), (sel false w d1 (child s true x)). split; [|split; [|split]].
      * intros c (Lc & Dc). assert (Ed : w = bdir (BChain c)) by (symmetry; exact Dc).
        assert (Eb : (if is_chain b0 then b0 else b0) = b0) by (destruct (is_chain b0); auto). rewrite Eb. split.
        -- rewrite Ed. apply IH; auto; [now apply child_lt|rewrite <- Ed; exact N1|]. rewrite <- Ed.
           intros d l Cd M1 M2 Pl Ll. change (cone p w d) in Cd. destruct (Co1 d) as (X1 & X2 & X3); auto. apply (Dpc false d l); auto.
        -- rewrite Ed. apply IH; auto; [now apply child_lt|rewrite <- Ed; exact N2|]. rewrite <- Ed.
           intros d l Cd M1 M2 Pl Ll. change (cone w (padd w (vv s (fF s (fF s (neg h))))) d) in Cd. rewrite Ew in Cd. destruct (Co2 d) as (X1 & X2 & X3); auto. apply (Dpc true d l); auto.
      * intros v g. unfold sel. cbn [child fst snd]. split.
        -- intros (H & I & Wi). destruct (proj1 (Eq v g) (conj H I)) as [[E1 E2]|[[H' I']|[H' I']]]; [left|right; left; auto|right; right; auto]. change (padd p (vv s (fF s (neg h)))) with w in E1. split; [split; auto|now rewrite <- E1].
        -- intros [[[E1 E2] Wi]|[(H & I & Wi)|(H & I & Wi)]].
           ++ destruct (proj2 (Eq v g) (or_introl (conj E1 E2))) as [H I]. split; auto. split; auto. now rewrite E1.
           ++ destruct (proj2 (Eq v g) (or_intror (or_introl (conj H I)))) as [H' I']. auto.
           ++ destruct (proj2 (Eq v g) (or_intror (or_intror (conj H I)))) as [H' I']. auto.
      * intros g. split.
        -- intros (H & _ & _). apply hits_crosses in H. destruct H as [_ H]. cbn [child fst snd] in H. fold h p in H. change (padd p (vv s (fF s (neg h)))) with w in H. unfold pdet in H. lra.
        -- intros (_ & I & _). destruct I as [[I _]|[I _]]; [unfold pdet in I; lra|discriminate].
      * intros v g g' (H & _ & _) (H' & _ & _). apply hits_crosses in H, H'. destruct H as [_ H], H' as [H' _]. change (0 < pdet v w) in H. change (0 < pdet w v) in H'. rewrite pdet_swap in H. lra.
Qed.

(** The depth for all edges. *)
Variable N : nat.
Hypothesis Bound : forall d x l, path_ok n s d x l -> (N <= length l)%nat -> outside (walk s x l).
Lemma deep_N x d0 d1 : deep N x d0 d1.
Proof. intros d l _ _ _ P L. apply (Bound d); auto. lia. Qed.

Lemma chain_block x b0 b1 : is_chain b0 = true -> bgood b0 -> bgood b1 -> (snd x < n)%nat -> node_ok s false (fst x) (snd x) (bdir b0) (bdir b1) ->
  block x b0 b1 (sel false (bdir b0) (bdir b1) x).
Proof. intros. apply (main_block (fun b => b = false)) with (k := N); auto; [discriminate|apply deep_N]. Qed.

Lemma flat_block x b0 b1 : is_chain b0 = true -> bgood b0 -> bgood b1 -> (snd x < n)%nat -> bdir b0 <> (0, 0) -> node_flat s (fst x) (snd x) (bdir b0) (bdir b1) ->
  block x b0 b1 (fun _ _ => False).
Proof.
  intros Ic G0 G1 Hx N0 Nf. apply (block_step n cs r S0 Rad R0 L0 x0 rest x b0 b1 _ Hx G0 G1); [auto|auto|intros No Nb].
  destruct (step_flat n s S0 (fst x) (snd x) _ _ Hx Nb Nf N0) as (C1 & C2 & Nd). change (padd (fst x) (vv s (fF s (neg (snd x))))) with (apex cs x) in *.
  split; [intros [C|[C _]]; lra|]. split; [intros _ _|intros [[_ C]|[C _]]; lra].
  apply (block_ext _ _ _ _ _ _ _ _ (sel false (bdir b0) (bdir b1) (child s false x))); [apply chain_block; auto; now apply child_lt|].
  intros v g. split; [|tauto]. intros (_ & I & _). apply (inside_empty (bdir b0) (bdir b1) v); auto. apply Nf.
Qed.
Lemma end_block : forall k x b0 b1, is_chain b0 = true -> bgood b0 -> bgood b1 -> (snd x < n)%nat -> node_end s (fst x) (snd x) (bdir b0) (bdir b1) ->
  (forall l, path_ok n s (bdir b0) x l -> length l = k -> outside (walk s x l)) -> block x b0 b1 (fun _ _ => False).
Proof.
  induction k as [|k IH]; intros x b0 b1 Ic G0 G1 Hx Ne Dp; (apply (block_step n cs r S0 Rad R0 L0 x0 rest x b0 b1 _ Hx G0 G1); [auto|auto|intros No Nb]).
  all: assert (Cr : crossing n s (bdir b0) x).
  1, 3: destruct Ne as (D & S1 & S2); split; auto; split; auto; repeat split; [apply Rlt_le; apply (same_dir_pos _ _ (fst x) S1); auto|apply same_dir_sym in S1; rewrite (same_dir_det _ _ S1); lra|].
  1, 2: intros Z; destruct S1 as (q & Hq & E); rewrite Z in E; set (u := padd (fst x) (vv s (snd x))) in *; assert (Hu : u = (0, 0)) by (destruct u as [a b]; injection E as E1 E2; apply pt_eq; cbn [fst snd]; nra); rewrite Hu in D; unfold pdet in D; cbn in D; lra.
  { exfalso. apply No. apply (Dp []); auto. split; auto. }
  destruct (step_end n s S0 (fst x) (snd x) _ _ Hx Nb Ne) as (K1 & K2 & K3). change (padd (fst x) (vv s (fF s (neg (snd x))))) with (apex cs x) in *.
  destruct Ne as (D & S1 & S2). assert (S3 : same_direction (bdir b0) (bdir b1)) by (apply (same_dir_trans _ (padd (fst x) (vv s (snd x)))); auto; now apply same_dir_sym).
  split; [|split].
  - intros C. destruct (Req_EM_T (pdet (bdir b0) (apex cs x)) 0) as [Z|NZ].
    + apply flat_block; auto; [now apply child_lt|apply Cr].
    + apply IH; auto; [now apply child_lt|apply K3; destruct C as [C|[C _]]; [auto|contradiction]|]. intros l Pl Ll. apply (Dp (true :: l)); [|cbn; lia]. split; auto.
  - intros C C'. apply (block_ext _ _ _ _ _ _ _ _ (sel false (bdir b0) (bdir b1) (child s false x))); [apply chain_block; auto; [now apply child_lt|now apply K1]|].
    intros v g. split; [|tauto]. intros (_ & I & _). now apply (inside_empty (bdir b0) (bdir b1) v).
  - intros [[C C']|[_ C]]; [|congruence]. apply K1 in C. lra.
Qed.

Theorem edge_block vec x b0 b1 : is_chain b0 = negb vec -> bgood b0 -> bgood b1 -> (snd x < n)%nat -> node_ok s vec (fst x) (snd x) (bdir b0) (bdir b1) ->
  block x b0 b1 (sel vec (bdir b0) (bdir b1) x).
Proof.
  intros. apply (main_block (fun _ => True)) with (k := N); auto; [|apply deep_N]. clear - S0 Rad R0 L0 Bound. intros _ x c Hx Lc Ne.
  apply (end_block N); auto. intros l P L. apply (Bound (bdir (BChain c))); auto. lia.
Qed.
End block.
