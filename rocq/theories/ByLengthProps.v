(** * Theorems on saddle connections sorted by length *)
From Coq Require Import ZArith Reals List Arith Bool Lia Lra Psatz Permutation Sorted.
From Verif Require Import Base HalfEdge HalfEdgeFacts Perm PermSpec PermFacts IndexedSet Combinatorial CombinatorialSpec
  CombinatorialFacts CombinatorialHistory CombinatorialOps CombinatorialProps ExactReal Vector PlaneSpec Plane VectorFacts VectorProps
  FlatTri FlatSpec FlatFacts FlatProps Chain ChainSpec ChainFacts Saddle SaddleSpec SaddleFacts
  Search SearchSpec SearchProps PointFacts ShortestProps ByLength.
Import ListNotations.
Local Open Scope R_scope.

Lemma Forall2_impl' {A B} (P Q : A -> B -> Prop) : (forall x y, P x y -> Q x y) -> forall l m, Forall2 P l m -> Forall2 Q l m.
Proof. intros H l m F. induction F; constructor; auto. Qed.

Section by_length.
Context {K : ExactReal}.

(** What is known about a connection; the square of its length. *)
Definition key (n : nat) (y : sconn K) : nat * nat * pt := (sc_source y, sc_target y, sv n y).
Definition len2 (n : nat) (y : sconn K) : R := pdot (sv n y) (sv n y).
Definition no_longer (n : nat) (x y : sconn K) : Prop := len2 n x <= len2 n y.
(** The function sorts by length. *)
Definition sorts (n : nat) (sort : list (sconn K) -> list (sconn K)) : Prop :=
  forall l, (forall y, In y l -> sc_valid n y) -> Permutation (sort l) l /\ StronglySorted (no_longer n) (sort l).

Variables (n : nat) (cs : conns K) (sort : list (sconn K) -> list (sconn K)).
Local Notation s := (cn_surface cs).
Hypothesis S0 : flat_surface n s.
Hypothesis Sort : sorts n sort.
Hypothesis L0 : (0 <= cn_lower cs)%Z.
Hypothesis Sk : sectors_ok n s (cn_sectors cs).
Hypothesis Hn : (0 < n)%nat.
Hypothesis Nz : forall h, (h < n)%nat -> vv s h <> (0, 0).

(** What is found between two bounds. *)
Definition between (a : Z) (b : option Z) (v : pt) : Prop := IZR a < pdot v v /\ match b with None => True | Some b => pdot v v <= IZR b end.
Definition finds (a : Z) (b : option Z) (l : list (sconn K)) : Prop :=
  (forall y, In y l -> sc_valid n y /\ between a b (sv n y)) /\
  exists ls, l = concat ls /\ Forall2 (fun x l => NoDup (map (sv n) l) /\ (forall y, In y l -> sc_source y = sec_source x) /\
    forall v g, (connection s (sec_source x) v g /\ in_part x v /\ between a b v) <-> exists y, In y l /\ sv n y = v /\ sc_target y = g) (cn_sectors cs) ls.

Lemma search_finds cs' a b : cn_surface cs' = s -> cn_sectors cs' = cn_sectors cs -> cn_lower cs' = a -> cn_radius cs' = Some b -> (0 <= a)%Z -> (0 <= b)%Z ->
  exists k l, (forall f, (k <= f)%nat -> search cs' f = Ok l) /\ finds a (Some b) l.
Proof.
  intros Es Ec Ea Eb Ha Hb. destruct (C56_sectors n cs' b) as (k & ls & H & F); [now rewrite Es|auto|auto|lia|now rewrite Es, Ec|].
  exists k, (concat ls). split; auto. rewrite Ec in F. unfold finds, between. split.
  - intros y I. destruct (in_concat2 _ _ _ F y I) as (x & l & _ & (_ & B & D) & Il). split; [now apply B|]. destruct (proj2 (D (sv n y) (sc_target y))) as (_ & _ & A1 & A2); [exists y; auto|]. rewrite Eb in A2. rewrite Ea in A1. auto.
  - exists ls. split; auto. revert F. apply Forall2_impl'. intros x l (A & B & C). split; auto. split; [intros y I; now apply B|].
    intros v g. rewrite <- C. unfold wanted. rewrite Es, Ea, Eb. reflexivity.
Qed.

Lemma finds_split a r a1 r1 a2 r2 l l1 l2 : finds a r l -> finds a1 r1 l1 -> finds a2 r2 l2 ->
  (forall v, between a r v <-> between a1 r1 v \/ between a2 r2 v) -> (forall v, between a1 r1 v -> between a2 r2 v -> False) ->
  Permutation (map (key n) l) (map (key n) (l1 ++ l2)).
Proof.
  intros (_ & ls & -> & F) (_ & ls1 & -> & F1) (_ & ls2 & -> & F2) Iff Dis. clear Sk. revert ls ls1 ls2 F F1 F2. induction (cn_sectors cs) as [|x xs IH]; intros ls ls1 ls2 F F1 F2;
    inversion F as [|x0 m ? ls' (N & B & C) F']; inversion F1 as [|x1 m1 ? ls1' (N1 & B1 & C1) F1']; inversion F2 as [|x2 m2 ? ls2' (N2 & B2 & C2) F2']; subst; [constructor|].
  cbn [concat]. rewrite map_app. transitivity (map (key n) ((m1 ++ m2) ++ (concat ls1' ++ concat ls2'))).
  - rewrite map_app. apply Permutation_app; [|now apply IH]. clear IH F' F1' F2' F F1 F2.
    assert (Nk : forall o, NoDup (map (sv n) o) -> NoDup (map (key n) o)).
    { induction o as [|y o IHo]; intros Nd; cbn [map] in *; [constructor|]. inversion_clear Nd as [|? ? Na Nl]. constructor; auto. intros I. apply Na. apply in_map_iff in I. destruct I as (b & E & I). apply in_map_iff. exists b. split; auto. unfold key in E. congruence. }
    apply NoDup_Permutation; [now apply Nk| |].
    + rewrite map_app. apply nodup_app; [now apply Nk|now apply Nk|]. intros z I J. apply in_map_iff in I, J. destruct I as (y1 & <- & I), J as (y2 & E & J).
      destruct (proj2 (C1 (sv n y1) (sc_target y1))) as (_ & _ & A1); [eauto|]. destruct (proj2 (C2 (sv n y2) (sc_target y2))) as (_ & _ & A2); [eauto|]. unfold key in E. injection E as _ _ E. rewrite E in A2. now apply (Dis (sv n y1)).
    + intros z. rewrite map_app, in_app_iff, !in_map_iff. unfold key. split.
      * intros (y & <- & I). destruct (proj2 (C (sv n y) (sc_target y))) as (A & A' & A''); [eauto|]. apply Iff in A''. destruct A'' as [A''|A''].
        -- left. destruct (proj1 (C1 (sv n y) (sc_target y))) as (y1 & I1 & E1 & E2); auto. exists y1. split; auto. rewrite E1, E2, (B y I), (B1 y1 I1). auto.
        -- right. destruct (proj1 (C2 (sv n y) (sc_target y))) as (y1 & I1 & E1 & E2); auto. exists y1. split; auto. rewrite E1, E2, (B y I), (B2 y1 I1). auto.
      * intros [(y & <- & I)|(y & <- & I)].
        -- destruct (proj2 (C1 (sv n y) (sc_target y))) as (A & A' & A''); [eauto|]. destruct (proj1 (C (sv n y) (sc_target y))) as (y1 & I1 & E1 & E2); [split; auto; split; auto; apply Iff; auto|]. exists y1. split; auto. rewrite E1, E2, (B1 y I), (B y1 I1). auto.
        -- destruct (proj2 (C2 (sv n y) (sc_target y))) as (A & A' & A''); [eauto|]. destruct (proj1 (C (sv n y) (sc_target y))) as (y1 & I1 & E1 & E2); [split; auto; split; auto; apply Iff; auto|]. exists y1. split; auto. rewrite E1, E2, (B2 y I), (B y1 I1). auto.
  - apply Permutation_map. rewrite <- !app_assoc. apply Permutation_app_head. rewrite !app_assoc. apply Permutation_app_tail. apply Permutation_app_comm.
Qed.
Lemma finds_none a b l : finds a b l -> (forall v, ~ between a b v) -> l = [].
Proof. intros (H & _) N. destruct l as [|y l]; auto. exfalso. apply (N (sv n y)). apply H. now left. Qed.

(** The next bounds. *)
Definition window (m : biter K) (lower upper : Z) : Prop :=
  (if beqb (bi_upper m) 0%Z then do v <- shortest s; Ok (0%Z, bupper v) else Ok (bi_upper m, bmul (bi_upper m) 2)) = Ok (lower, upper).
Lemma window_next a u : (1 <= u)%Z -> window (mkBiter a u []) u (4 * u).
Proof. intros Hu. unfold window, beqb. cbn [bi_upper]. destruct (Z.eqb_spec u 0); [lia|]. unfold bmul. do 2 f_equal. lia. Qed.
Lemma window_first : exists u, (1 <= u)%Z /\ window bend 0 u.
Proof.
  destruct (C58_shortest n s S0 Hn) as (e & v & He & Ev & Dv & _). exists (bupper v). split.
  - destruct (C18_enclosure v) as (_ & (_ & A) & _). pose proof (pdot_pos _ (Nz e He)) as P. rewrite <- Dv in P. unfold blength, plength in A. apply sqrt_le_0 in A; [|lra|].
    + assert (0 < IZR (bupper v)) by lra. apply lt_IZR in H. lia.
    + destruct (C18_enclosure v) as (B & _). unfold bupper. pose proof (rceil_spec K (vdot v v)) as G. rewrite den_dot in G. lra.
  - unfold window, bend. cbn [bi_upper]. rewrite Ev. reflexivity.
Qed.
Definition cut (b : Z) : Z := match cn_radius cs with None => b | Some r => Z.min b r end.
Definition over (a : Z) : Z := Z.max (cn_lower cs) a.
Definition ended (lower : Z) : bool := match cn_radius cs with None => false | Some r => negb (bltb lower r) end.
Lemma refill_window k m lower upper : bi_within m = [] -> window m lower upper -> refill sort cs (Datatypes.S k) m =
  if ended lower then Ok bend else do l <- search (cn_lower_bound (cn_bound cs upper) lower) k; refill sort cs k (mkBiter lower upper (sort l)).
Proof. intros E Wi. cbn [refill]. rewrite E. unfold window in Wi. rewrite Wi. reflexivity. Qed.
Lemma refill_within k a u x w : refill sort cs (Datatypes.S k) (mkBiter a u (x :: w)) = Ok (mkBiter a u (x :: w)).
Proof. reflexivity. Qed.
Lemma window_finds lower upper : (0 <= lower)%Z -> (0 <= upper)%Z -> (match cn_radius cs with None => True | Some r => (0 <= r)%Z end) ->
  exists k l, (forall f, (k <= f)%nat -> search (cn_lower_bound (cn_bound cs upper) lower) f = Ok l) /\ finds (over lower) (Some (cut upper)) l.
Proof.
  intros Hl Hu Hr. apply search_finds; auto; unfold over, cut, cn_lower_bound, cn_bound, bltb; cbn [cn_lower cn_radius].
  - destruct (Z.ltb_spec (cn_lower cs) lower); lia.
  - f_equal. destruct (cn_radius cs) as [q|]; auto. destruct (Z.ltb_spec upper q); lia.
  - lia.
  - destruct (cn_radius cs); lia.
Qed.

Lemma sorted_app l1 l2 b : StronglySorted (no_longer n) l1 -> StronglySorted (no_longer n) l2 -> (forall y, In y l1 -> len2 n y <= b) -> (forall y, In y l2 -> b <= len2 n y) -> StronglySorted (no_longer n) (l1 ++ l2).
Proof.
  intros H1 H2 B1 B2. induction H1 as [|x l1 H IH Hx]; cbn [app]; auto. constructor; [apply IH; intros y I; apply B1; now right|].
  apply Forall_app. split; auto. apply Forall_forall. intros y I. unfold no_longer. specialize (B1 x (or_introl eq_refl)). specialize (B2 y I). lra.
Qed.

(** The connections that are reported after an increment at the end of what is in memory. *)
Definition bruns (m : biter K) (l : list (sconn K)) : Prop := exists k, forall f f', (k <= f)%nat -> (k <= f')%nat -> (do m <- refill sort cs f m; blist sort cs f' m) = Ok l.
Lemma drain a u l : u <> 0%Z -> bruns (mkBiter a u []) l -> forall w x, exists k, forall f, (k <= f)%nat -> blist sort cs f (mkBiter a u (x :: w)) = Ok ((x :: w) ++ l).
Proof.
  intros Nu [k Hk]. assert (Ne : forall w : list (sconn K), bequal (mkBiter a u w) bend = false) by (intros; unfold bequal, beqb, bend; cbn [bi_upper]; destruct (Z.eqb_spec u 0); [contradiction|auto]).
  induction w as [|y w IH]; intros x.
  - exists (k + 1)%nat. intros f Hf. destruct f as [|f]; [lia|]. cbn [blist]. rewrite Ne. cbn [bdereference bi_within bind bnext bi_lower bi_upper].
    specialize (Hk f f ltac:(lia) ltac:(lia)). destruct (refill sort cs f (mkBiter a u [])) as [m| | |]; try discriminate. cbn [bind] in Hk |- *. rewrite Hk. reflexivity.
  - destruct (IH y) as [k' Hk']. exists (k' + 1)%nat. intros f Hf. destruct f as [|f]; [lia|]. cbn [blist]. rewrite Ne. cbn [bdereference bi_within bind bnext bi_lower bi_upper].
    rewrite Hk' by lia. reflexivity.
Qed.

(** All that is reported, with a bound. *)
Definition good_list (r lower : Z) (l : list (sconn K)) : Prop :=
  StronglySorted (no_longer n) l /\ (forall y, In y l -> sc_valid n y /\ IZR lower < len2 n y) /\ forall l0, finds (over lower) (Some r) l0 -> Permutation (map (key n) l) (map (key n) l0).
Lemma bounded_step r m lower upper : cn_radius cs = Some r -> (0 <= r)%Z -> bi_within m = [] -> window m lower upper -> (0 <= lower)%Z -> (1 <= upper)%Z -> (lower <= upper)%Z ->
  (ended lower = false -> exists l, bruns (mkBiter lower upper []) l /\ good_list r upper l) -> exists l, bruns m l /\ good_list r lower l.
Proof.
  intros Er Hr Em Wi Hl Hu Lu IH. destruct (ended lower) eqn:En.
  - exists []. split.
    + exists 1%nat. intros f f' Hf Hf'. destruct f as [|f]; [lia|]. destruct f' as [|f']; [lia|]. rewrite (refill_window f m lower upper Em Wi), En. reflexivity.
    + split; [constructor|]. split; [intros y []|]. intros l0 Fi. apply finds_none in Fi; [now rewrite Fi|]. intros v [V1 V2]. unfold ended in En. rewrite Er in En. unfold bltb in En. destruct (Z.ltb_spec lower r) as [|G]; [discriminate|].
      apply IZR_le in G. assert (IZR lower <= IZR (over lower)) by (apply IZR_le; unfold over; lia). lra.
  - destruct (IH eq_refl) as (l & Rn & So & Va & Pe). destruct (window_finds lower upper) as (k & l1 & Hs & F1); [lia|lia|now rewrite Er|].
    destruct (Sort l1) as [P1 P2]; [intros y I; now apply F1|]. exists (sort l1 ++ l). split.
    + destruct (sort l1) as [|x w] eqn:Es.
      * destruct Rn as [k' Hk']. exists (k + k' + 1)%nat. intros f f' Hf Hf'. destruct f as [|f]; [lia|]. rewrite (refill_window f m lower upper Em Wi), En, Hs by lia. cbn [bind]. rewrite Es. cbn [app]. apply Hk'; lia.
      * destruct (drain lower upper l) with (w := w) (x := x) as [k' Hk']; [lia|auto|]. exists (k + k' + 2)%nat. intros f f' Hf Hf'. destruct f as [|f]; [lia|]. destruct f as [|f]; [lia|].
        rewrite (refill_window (Datatypes.S f) m lower upper Em Wi), En, Hs by lia. cbn [bind]. rewrite Es, refill_within. cbn [bind]. apply Hk'. lia.
    + split; [|split].
      * apply (sorted_app _ _ (IZR upper)); auto.
        -- intros y I. apply (Permutation_in _ P1) in I. destruct (proj1 F1 y I) as [_ [_ H]]. apply (Rle_trans _ _ _ H). apply IZR_le. unfold cut. rewrite Er. lia.
        -- intros y I. apply Rlt_le. now apply Va.
      * intros y I. apply in_app_iff in I. destruct I as [I|I].
        -- apply (Permutation_in _ P1) in I. destruct (proj1 F1 y I) as [V [H _]]. split; auto. apply (Rle_lt_trans _ (IZR (over lower))); auto. apply IZR_le. unfold over. lia.
        -- destruct (Va y I) as [V H]. split; auto. apply (Rle_lt_trans _ (IZR upper)); auto. now apply IZR_le.
      * intros l0 F0. destruct (search_finds (cn_lower_bound (cn_bound cs r) upper) (over upper) r) as (_ & l2 & _ & F2); auto; try (unfold over; lia).
        { unfold over, cn_lower_bound, cn_bound, bltb; cbn [cn_lower]. destruct (Z.ltb_spec (cn_lower cs) upper); lia. }
        { unfold cn_lower_bound, cn_bound, bltb; cbn [cn_radius]. rewrite Er. destruct (Z.ltb r r); auto. }
        rewrite map_app. transitivity (map (key n) (l1 ++ l2)).
        -- rewrite map_app. apply Permutation_app; [now apply Permutation_map|now apply Pe].
        -- symmetry. apply (finds_split _ _ _ _ _ _ _ _ _ F0 F1 F2).
           ++ intros v. unfold between, over, cut. rewrite Er. split.
              ** intros [V1 V2]. destruct (Rle_lt_dec (pdot v v) (IZR upper)) as [G|G].
                 --- left. split; auto. destruct (Z.min_spec upper r) as [[_ ->]|[_ ->]]; auto.
                 --- right. split; auto. destruct (Z.max_spec (cn_lower cs) upper) as [[_ ->]|[_ ->]]; auto. eapply Rle_lt_trans; [|exact V1]. apply IZR_le. lia.
              ** intros [[V1 V2]|[V1 V2]]; (split; [|]); auto.
                 --- eapply Rle_trans; [exact V2|]. apply IZR_le. lia.
                 --- eapply Rle_lt_trans; [|exact V1]. apply IZR_le. lia.
           ++ intros v [_ V2] [V1 _]. unfold over, cut in *. rewrite Er in V2. assert (IZR (Z.min upper r) <= IZR (Z.max (cn_lower cs) upper)) by (apply IZR_le; lia). lra.
Qed.
Lemma bounded_from r : cn_radius cs = Some r -> (0 <= r)%Z -> forall d a u, (1 <= u)%Z -> (r - u <= Z.of_nat d)%Z -> exists l, bruns (mkBiter a u []) l /\ good_list r u l.
Proof.
  intros Er Hr. induction d as [|d IH]; intros a u Hu Hd.
  - apply (bounded_step r (mkBiter a u []) u (4 * u)); auto; try lia; [now apply window_next|]. intros En. exfalso. unfold ended in En. rewrite Er in En. unfold bltb in En. destruct (Z.ltb_spec u r); [lia|discriminate].
  - apply (bounded_step r (mkBiter a u []) u (4 * u)); auto; try lia; [now apply window_next|]. intros _. apply IH; lia.
Qed.
Theorem C37_bounded r : cn_radius cs = Some r -> (0 <= r)%Z -> exists k l l0, (forall f, (k <= f)%nat -> by_length sort cs f = Ok l /\ search cs f = Ok l0) /\
  StronglySorted (no_longer n) l /\ (forall y, In y l -> sc_valid n y) /\ Permutation (map (key n) l) (map (key n) l0).
Proof.
  intros Er Hr. destruct window_first as (u & Hu & Wi).
  destruct (bounded_step r bend 0 u) as (l & [k Hk] & So & Va & Pe); auto; try lia.
  { intros _. apply (bounded_from r Er Hr (Z.to_nat (r - u))); lia. }
  destruct (search_finds cs (over 0) r) as (k' & l0 & Hs & F0); auto; try (unfold over; lia).
  exists (k + k')%nat, l, l0. split; [|split; [|split]]; auto.
  - intros f Hf. split; [|apply Hs; lia]. unfold by_length, bbegin. apply Hk; lia.
  - intros y I. now apply Va.
Qed.

(** Without a bound, for as long as the loop runs. *)
Definition reaches (m : biter K) (l : list (sconn K)) : Prop := exists k, forall f f', (k <= f)%nat -> (k <= f')%nat ->
  match length l with O => Ok [] | _ => do m <- refill sort cs f m; bfirst sort cs f' (length l) m end = Ok l.
Lemma bfirst_S f c m : bfirst sort cs f (Datatypes.S c) m =
  if bequal m bend then Ok [] else do x <- bdereference m; match c with O => Ok [x] | _ => do m <- bnext sort cs f m; do l <- bfirst sort cs f c m; Ok (x :: l) end.
Proof. reflexivity. Qed.
Lemma drain_first a u l : u <> 0%Z -> reaches (mkBiter a u []) l -> exists k, forall w x f, (k <= f)%nat -> bfirst sort cs f (length ((x :: w) ++ l)) (mkBiter a u (x :: w)) = Ok ((x :: w) ++ l).
Proof.
  intros Nu [k Hk]. assert (Ne : forall w : list (sconn K), bequal (mkBiter a u w) bend = false) by (intros; unfold bequal, beqb, bend; cbn [bi_upper]; destruct (Z.eqb_spec u 0); [contradiction|auto]).
  exists k. induction w as [|y w IH]; intros x f Hf; cbn [length app]; rewrite bfirst_S, Ne; cbn [bdereference bi_within bind bnext bi_lower bi_upper].
  - specialize (Hk f f Hf Hf). destruct (length l) as [|c] eqn:El; [now injection Hk as <-|]. destruct (refill sort cs f (mkBiter a u [])) as [m| | |]; try discriminate. cbn [bind] in Hk |- *. rewrite Hk. reflexivity.
  - specialize (IH y f Hf). cbn [length app] in IH. rewrite IH. reflexivity.
Qed.
Lemma unbounded_step m lower upper r : cn_radius cs = None -> bi_within m = [] -> window m lower upper -> (0 <= lower)%Z -> (1 <= upper)%Z -> (lower <= upper)%Z -> (upper <= r)%Z ->
  (exists l, reaches (mkBiter lower upper []) l /\ good_list r upper l) -> exists l, reaches m l /\ good_list r lower l.
Proof.
  intros Er Em Wi Hl Hu Lu Ur (l & Rn & So & Va & Pe). assert (En : ended lower = false) by (unfold ended; now rewrite Er).
  destruct (window_finds lower upper) as (k & l1 & Hs & F1); [lia|lia|now rewrite Er|].
  destruct (Sort l1) as [P1 P2]; [intros y I; now apply F1|]. exists (sort l1 ++ l). split; [|split; [|split]].
  - destruct (sort l1) as [|x w] eqn:Es.
    + destruct Rn as [k' Hk']. exists (k + k' + 1)%nat. intros f f' Hf Hf'. cbn [app]. destruct f as [|f]; [lia|]. specialize (Hk' f f' ltac:(lia) ltac:(lia)). destruct (length l) as [|c] eqn:El; [auto|].
      rewrite (refill_window f m lower upper Em Wi), En, Hs by lia. cbn [bind]. rewrite Es. auto.
    + destruct (drain_first lower upper l) as [k' Hk']; [lia|auto|]. exists (k + k' + 2)%nat. intros f f' Hf Hf'. destruct f as [|f]; [lia|]. destruct f as [|f]; [lia|].
      rewrite (refill_window (Datatypes.S f) m lower upper Em Wi), En, Hs by lia. cbn [bind]. rewrite Es, refill_within. cbn [bind]. specialize (Hk' w x f' ltac:(lia)). cbn [length app] in Hk' |- *. auto.
  - apply (sorted_app _ _ (IZR upper)); auto.
    + intros y I. apply (Permutation_in _ P1) in I. destruct (proj1 F1 y I) as [_ [_ H]]. apply (Rle_trans _ _ _ H). apply IZR_le. unfold cut. rewrite Er. lia.
    + intros y I. apply Rlt_le. now apply Va.
  - intros y I. apply in_app_iff in I. destruct I as [I|I].
    + apply (Permutation_in _ P1) in I. destruct (proj1 F1 y I) as [V [H _]]. split; auto. apply (Rle_lt_trans _ (IZR (over lower))); auto. apply IZR_le. unfold over. lia.
    + destruct (Va y I) as [V H]. split; auto. apply (Rle_lt_trans _ (IZR upper)); auto. now apply IZR_le.
  - intros l0 F0. destruct (search_finds (cn_lower_bound (cn_bound cs r) upper) (over upper) r) as (_ & l2 & _ & F2); auto; try (unfold over; lia).
    { unfold over, cn_lower_bound, cn_bound, bltb; cbn [cn_lower]. destruct (Z.ltb_spec (cn_lower cs) upper); lia. }
    { unfold cn_lower_bound, cn_bound, bltb; cbn [cn_radius]. now rewrite Er. }
    rewrite map_app. transitivity (map (key n) (l1 ++ l2)).
    + rewrite map_app. apply Permutation_app; [now apply Permutation_map|now apply Pe].
    + symmetry. apply (finds_split _ _ _ _ _ _ _ _ _ F0 F1 F2).
      * intros v. unfold between, over, cut. rewrite Er. split.
        -- intros [V1 V2]. destruct (Rle_lt_dec (pdot v v) (IZR upper)) as [G|G]; [left; auto|].
           right. split; auto. destruct (Z.max_spec (cn_lower cs) upper) as [[_ ->]|[_ ->]]; auto. eapply Rle_lt_trans; [|exact V1]. apply IZR_le. lia.
        -- intros [[V1 V2]|[V1 V2]]; (split; [|]); auto.
           ++ eapply Rle_trans; [exact V2|]. now apply IZR_le.
           ++ eapply Rle_lt_trans; [|exact V1]. apply IZR_le. lia.
      * intros v [_ V2] [V1 _]. unfold over, cut in *. rewrite Er in V2. assert (IZR upper <= IZR (Z.max (cn_lower cs) upper)) by (apply IZR_le; lia). lra.
Qed.
Lemma nothing r u : (r <= u)%Z -> good_list r u [].
Proof.
  intros Hr. split; [constructor|]. split; [intros y []|]. intros l0 Fi. apply finds_none in Fi; [now rewrite Fi|]. intros v [V1 V2].
  assert (IZR r <= IZR (over u)) by (apply IZR_le; unfold over; lia). lra.
Qed.
Lemma unbounded_from : cn_radius cs = None -> forall d a u, (1 <= u)%Z -> exists l, reaches (mkBiter a u []) l /\ good_list (u * 4 ^ Z.of_nat d) u l.
Proof.
  intros Er. induction d as [|d IH]; intros a u Hu.
  - exists []. split; [exists O; intros; reflexivity|]. apply nothing. rewrite Z.pow_0_r. lia.
  - apply (unbounded_step (mkBiter a u []) u (4 * u)); auto; try lia; [now apply window_next| |].
    + rewrite Nat2Z.inj_succ, Z.pow_succ_r by lia. assert (0 < 4 ^ Z.of_nat d)%Z by (apply Z.pow_pos_nonneg; lia). nia.
    + destruct (IH u (4 * u)%Z) as (l & A & B); [lia|]. exists l. split; auto. replace (u * 4 ^ Z.of_nat (Datatypes.S d))%Z with (4 * u * 4 ^ Z.of_nat d)%Z; auto. rewrite Nat2Z.inj_succ, Z.pow_succ_r by lia. ring.
Qed.
(** For all lengths there is a larger one such that, at some point, exactly the connections up to that length have been reported. *)
Theorem C37_unbounded r : cn_radius cs = None -> exists r' k l l0, (r <= r')%Z /\
  (forall f, (k <= f)%nat -> by_length_first sort cs f (length l) = Ok l /\ search (cn_bound cs r') f = Ok l0) /\
  StronglySorted (no_longer n) l /\ (forall y, In y l -> sc_valid n y) /\ Permutation (map (key n) l) (map (key n) l0).
Proof.
  intros Er. destruct window_first as (u & Hu & Wi). set (d := Z.to_nat r). set (r' := (u * 4 ^ Z.of_nat d)%Z).
  assert (P : (0 < 4 ^ Z.of_nat d)%Z) by (apply Z.pow_pos_nonneg; lia). assert (Hr : (r <= r')%Z).
  { assert (Z.of_nat d < 4 ^ Z.of_nat d)%Z by (apply Z.pow_gt_lin_r; lia). assert (r <= Z.of_nat d)%Z by (unfold d; lia). unfold r'. nia. }
  destruct (unbounded_step bend 0 u r') as (l & [k Hk] & So & Va & Pe); auto; try lia; [unfold r'; nia|now apply unbounded_from|].
  assert (Pr : (0 <= r')%Z) by (unfold r'; apply Z.mul_nonneg_nonneg; lia). assert (Ea : cn_lower (cn_bound cs r') = over 0) by (unfold over, cn_bound; cbn [cn_lower]; lia).
  assert (Eb : cn_radius (cn_bound cs r') = Some r') by (unfold cn_bound; cbn [cn_radius]; now rewrite Er).
  destruct (search_finds (cn_bound cs r') (over 0) r' eq_refl eq_refl Ea Eb) as (k' & l0 & Hs & F0); [unfold over; lia|auto|].
  exists r', (k + k')%nat, l, l0. split; auto. split; [|split; [|split]]; auto.
  - intros f Hf. split; [|apply Hs; lia]. unfold by_length_first, bbegin. apply Hk; lia.
  - intros y I. now apply Va.
Qed.
End by_length.
Print Assumptions C37_bounded.
Print Assumptions C37_unbounded.

(** There is a function that sorts. *)
Section insertion.
Context {K : ExactReal}.
Definition leq (x y : sconn K) : bool := match sc_vector x, sc_vector y with Ok v, Ok w => negb (compareLength w v) | _, _ => true end.
Fixpoint ins (x : sconn K) (l : list (sconn K)) : list (sconn K) := match l with [] => [x] | y :: l => if leq x y then x :: y :: l else y :: ins x l end.
Fixpoint isort (l : list (sconn K)) : list (sconn K) := match l with [] => [] | x :: l => ins x (isort l) end.
Lemma leq_spec n x y : sc_valid n x -> sc_valid n y -> leq x y = true <-> no_longer n x y.
Proof.
  intros Vx Vy. destruct (sc_vector_Ok n x Vx) as (v & E & D). destruct (sc_vector_Ok n y Vy) as (w & E' & D'). unfold leq, compareLength, no_longer, len2. rewrite E, E', <- D, <- D', <- !den_dot.
  destruct (rltb_reflect (vdot w w) (vdot v v)); cbn [negb]; split; intros; try lra; auto; discriminate.
Qed.
Lemma ins_perm x l : Permutation (ins x l) (x :: l).
Proof. induction l as [|y l IH]; cbn [ins]; auto. destruct (leq x y); auto. rewrite IH. constructor. Qed.
Lemma ins_sorted n x l : sc_valid n x -> (forall y, In y l -> sc_valid n y) -> StronglySorted (no_longer n) l -> StronglySorted (no_longer n) (ins x l).
Proof.
  intros Vx Vl H. induction H as [|y l H IH Hy]; cbn [ins]; [constructor; constructor|]. pose proof (leq_spec n x y Vx (Vl y (or_introl eq_refl))) as L. destruct (leq x y).
  - constructor; [constructor; auto|]. pose proof (proj1 L eq_refl) as A. constructor; auto. rewrite Forall_forall in *. intros z I. specialize (Hy z I). unfold no_longer in *. lra.
  - constructor; [apply IH; intros z I; apply Vl; now right|]. assert (A : no_longer n y x). { unfold no_longer. destruct (Rle_lt_dec (len2 n y) (len2 n x)); auto. assert (false = true); [|discriminate]. apply L. unfold no_longer. lra. }
    rewrite Forall_forall in *. intros z I. apply (Permutation_in _ (ins_perm x l)) in I. destruct I as [<-|I]; auto.
Qed.
Lemma isort_sorts n : sorts n isort.
Proof.
  intros l Vl. assert (P : forall l, Permutation (isort l) l). { clear. induction l as [|x l IH]; cbn [isort]; auto. rewrite ins_perm, IH. auto. }
  split; auto. induction l as [|x l IH]; cbn [isort]; [constructor|]. apply ins_sorted; [apply Vl; now left| |apply IH; intros y I; apply Vl; now right].
  intros y I. apply (Permutation_in _ (P l)) in I. apply Vl. now right.
Qed.
End insertion.

Example C37_ex : flat_surface 6 torus_s /\ sorts 6 (@isort ExactZ) /\ sectors_ok 6 torus_s (cn_sectors (make_conns torus_s)) /\ (forall h, (h < 6)%nat -> vv torus_s h <> (0, 0)) /\
  match by_length isort (cn_bound (make_conns torus_s) 5%Z) 60 with
  | Ok l => map (fun x => snd x) (firstn 8 (report l)) = [[1; 0; 0]; [-1; 0; 0]; [0; 1; 0]; [0; -1; 0]; [-1; 1; 0]; [1; -1; 0]; [0; 0; 1]; [0; 0; -1]]%Z /\ length (report l) = 16%nat
  | _ => False end.
Proof.
  split; [exact (proj1 (proj2 torus_flat))|]. split; [apply isort_sorts|]. split.
  { intros x I. apply in_map_iff in I. destruct I as (h & <- & I). cbn [sec_source]. apply in_seq in I. change (psize _) with 6%nat in I. split; [cbn in I; lia|]. intros _. exact Logic.I. }
  split. { intros h Hh. do 6 (destruct h as [|h]; [intros E; pose proof (f_equal fst E) as E1; pose proof (f_equal snd E) as E2; cbn in E1, E2; lra|]). lia. }
  vm_compute.  split; reflexivity.
Qed.
