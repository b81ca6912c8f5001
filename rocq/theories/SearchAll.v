(** * The search in all the sectors *)
From Coq Require Import ZArith Reals List Arith Bool Lia Lra Psatz.
From Verif Require Import Base HalfEdge HalfEdgeFacts Perm PermSpec PermFacts IndexedSet Combinatorial CombinatorialSpec
  CombinatorialFacts CombinatorialHistory CombinatorialOps ExactReal Vector PlaneSpec Plane VectorFacts
  FlatTri FlatSpec FlatFacts FlatSum FlatAngle Chain ChainSpec ChainFacts Saddle SaddleSpec SaddleFacts Quadratic QuadraticSpec QuadraticFacts
  Search SearchSpec SearchMoves SearchPlane SearchDepth SearchRun SearchBlock PointFacts.
Import ListNotations.
Local Open Scope R_scope.

(** ** Sectors in a half plane *)
Lemma sector_half z v b e : 0 < pdet v z -> 0 < pdet b z -> 0 < pdet e z -> 0 <= pdet b e ->
  (in_sector v b e <-> (0 <= pdet b v /\ 0 < pdet v e) \/ (pdet b e = 0 /\ same_direction b v)).
Proof.
  intros Hv Hb He O. assert (Nv : v <> (0, 0)) by (apply (pdet_nonzero_l _ z); lra). assert (Nb : b <> (0, 0)) by (apply (pdet_nonzero_l _ z); lra). assert (Ne : e <> (0, 0)) by (apply (pdet_nonzero_l _ z); lra).
  rewrite in_sector_signs by auto. unfold sector_by_signs.
  assert (Dot : forall u u', same_direction u u' -> u <> (0, 0) -> 0 < pdot u u').
  { intros u u' (k & Hk & ->) Nu. destruct u as [a c]. unfold pdot, pscale; cbn [fst snd]. assert (0 < a * a + c * c).
    { destruct (Req_EM_T a 0) as [->|]; [|nra]. destruct (Req_EM_T c 0) as [->|]; [|nra]. now destruct Nu. } nra. }
  destruct (Rle_lt_or_eq_dec _ _ O) as [P|Z].
  - split.
    + intros [H|[H|[H|H]]]; [left; tauto|lra|lra|lra].
    + intros [H|[H _]]; [left; tauto|lra].
  - assert (Sbe : same_direction b e) by (apply (hp_same z); auto). pose proof (Dot _ _ Sbe Nb) as Db. split.
    + intros [H|[(_ & _ & H & H')|[H|H]]]; [lra| |lra|lra]. right. split; auto. apply (hp_same z); auto.
    + intros [[H H']|[_ H]].
      * exfalso. apply (same_dir_pos b e v Sbe) in H'. rewrite pdet_swap in H'. lra.
      * right; left. split; auto. split; auto. split; [now apply same_dir_det|now apply Dot].
Qed.

Section all.
Context {K : ExactReal} (n : nat) (cs : conns K) (r : Z).
Local Notation s := (cn_surface cs).
Hypothesis S0 : flat_surface n s.
Hypothesis Rad : cn_radius cs = Some r.
Hypothesis R0 : (0 <= r)%Z.
Hypothesis L0 : (0 <= cn_lower cs)%Z.
Let W := fs_wf n s S0.

(** The rest of what is reported when the iterator is incremented at [m]; when it is prepared for the remaining sectors. *)
Definition runs (m : iter K) (l : list (sconn K)) : Prop := exists k, forall f f', (k <= f)%nat -> (k <= f')%nat -> (do m <- advance cs f m; search_from cs f' m) = Ok l.
Definition enters (m : iter K) (l : list (sconn K)) : Prop := exists k, forall f f', (k <= f)%nat -> (k <= f')%nat -> (do m <- prepare cs f m; search_from cs f' m) = Ok l.

Lemma step_increment k m b m' : step cs m = Ok (b, m') -> increment_with cs (Datatypes.S k) m = Ok (b, m').
Proof.
  unfold step. cbn [increment_with]. destruct (pop cs m) as [[y m1]|?| |] eqn:P; try discriminate. cbn [bind]. destruct y; auto. discriminate.
Qed.
Lemma increment_END k m m1 : pop cs m = Ok (END, m1) -> increment_with cs (Datatypes.S k) m =
  (do m <- apply_moves cs m1; match it_sectors m with
      | [] => UB
      | _ :: rest =>
        let m := mkIter rest (it_b0 m) (it_b1 m) (it_next m) (it_end m) (it_state m) (it_moves m) (it_tmp m) in
        match rest with [] => Ok (true, m) | _ => do m <- prepare cs k m; Ok (true, m) end
      end).
Proof. intros E. change (increment_with cs (Datatypes.S k) m) with (do (x, m) <- pop cs m; match x with END =>
  do m <- apply_moves cs m; match it_sectors m with
      | [] => UB
      | _ :: rest =>
        let m := mkIter rest (it_b0 m) (it_b1 m) (it_next m) (it_end m) (it_state m) (it_moves m) (it_tmp m) in
        match rest with [] => Ok (true, m) | _ => do m <- prepare cs k m; Ok (true, m) end
      end | _ => increment_at cs x m end). rewrite E. reflexivity. Qed.
Lemma advance_S k m : advance cs (Datatypes.S k) m = (do (b, m) <- increment_with cs k m; if b then Ok m else advance cs k m).
Proof. reflexivity. Qed.
Lemma steps_runs m l m' : steps cs m l m' -> forall l', runs m' l' -> runs m (l ++ l').
Proof.
  induction 1 as [m|m m1 l m2 E H IH|m m1 x l m2 E D H IH]; intros l' Hr; cbn [app]; auto.
  - destruct (IH l' Hr) as [k Hk]. exists (k + 2)%nat. intros f f' Hf Hf'. destruct f as [|f]; [lia|]. destruct f as [|f]; [lia|]. rewrite advance_S.
    rewrite (step_increment f m _ _ E). cbn [bind]. apply Hk; lia.
  - destruct (IH l' Hr) as [k Hk]. exists (k + 2)%nat. intros f f' Hf Hf'. destruct f as [|f]; [lia|]. destruct f as [|f]; [lia|]. destruct f' as [|f']; [lia|]. rewrite advance_S.
    rewrite (step_increment f m _ _ E). cbn [bind search_from]. assert (At : at_end m1 = false). { unfold sdereference in D. unfold at_end. destruct (it_sectors m1); [discriminate|auto]. }
    rewrite At, D. cbn [bind]. specialize (Hk f' f'). destruct (advance cs f' m1) as [m3|?| |]; cbn [bind] in Hk |- *; try (specialize (Hk ltac:(lia) ltac:(lia)); discriminate).
    rewrite Hk by lia. reflexivity.
Qed.

(** At the end of a sector. *)
Lemma end_runs m b0 b1 x x0 rest l : conf n cs x0 rest m b0 b1 x [END] [] ->
  (forall b0 b1 e c, enters (mkIter rest b0 b1 e c [] [] []) l) -> runs m l.
Proof.
  intros C He. destruct (conf_pop n cs r Rad x0 rest m b0 b1 x END [] [] C) as [Ep Cp]; [discriminate|].
  destruct (conf_settle n cs S0 x0 rest _ _ _ _ _ _ Cp) as (m1 & E1 & (c & -> & _)).
  destruct (He b0 b1 (snd x) c) as [k Hk]. exists (k + 3)%nat. intros f f' Hf Hf'. destruct f as [|f]; [lia|]. destruct f as [|f]; [lia|]. destruct f as [|f]; [lia|]. rewrite advance_S.
  rewrite (increment_END _ _ _ Ep), E1. cbv zeta. cbn [bind it_sectors it_b0 it_b1 it_next it_end it_state it_moves it_tmp].
  destruct rest as [|y rest].
  - cbn [bind]. specialize (Hk (Datatypes.S f) f'). cbn [prepare it_sectors bind] in Hk. apply Hk; lia.
  - specialize (Hk (Datatypes.S f) f'). destruct (prepare cs (Datatypes.S f) _) as [m3|?| |]; cbn [bind] in Hk |- *; try (specialize (Hk ltac:(lia) ltac:(lia)); discriminate). apply Hk; lia.
Qed.

Variable N : nat.
Hypothesis Bound : forall d x l, path_ok n s d x l -> (N <= length l)%nat -> outside cs r (walk s x l).

Lemma wanted_within x v g : wanted cs x v g <-> connection s (sec_source x) v g /\ in_part x v /\ within cs r v.
Proof. unfold wanted, within. rewrite Rad. tauto. Qed.

(** A sector where there is something to be found. *)
Lemma sector_enters x rest l b0' b1' e' c' : (sec_source x < n)%nat -> fF s (sec_source x) <> sec_source x -> part_ok s x ->
  (forall b0 b1 e c, enters (mkIter rest b0 b1 e c [] [] []) l) ->
  exists l0, lists n cs x l0 (wanted cs x) /\ enters (mkIter (x :: rest) b0' b1' e' c' [] [] []) (l0 ++ l).
Proof.
  intros Hh Nb Pk He. set (h := sec_source x) in *. set (u := vv s h). set (q := vv s (fV s h)).
  assert (Hf : (fF s h < n)%nat) by now apply (fF_lt n).
  destruct (zc_half_edge_Ok n s S0 h Hh) as (c0 & Ec0 & Lc0 & Dc0).
  destruct (zc_add_he_Ok n s S0 c0 (fF s h) Lc0 Hf) as (c1 & Ec1 & Lc1 & Dc1 & _). rewrite Dc0 in Dc1. fold u in Dc0, Dc1.
  assert (Eq : padd u (vv s (fF s h)) = q).
  { unfold q. rewrite (vv_fV n) by auto. destruct (fs_flat n s S0 h Hh Nb) as [Z _]. fold u in Z. destruct u, (vv s (fF s h)), (vv s (fF s (fF s h))). unfold padd, pneg in *; cbn [fst snd] in *. injection Z as Z1 Z2. apply pt_eq; cbn [fst snd]; lra. }
  assert (Duq : 0 < pdet u q) by now apply (corner_det n).
  set (z := vv s (fF s h)) in *.
  assert (Hu : 0 < pdet u z) by (replace (pdet u z) with (pdet u (padd u z)) by (unfold pdet, padd; cbn; ring); rewrite Eq; auto).
  assert (Hq : 0 < pdet q z) by (rewrite <- Eq; replace (pdet (padd u z) z) with (pdet u z) by (unfold pdet, padd; cbn; ring); auto).
  assert (Nu : u <> (0, 0)) by (apply (pdet_nonzero_l _ z); lra). assert (Nq : q <> (0, 0)) by (apply (pdet_nonzero_l _ z); lra).
  assert (Zu : pdet u u = 0) by (unfold pdet; ring). assert (Zq : pdet q q = 0) by (unfold pdet; ring).
  assert (Ev : from_he s h = Ok (vat' s h)) by (apply from_he_Ok; rewrite (fs_length n s S0); auto). assert (Du : vden (vat' s h) = u) by reflexivity.
  (* the boundaries *)
  assert (Bd : exists inn b0 b1 vec, sec_contains x h (vat' s h) = Ok inn /\ (inn = true <-> in_part x u) /\
    match sec_sector x with None => BChain c0 | Some (b, _) => if inn then BChain c0 else BVector b end = b0 /\
    match sec_sector x with None => BChain c1 | Some (_, e) => BVector e end = b1 /\ is_chain b0 = negb vec /\ bgood n b0 /\ bgood n b1 /\
    node_ok s vec u (fF s h) (bdir n cs b0) (bdir n cs b1) /\
    (forall v, crosses s u (fF s h) v -> (in_part x v <-> inside vec (bdir n cs b0) (bdir n cs b1) v))).
  { unfold sec_contains, in_part, node_ok, crosses. fold h z. rewrite Eq, Nat.eqb_refl. cbn [negb]. unfold part_ok in Pk. fold h in Pk. fold u q in Pk. destruct (sec_sector x) as [[b e]|] eqn:Es.
    - destruct Pk as (A1 & A2 & A3 & A4 & A5 & A6). set (db := vden b) in *. set (de := vden e) in *. assert (Nb' : db <> (0, 0)) by (apply (pdet_nonzero_l _ q); lra).
      assert (Hb : 0 < pdet db z). { apply (cone_half u z); rewrite Eq; auto. repeat split; auto; lra. }
      assert (Hee : 0 < pdet de z). { apply (cone_half u z); rewrite Eq; auto. repeat split; auto. }
      destruct (inSector_Ok (vat' s h) b e) as (inn & Ei & Hi); auto. rewrite <- in_sector_signs in Hi by auto. rewrite Du in Hi. fold db de in Hi. 
      pose proof (sector_half z u db de Hu Hb Hee A5) as Su. destruct inn.
      + assert (Ub : same_direction u db).
        { apply (hp_same z); auto. pose proof (proj1 Hi eq_refl) as H. apply Su in H. destruct H as [[H _]|[_ H]]; [rewrite pdet_swap in H; lra|apply same_dir_sym in H; now apply same_dir_det]. }
        exists true, (BChain c0), (BVector e), false. split; auto. split; auto. split; auto. split; auto. split; auto. split; [exact Lc0|]. split; [exact I|]. cbn [bdir]. rewrite Dc0. fold de. split.
        * repeat apply conj; auto; try lra; discriminate.
        * intros v [V1 V2]. assert (Hv : 0 < pdet v z) by (replace (pdet v z) with (pdet v (padd u z) + pdet u v) by (unfold pdet, padd; cbn; ring); rewrite Eq; lra).
          rewrite (sector_half z v db de) by auto. assert (Bv : 0 < pdet db v) by now apply (same_dir_pos u db v Ub). unfold inside. split.
          -- intros [[_ H]|[_ H]]; [left; auto|]. rewrite (same_dir_det _ _ H) in Bv. lra.
          -- intros [[_ H]|[H _]]; [left; split; auto; lra|discriminate].
      + exists false, (BVector b), (BVector e), true. split; auto. split; auto. split; auto. split; auto. split; auto. split; [exact I|]. split; [exact I|]. cbn [bdir]. fold db de. split.
        * repeat apply conj; auto; try lra. intros _. destruct (Rle_lt_or_eq_dec _ _ A1) as [|Z]; auto. exfalso.
          assert (Ub : same_direction db u) by (apply same_dir_sym; apply (hp_same z); auto). assert (false = true); [|discriminate]. apply Hi, Su.
          destruct (Rle_lt_or_eq_dec _ _ A5) as [P|P]; [left; split; [rewrite (same_dir_det _ _ Ub); lra|now apply (same_dir_pos db u de Ub)]|right; auto].
        * intros v [V1 V2]. assert (Hv : 0 < pdet v z) by (replace (pdet v z) with (pdet v (padd u z) + pdet u v) by (unfold pdet, padd; cbn; ring); rewrite Eq; lra).
          rewrite (sector_half z v db de) by auto. unfold inside. split.
          -- intros [[H1 H2]|[_ H]]; [|right; auto]. destruct (Rle_lt_or_eq_dec _ _ H1) as [P|P]; [left; auto|right; split; auto]. apply (hp_same z); auto.
          -- intros [[H1 H2]|[_ H]]; [left; split; auto; lra|]. destruct (Rle_lt_or_eq_dec _ _ A5) as [P|P]; [left|right; auto]. split; [rewrite (same_dir_det _ _ H); lra|]. now apply (same_dir_pos db v de H).
    - exists true, (BChain c0), (BChain c1), false. split; auto. split; [tauto|]. split; auto. split; auto. split; auto. split; [exact Lc0|]. split; [exact Lc1|]. cbn [bdir]. rewrite Dc0, Dc1, Eq. split.
      + repeat apply conj; auto; try lra; discriminate.
      + intros v [V1 V2]. unfold inside. tauto. }
  destruct Bd as (inn & b0 & b1 & vec & Ei & Hi & Eb0 & Eb1 & Iv & G0 & G1 & Nd & Part).
  set (m1 := mkIter (x :: rest) b0 b1 (fF s h) c1 [START None None; END] [] []).
  set (stays := negb (vgtb (vat' s h) r || negb inn || negb (vgtb (vat' s h) (cn_lower cs)))).
  assert (Pr : prepared cs (mkIter (x :: rest) b0' b1' e' c' [] [] []) x = Ok (stays, m1)).
  { unfold prepared. fold h. rewrite Ec0. cbn [bind]. rewrite (next_Ok n) by auto. cbn [bind]. fold (fF s h). rewrite Ec1. cbn [bind]. rewrite Ev. cbn [bind]. rewrite Ei. cbn [bind]. rewrite Eb0, Eb1, Rad. reflexivity. }
  assert (C1 : conf n cs x rest m1 b0 b1 (u, fF s h) [START None None; END] []).
  { apply settled_conf. exists c1. cbn [snd fst]. split; auto. }
  assert (Lb : labels_ok cs r (u, fF s h) None None) by (split; discriminate).
  pose proof (edge_block n cs r S0 Rad R0 L0 x rest N Bound vec (u, fF s h) b0 b1 Iv G0 G1 Hf Nd m1 [END] [] None None C1 Lb) as (m2 & l1 & b2 & St & C2 & _ & Ls).
  assert (Rn : runs m1 (l1 ++ l)) by (apply (steps_runs m1 l1 m2 St); apply (end_runs m2 b2 b1 (u, fF s h) x rest l C2 He)).
  assert (Hst : stays = true <-> in_part x u /\ within cs r u).
  { unfold stays, within. rewrite <- Du. pose proof (vgtb_spec (vat' s h) r R0) as V1. pose proof (vgtb_spec (vat' s h) (cn_lower cs) L0) as V2. rewrite Du in V1, V2 |- *.
    destruct (vgtb (vat' s h) r), inn, (vgtb (vat' s h) (cn_lower cs)); cbn [orb negb]; split; try discriminate; try (intros [H1 [H2 H3]]); auto; intros.
    all: try (apply Hi in H1; discriminate). all: try (apply V2 in H2; discriminate). all: try (pose proof (proj1 V1 eq_refl); lra).
    split; [now apply Hi|]. split; [now apply V2|]. destruct (Rle_lt_dec (pdot u u) (IZR r)) as [|B]; auto. apply V1 in B. discriminate. }
  set (y := mkSconn s h (neg h) c0). exists ((if stays then [y] else []) ++ l1). split.
  - apply (lists_ext n cs x _ (fun v g => ((v = u /\ g = neg h) /\ in_part x u /\ within cs r u) \/ sel cs r vec (bdir n cs b0) (bdir n cs b1) (u, fF s h) v g)).
    + apply lists_app; auto.
      * assert (Sy : sv n y = u) by exact Dc0. destruct stays.
        -- apply (lists_ext n cs x _ (fun v g => v = sv n y /\ g = sc_target y)); [apply lists_one; auto|]. intros v g. rewrite Sy. cbn [sc_target y]. pose proof (proj1 Hst eq_refl). tauto.
        -- apply lists_nil. intros v g [_ H]. apply Hst in H. discriminate.
      * intros v g g' [[-> _] _] (H & _). apply hits_crosses in H. destruct H as [H _]. cbn [fst] in H. lra.
    + intros v g. rewrite wanted_within. unfold connection, sel. fold h u. cbn [fst snd]. split.
      * intros [((-> & ->) & H)|(H & I & Wi)]; [tauto|]. split; [tauto|]. split; auto. apply Part; auto. now apply hits_crosses in H.
      * intros ((_ & [[-> ->]|H]) & Ip & Wi); [left; tauto|right]. split; auto. split; auto. apply Part; auto. now apply hits_crosses in H.
  - rewrite <- app_assoc. destruct Rn as [k Hk].
    exists (k + 2)%nat. intros f f' Hf1 Hf2. destruct f as [|f]; [lia|]. cbn [prepare it_sectors]. fold h. rewrite (bdry_Ok n) by auto. cbn [bind]. fold (fF s h).
    destruct (Nat.eqb_spec (fF s h) h) as [|_]; [contradiction|]. rewrite Pr. cbn [bind]. destruct stays; cbn [app].
    + cbn [bind]. destruct f' as [|f']; [lia|]. cbn [search_from]. cbn [at_end m1 it_sectors]. assert (Ds : sdereference cs m1 = Ok y). { unfold sdereference, m1. cbn [it_sectors it_state]. unfold sc_half_edge. fold h. rewrite Ec0. reflexivity. }
      rewrite Ds. cbn [bind]. specialize (Hk f' f'). destruct (advance cs f' m1) as [m3|?| |]; cbn [bind] in Hk |- *; try (specialize (Hk ltac:(lia) ltac:(lia)); discriminate).
      rewrite Hk by lia. reflexivity.
    + apply Hk; lia.
Qed.

Lemma all_enters : forall l, sectors_ok n s l -> exists ls, Forall2 (fun x l0 => lists n cs x l0 (wanted cs x)) l ls /\ forall b0 b1 e c, enters (mkIter l b0 b1 e c [] [] []) (concat ls).
Proof.
  induction l as [|x l IH]; intros Sk.
  - exists []. split; [constructor|]. intros. exists 1%nat. intros f f' Hf Hf'. destruct f as [|f]; [lia|]. destruct f' as [|f']; [lia|]. reflexivity.
  - destruct IH as (ls & F & He); [intros y I; apply Sk; now right|]. destruct (Sk x (or_introl eq_refl)) as [Hh Pk].
    destruct (Nat.eq_dec (fF s (sec_source x)) (sec_source x)) as [B|Nb].
    + exists ([] :: ls). split.
      * constructor; auto. apply lists_nil. intros v g ((H & _) & _). contradiction.
      * intros. destruct (He b0 b1 e c) as [k Hk]. exists (k + 1)%nat. intros f f' Hf Hf'. destruct f as [|f]; [lia|]. cbn [prepare it_sectors]. rewrite (bdry_Ok n) by auto. cbn [bind]. fold (fF s (sec_source x)).
        destruct (Nat.eqb_spec (fF s (sec_source x)) (sec_source x)) as [_|]; [|contradiction]. cbn [it_b0 it_b1 it_next it_end it_state it_moves it_tmp app]. apply Hk; lia.
    + (* the list does not depend on what was there before *)
      destruct (sector_enters x l (concat ls) (BVector vzero) (BVector vzero) 0 [] Hh Nb (Pk Nb) He) as (l0 & Ls & En).
      exists (l0 :: ls). split; [constructor; auto|]. intros. destruct En as [k Hk]. exists (k + 1)%nat. intros f f' Hf Hf'. cbn [concat]. rewrite <- (Hk f f') by lia.
      destruct f as [|f]; [lia|]. cbn [prepare it_sectors]. rewrite (bdry_Ok n) by auto. cbn [bind]. fold (fF s (sec_source x)).
      destruct (Nat.eqb_spec (fF s (sec_source x)) (sec_source x)) as [|_]; [contradiction|]. reflexivity.
Qed.
End all.

(** All connections are reported. *)
Theorem search_complete {K : ExactReal} n (cs : conns K) r : flat_surface n (cn_surface cs) -> cn_radius cs = Some r -> (0 <= r)%Z -> (0 <= cn_lower cs)%Z -> sectors_ok n (cn_surface cs) (cn_sectors cs) ->
  exists k ls, (forall f, (k <= f)%nat -> search cs f = Ok (concat ls)) /\ Forall2 (fun x l => lists n cs x l (wanted cs x)) (cn_sectors cs) ls.
Proof.
  intros S0 Rad R0 L0 Sk. destruct (depth_bounded n (cn_surface cs) S0 (IZR r)) as [N Bound].
  destruct (all_enters n cs r S0 Rad R0 L0 N Bound (cn_sectors cs) Sk) as (ls & F & He). destruct (He (BVector vzero) (BVector vzero) 0%nat (zc_zero (cn_surface cs))) as [k Hk].
  exists k, ls. split; auto. intros f Hf. unfold search, search_begin. apply Hk; lia.
Qed.
