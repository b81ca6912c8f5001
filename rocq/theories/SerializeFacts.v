(** * Facts about serialization *)
From Coq Require Import ZArith Reals List Arith Bool String Lia Lra Permutation.
From Verif Require Import Base HalfEdge HalfEdgeFacts Perm PermSpec PermFacts PermCycles PermProps IndexedSet IndexedSetSpec IndexedSetFacts
  Combinatorial CombinatorialSpec CombinatorialFacts CombinatorialOps CombinatorialHistory ExactReal Vector PlaneSpec VectorFacts
  FlatTri FlatSpec FlatFacts FlatSum FlatOps FlatLinear ChainSpec ChainFacts Saddle SaddleSpec SaddleFacts Vertical Serialize.
Import ListNotations.
Local Open Scope nat_scope.

(** Two triangulations with the same vertices and faces. *)
Definition same_tri (t u : tri) : Prop := tV u = tV t /\ tF u = tF t.
(** The triangulations that have been read are the ones that have been written, where [mem] says what is stored at an address. *)
Definition linked (mem : nat -> tri) (w : written) (k : reading) : Prop :=
  forall a i, position a w 1 = Some i -> exists t, lookup k (Z.of_nat i) = Ok t /\ same_tri (mem a) t /\ forall n, well_formed n (mem a) -> well_formed n t.

Section facts.
Context {K : ExactReal}.
Implicit Types s : flat K.

Lemma half_edge_rt h : load_half_edge (K := K) (save_half_edge h) = Ok h.
Proof. unfold load_half_edge, save_half_edge. cbn [as_int bind]. rewrite (proj2 (Z.eqb_neq _ _) (he_id_nonzero h)). now rewrite index_round_trip. Qed.
Lemma omap_rt {A B C} (f : A -> B) (g : B -> outcome C) (h : A -> C) l : (forall x, In x l -> g (f x) = Ok (h x)) -> omap g (map f l) = Ok (map h l).
Proof. induction l as [|a l IH]; intros H; cbn [map omap]; auto. rewrite H by now left. cbn [bind]. rewrite IH by (intros; apply H; now right). reflexivity. Qed.
Lemma half_edges_rt l : omap (load_half_edge (K := K)) (map save_half_edge l) = Ok l.
Proof. rewrite (omap_rt _ _ (fun x => x)); [now rewrite map_id|]. intros; apply half_edge_rt. Qed.
Lemma perm_rt n p : is_perm n p -> exists d, save_perm (K := K) p = Ok d /\ load_perm d = Ok p.
Proof.
  intros P. destruct (C05_round_trip n p P) as (cs & E & R). unfold save_perm. rewrite E. cbn [bind]. eexists. split; [reflexivity|]. unfold load_perm. cbn -[omap]. 
  rewrite (omap_rt _ _ (fun x => x)); [rewrite map_id; exact R|]. intros c _. cbn [as_seq bind]. apply half_edges_rt.
Qed.
Lemma vec_rt v : load_vec (K := K) (save_vec v) = Ok v.
Proof. destruct v. reflexivity. Qed.

Lemma position_range a w : forall i j, position a w i = Some j -> i <= j < i + List.length w.
Proof. induction w as [|b w IH]; intros i j; cbn [position List.length]; [discriminate|]. destruct (Nat.eqb a b); [intros [= <-]; lia|]. intros E. apply IH in E. lia. Qed.
Lemma position_app a b w : forall i, position a (w ++ [b]) i = match position a w i with Some j => Some j | None => if Nat.eqb a b then Some (i + List.length w) else None end.
Proof. induction w as [|c w IH]; intros i; cbn [position app List.length]; [now rewrite Nat.add_0_r|]. destruct (Nat.eqb a c); auto. rewrite IH. destruct (position a w (S i)); auto. destruct (Nat.eqb a b); auto. f_equal. lia. Qed.

Lemma pairs_vertices n t : well_formed n t -> exists ps, omap (fun e => do f <- nextAtVertex t e; Ok (e, f)) (half_edges t) = Ok ps /\ perm_of_pairs ps = Ok (tV t).
Proof.
  intros W. assert (Wv := wfV _ _ W). assert (E : half_edges t = seq 0 n) by (unfold half_edges, tsize, psize; now rewrite (fwd_len _ _ Wv)). rewrite E.
  exists (map (fun e => (e, nV t e)) (seq 0 n)). split.
  - assert (Q := omap_rt (fun x => x) (fun e => do f <- nextAtVertex t e; Ok (e, f)) (fun e => (e, nV t e)) (seq 0 n)). rewrite map_id in Q. apply Q.
    intros x X. apply in_seq in X. unfold nextAtVertex. assert (Hx : x < n) by (clear - X; lia). rewrite (papp_Ok n) by (auto; apply (fwd_len _ _ Wv)). reflexivity.
  - destruct (perm_of_pairs_complete (map (fun e => (e, nV t e)) (seq 0 n))) as (p & Ep).
    + rewrite map_map, map_length, seq_length. cbn [fst]. now rewrite map_id.
    + rewrite map_map, map_length, seq_length. cbn [snd]. apply NoDup_Permutation_bis.
      * apply NoDup_map_inj; [|apply seq_NoDup]. intros x y X Y. apply in_seq in X, Y. apply (nV_inj n t W); lia.
      * now rewrite map_length.
      * intros x X. apply in_map_iff in X as (y & <- & Y). apply in_seq in Y. apply in_seq. assert (L := nV_lt n t W y). lia.
    + rewrite Ep. f_equal. apply perm_of_pairs_Ok in Ep as (Wp & _ & _ & V). rewrite map_length, seq_length in Wp. apply (wfp_ext n); auto. intros i Hi. apply V.
      apply in_map_iff. exists i. split; auto. apply in_seq. lia.
Qed.

Lemma tri_rt n mem w k a t : well_formed n t -> (forall e, e < n -> nF t e <> e) -> mem a = t -> linked mem w k -> (Z.of_nat (List.length w) < msb - 1)%Z ->
  exists d w' t' k', save_tri (K := K) w a t = Ok (d, w') /\ load_tri k d = Ok (t', k') /\ well_formed n t' /\ same_tri t t' /\ linked mem w' k' /\ position a w' 1 <> None /\
    (w' = w \/ (w' = w ++ [a] /\ position a w 1 = None)).
Proof.
  intros W Cl Em L Sz. unfold save_tri. destruct (position a w 1) as [i|] eqn:P.
  - destruct (L a i P) as (t' & E & S & Wf). exists (DObj [("shared"%string, DInt (Z.of_nat i))]), w, t', k. split; auto. assert (R := position_range _ _ _ _ P).
    unfold load_tri. cbn [field find fst String.eqb Ascii.eqb Bool.eqb bind as_int].
    assert (B : Z.testbit (Z.of_nat i) 31 = false). { apply Z.bits_above_log2; [lia|]. destruct (Z.eq_dec (Z.of_nat i) 0) as [->|]; [reflexivity|]. apply Z.log2_lt_pow2; [lia|]. unfold msb in Sz. change (2 ^ 31)%Z with 2147483648%Z. lia. }
    rewrite B. rewrite E. cbn [bind]. split; auto. rewrite Em in *. split; auto. split; auto. split; auto. split; [congruence|]. now left.
  - destruct (pairs_vertices n t W) as (ps & -> & Ep). cbn [bind]. rewrite Ep. cbn [bind]. destruct (perm_rt n (tV t) (wf_V _ _ W)) as (d & -> & Ed). cbn [bind].
    destruct (make_tri_complete n (tV t) [] (nF t) (pF t)) as (t' & Et & W' & EV & EF).
    { apply (wfV _ _ W). } { eapply wf_mod; eauto. } { now apply wf_bijF. } { intros e _ []. } { intros e He _. apply (wf_link _ _ W); auto. } { apply W. }
    assert (S : same_tri t t') by (split; auto; eapply tri_same; eauto).
    eexists _, (w ++ [a]), t', _. split; [reflexivity|]. unfold load_tri. cbn [field find fst String.eqb Ascii.eqb Bool.eqb bind as_int].
    assert (B : Z.testbit (msb + Z.of_nat (Datatypes.S (List.length w))) 31 = true).
    { rewrite Z.testbit_true by lia. change (2 ^ 31)%Z with msb. replace (msb + Z.of_nat (Datatypes.S (List.length w)))%Z with (Z.of_nat (Datatypes.S (List.length w)) + 1 * msb)%Z by lia. rewrite Z.div_add by (unfold msb; lia).
      rewrite Z.div_small by lia. reflexivity. }
    rewrite B. rewrite Ed. cbn [bind]. rewrite Et. cbn [bind]. split; [reflexivity|]. split; auto. split; auto. split; [|split].
    + intros b i Q. rewrite position_app in Q. unfold lookup. cbn [find fst]. destruct (position b w 1) as [j|] eqn:Pb.
      * injection Q as ->. assert (R := position_range _ _ _ _ Pb). destruct (L b i Pb) as (u & E & Q). exists u. split; auto. unfold lookup in E.
        rewrite (proj2 (Z.eqb_neq _ _)) by lia. exact E.
      * destruct (Nat.eqb_spec b a) as [->|]; [|discriminate]. injection Q as <-. exists t'. rewrite (proj2 (Z.eqb_eq _ _)) by lia. split; auto. rewrite Em. split; auto.
        intros n0 W0. assert (n0 = n). { rewrite <- (wf_size _ _ W0). apply (wf_size _ _ W). } now subst.
    + rewrite position_app, P, Nat.eqb_refl. discriminate.
    + right. auto.
Qed.

Definition same_flat (s u : flat K) : Prop := same_tri (fT s) (fT u) /\ fvec u = fvec s.

Lemma find_pair {B} (g : nat -> B) l h : In h l -> find (fun p => Nat.eqb (fst p) h) (map (fun x => (x, g x)) l) = Some (h, g h).
Proof. induction l as [|x l IH]; intros I; [destruct I|]. cbn [map find fst]. destruct (Nat.eqb_spec x h) as [->|N]; auto. destruct I as [->|I]; [congruence|auto]. Qed.

Lemma flat_rt n order mem w k a s : (forall l, Permutation (order l) l) -> flat_surface n s -> closed_surface n s -> mem a = fT s -> linked mem w k -> (Z.of_nat (List.length w) < msb - 1)%Z ->
  exists d w' u k', save_flat order w a s = Ok (d, w') /\ load_flat k d = Ok (u, k') /\ flat_surface n u /\ same_flat s u /\ linked mem w' k' /\ position a w' 1 <> None /\
    (w' = w \/ (w' = w ++ [a] /\ position a w 1 = None)).
Proof.
  intros O S0 Cl Em L Sz. assert (W := fs_wf n s S0). unfold save_flat. destruct (tri_rt n mem w k a (fT s) W Cl Em L Sz) as (d & w' & t' & k' & -> & El & Wt & St & L' & P' & Q'). cbn [bind].
  assert (Eh : half_edges (fT s) = seq 0 n) by (unfold half_edges; now rewrite (wf_size _ _ W)). rewrite Eh. assert (Io : forall h, In h (order (seq 0 n)) <-> h < n).
  { intros h. split; intros H; [apply (Permutation_in _ (O _)), in_seq in H; lia|]. apply (Permutation_in _ (Permutation_sym (O _))), in_seq. lia. }
  rewrite (omap_map (fun h => do v <- from_he s h; Ok (DObj [("key"%string, save_half_edge h); ("value"%string, save_vec v)])) (fun h => DObj [("key"%string, save_half_edge h); ("value"%string, save_vec (vat' s h))])).
  2:{ intros h H. apply Io in H. rewrite from_he_Ok by now rewrite (fs_length n s S0). reflexivity. }
  cbn [bind]. eexists _, w'. unfold load_flat. 
  destruct (make_flat_spec n t' (map_at (map (fun h => (h, vat' s h)) (order (seq 0 n)))) (vat' s) Wt) as (u & Wu & EV & EF & M).
  { intros h H. unfold map_at. rewrite find_pair by now apply Io. reflexivity. }
  cbv zeta in M. remember (mkFlat u (map (vat' s) (seq 0 n))) as s' eqn:Es'.
  assert (Ef : forall e, e < n -> fF s' e = fF s e). { intros e He. subst s'. unfold fF. cbn [fT]. now rewrite (same_nF _ _ _ EF), (same_nF _ _ _ (proj2 St)). }
  assert (Evec : fvec s' = fvec s).
  { subst s'. cbn [fvec]. apply (nth_ext _ _ vzero vzero); rewrite map_length, seq_length; [now rewrite (fs_length n s S0)|]. intros i Hi. rewrite nth_map_seq by auto. reflexivity. }
  assert (Su : flat_surface n s').
  { apply (same_faces_flat n s s' 1 0 0 1); auto; [subst s'; auto| |lra|].
    - rewrite Evec. apply (fs_length n s S0).
    - intros e He. unfold vv, vat'. rewrite Evec. unfold papply. destruct (vden (nth e (fvec s) vzero)); cbn [fst snd]; f_equal; ring. }
  exists s', k'. split; [reflexivity|]. cbn [field find fst String.eqb Ascii.eqb Bool.eqb bind as_seq]. rewrite El. cbn [bind].
  rewrite (omap_rt _ _ (fun h => (h, vat' s h))).
  2:{ intros h H. cbn [field find fst String.eqb Ascii.eqb Bool.eqb bind]. rewrite half_edge_rt. cbn [bind]. rewrite vec_rt. reflexivity. }
  cbn [bind]. destruct M as [[-> _]|[_ M]]; [|exfalso; apply M, Su]. cbn [bind]. split; auto. split; auto. split; [|split; auto].
  split; auto. subst s'. cbn [fT]. destruct St. split; congruence.
Qed.

(** ** Chains *)
Lemma coefficients_rt n s : flat_surface n s -> forall l i c, List.length c = n / 2 -> i + List.length l <= n / 2 ->
  exists c', load_coefficients s i l c = Ok c' /\ List.length c' = n / 2 /\ forall j, nth j c' 0%Z = (nth j c 0 + (if Nat.leb i j then nth (j - i)%nat l 0 else 0))%Z.
Proof.
  intros S0. assert (W := fs_wf n s S0). induction l as [|z l IH]; intros i c Lc Li; cbn [load_coefficients].
  - exists c. split; auto. split; auto. intros j. destruct (Nat.leb i j); [|lia]. destruct (j - i); cbn [nth]; lia.
  - cbn [List.length] in Li. assert (Ee : vget (edges (fT s)) i = Ok (2 * i)).
    { unfold edges. rewrite (wf_size _ _ W). unfold vget. rewrite nth_error_map. rewrite (nth_error_nth' _ 0) by (rewrite seq_length; lia). rewrite seq_nth by lia. reflexivity. }
    rewrite Ee. cbn [bind]. unfold positive. assert (Hi : 2 * i < n) by (assert (Q := Nat.div_mod n 2); lia).
    destruct (zc_add_he_Ok n s S0 (zc_zero s) (2 * i) (zc_zero_length n s S0) Hi) as (x & -> & Lx & _ & Nx). cbn [bind].
    destruct (zc_op_Ok Z.add c (map (Z.mul z) x)) as (c1 & -> & L1 & N1); [rewrite map_length; lia|reflexivity|]. cbn [bind].
    destruct (IH (S i) c1) as (c' & -> & L' & N'); [lia|lia|]. exists c'. split; auto. split; auto. intros j. rewrite N', N1.
    assert (E0 : nth j (map (Z.mul z) x) 0%Z = (z * nth j x 0)%Z). { rewrite <- (Z.mul_0_r z) at 1. apply map_nth. }
    assert (Ez : nth j (zc_zero s) 0%Z = 0%Z) by (unfold zc_zero; apply nth_repeat).
    rewrite E0, Nx, Ez. unfold single. rewrite div2_even. replace (Nat.even (2 * i)) with true by (symmetry; apply Nat.even_spec; now exists i).
    destruct (Nat.eqb_spec j i) as [->|Nj].
    + rewrite (proj2 (Nat.leb_gt _ _)) by lia. rewrite Nat.leb_refl, Nat.sub_diag. cbn [nth]. lia.
    + destruct (Nat.leb_spec i j) as [Hl|Hl].
      * rewrite (proj2 (Nat.leb_le _ _)) by lia. replace (j - i) with (S (j - S i)) by lia. cbn [nth]. lia.
      * rewrite (proj2 (Nat.leb_gt _ _)) by lia. lia.
Qed.

Lemma coefficients_written n s c : flat_surface n s -> List.length c = n / 2 -> omap (fun e => do z <- vget c (edge_index e); Ok (DBig (K := K) z)) (edges (fT s)) = Ok (map DBig c).
Proof.
  intros S0 L. rewrite (omap_map _ (fun e => DBig (K := K) (nth (edge_index e) c 0%Z))).
  - f_equal. unfold edges. rewrite (wf_size _ _ (fs_wf n s S0)), map_map. rewrite <- L. 
    transitivity (map (DBig (K := K)) (map (fun i => nth i c 0%Z) (seq 0 (List.length c)))).
    + rewrite map_map. apply map_ext. intros i. unfold edge_index. now rewrite div2_even.
    + apply (f_equal (map (DBig (K := K)))). apply (nth_ext _ _ 0%Z 0%Z); rewrite map_length, seq_length; auto. intros i Hi. now rewrite nth_map_seq.
  - intros e E. unfold edges in E. rewrite (wf_size _ _ (fs_wf n s S0)) in E. apply in_map_iff in E as (i & <- & I). apply in_seq in I. unfold edge_index. rewrite div2_even. rewrite (vget_nth _ _ 0%Z) by lia. reflexivity.
Qed.

Lemma chain_rt n order mem w k a s c : (forall l, Permutation (order l) l) -> flat_surface n s -> closed_surface n s -> mem a = fT s -> linked mem w k -> (Z.of_nat (List.length w) < msb - 1)%Z ->
  List.length c = n / 2 ->
  exists d w' u k', save_chain order w a s c = Ok (d, w') /\ load_chain k d = Ok (u, c, k') /\ flat_surface n u /\ same_flat s u /\ linked mem w' k' /\ position a w' 1 <> None /\
    (w' = w \/ (w' = w ++ [a] /\ position a w 1 = None)).
Proof.
  intros O S0 Cl Em L Sz Lc. unfold save_chain. destruct (flat_rt n order mem w k a s O S0 Cl Em L Sz) as (d & w' & u & k' & -> & E & Su & R). cbn [bind].
  rewrite (coefficients_written n) by auto. cbn [bind]. eexists _, w', u, k'. split; [reflexivity|]. split; [|split; auto].
  unfold load_chain. cbn [field find fst String.eqb Ascii.eqb Bool.eqb bind as_seq]. rewrite E. cbn [bind].
  rewrite (omap_rt _ _ (fun x => x)) by auto. cbn [bind]. rewrite map_id.
  destruct (coefficients_rt n u Su c 0 (zc_zero u)) as (c' & -> & L' & N'); [now apply zc_zero_length|lia|]. cbn [bind]. do 3 f_equal.
  apply (nth_ext _ _ 0%Z 0%Z); [lia|]. intros i Hi. rewrite N'. assert (Ez : nth i (zc_zero u) 0%Z = 0%Z) by (unfold zc_zero; apply nth_repeat). rewrite Ez. cbn [Nat.leb]. rewrite Nat.sub_0_r. lia.
Qed.

Lemma sconn_rt n order mem w k a x : (forall l, Permutation (order l) l) -> sc_valid n x -> closed_surface n (sc_surface x) -> mem a = fT (sc_surface x) -> linked mem w k -> (Z.of_nat (List.length w) < msb - 2)%Z ->
  exists d w' y k', save_sconn order w a x = Ok (d, w') /\ load_sconn k d = Ok (y, k') /\ sc_valid n y /\ same_flat (sc_surface x) (sc_surface y) /\
    sc_source y = sc_source x /\ sc_target y = sc_target x /\ sc_chain y = sc_chain x /\ linked mem w' k' /\ position a w' 1 <> None /\
    (w' = w \/ (w' = w ++ [a] /\ position a w 1 = None)).
Proof.
  intros O (S0 & Hs & Ht & Lc) Cl Em L Sz. unfold save_sconn. assert (Sz' : (Z.of_nat (List.length w) < msb - 1)%Z) by lia. destruct (flat_rt n order mem w k a _ O S0 Cl Em L Sz') as (d & w1 & u & k1 & -> & E & Su & F & L1 & P1 & Q1). cbn [bind].
  destruct (chain_rt n order mem w1 k1 a (sc_surface x) (sc_chain x)) as (d2 & w2 & u2 & k2 & -> & E2 & Su2 & _ & L2 & P2 & Q2); auto.
  { destruct Q1 as [->|(-> & _)]; auto. rewrite app_length. cbn [List.length]. lia. }
  cbn [bind]. eexists _, w2, (mkSconn u (sc_source x) (sc_target x) (sc_chain x)), k2. split; [reflexivity|]. split.
  { unfold load_sconn. cbn [field find fst String.eqb Ascii.eqb Bool.eqb bind as_seq]. rewrite E. cbn [bind]. rewrite !half_edge_rt. cbn [bind]. rewrite E2. reflexivity. }
  cbn [sc_surface sc_source sc_target sc_chain]. split; [split; auto|]. split; auto. split; auto. split; auto. split; auto. split; auto. split; auto.
  destruct Q2 as [->|(_ & N)]; [auto|congruence].
Qed.

Lemma same_flat_eqb n s u : flat_surface n s -> flat_surface n u -> same_flat s u -> flat_eqb u s = Ok true.
Proof.
  intros S0 S1 ((EV & EF) & Ev). destruct (flat_eqb_spec n n u s S1 S0) as (b & E & I). rewrite E. f_equal. apply I. split; auto. split.
  - intros e He. unfold nV. now rewrite EV.
  - intros e He. unfold vv. now rewrite Ev.
Qed.

Lemma vertex_rt v : exists d u, save_vertex (K := K) v = Ok d /\ load_vertex d = Ok u /\ forall h, scontains u h = scontains v h.
Proof.
  destruct (elements_spec v) as (l & E & (_ & I)). unfold save_vertex. rewrite E. cbn [bind]. eexists _, (sof_list l). split; [reflexivity|]. split.
  - unfold load_vertex. cbn [field find fst String.eqb Ascii.eqb Bool.eqb bind as_seq]. rewrite half_edges_rt. reflexivity.
  - intros h. rewrite !contains_mem. unfold sof_list. rewrite mem_of_list. assert (Q := I h). assert (Z : mem sempty_set h = false) by (destruct h; reflexivity). rewrite Z.
    destruct (in_dec Nat.eq_dec h l) as [Y|N]; cbn [Datatypes.orb]; [symmetry; now apply Q|]. destruct (mem v h) eqn:M; auto. destruct N. now apply Q.
Qed.
Lemma same_begin v u x : (forall h, scontains u h = scontains v h) -> scontains v x = true -> vertex_eqb u v = true.
Proof.
  intros E H. unfold vertex_eqb. apply Nat.eqb_eq. destruct (sbegin_first v x H) as (A & B). rewrite <- E in H. destruct (sbegin_first u x H) as (C & D).
  apply Nat.le_antisymm; [apply D; now rewrite E|apply B; now rewrite <- E].
Qed.
End facts.
