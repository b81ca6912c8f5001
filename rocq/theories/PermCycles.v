(** * Facts about the constructors from pairs and cycles, and about cycles() *)
From Coq Require Import List Arith Lia Bool Permutation.
From Verif Require Import Base Perm PermSpec PermFacts.
Import ListNotations.

(** ** write_pairs *)

Lemma write_pairs_Ok ps : forall data,
  (forall a b, In (a, b) ps -> a < length data) ->
  exists data', write_pairs ps data = Ok data'.
Proof.
  induction ps as [|[a b] r IH]; cbn; intros data H; eauto.
  rewrite vset_Ok by eauto. cbn. apply IH. intros. rewrite upd_length. eauto.
Qed.

Lemma write_pairs_inv ps : forall data data', write_pairs ps data = Ok data' ->
  length data' = length data /\
  (forall a b, In (a, b) ps -> a < length data) /\
  (forall x, ~ In x (map fst ps) -> nth_error data' x = nth_error data x) /\
  (NoDup (map fst ps) -> forall a b, In (a, b) ps -> nth_error data' a = Some (Some b)).
Proof.
  induction ps as [|[a b] r IH]; cbn; intros data data' H.
  - inv H. repeat split; auto; contradiction.
  - apply bind_Ok in H as (d & Hd & H). apply vset_inv in Hd as [Hl ->].
    apply IH in H as (A & B & C & D). rewrite upd_length in *.
    repeat split; auto.
    + intros a0 b0 [E|I]; [inv E; auto|eauto].
    + intros x Hx. rewrite C by tauto. apply nth_error_upd_ne. tauto.
    + intros N a0 b0 [E|I]; apply NoDup_cons_iff in N as [N1 N2].
      * inv E. rewrite C by auto. now apply nth_error_upd_eq.
      * eauto.
Qed.

Lemma all_valid_inv data l : all_valid data = Ok l -> data = map Some l.
Proof.
  revert l. induction data as [|[x|] r IH]; cbn; intros l H; try discriminate.
  - now inv H.
  - apply bind_Ok in H as (s & Hs & H). inv H. cbn. f_equal. auto.
Qed.

Lemma all_valid_map l : all_valid (map Some l) = Ok l.
Proof. induction l; cbn; auto. rewrite IHl. reflexivity. Qed.

Lemma nth_error_map_Some (l : list nat) x y :
  nth_error (map Some l) x = Some (Some y) -> x < length l /\ nth x l 0 = y.
Proof.
  intros H. rewrite nth_error_map in H. destruct (nth_error l x) eqn:E; inv H.
  split. apply nth_error_Some; congruence. now apply nth_error_nth.
Qed.

Lemma perm_of_pairs_data ps l :
  (do data <- write_pairs ps (repeat None (length ps)); all_valid data) = Ok l ->
  length l = length ps /\ Permutation (map fst ps) (seq 0 (length ps)) /\
  forall a b, In (a, b) ps -> nth a l 0 = b.
Proof.
  intros H. apply bind_Ok in H as (data & Hw & Hv). apply all_valid_inv in Hv. subst.
  apply write_pairs_inv in Hw as (A & B & C & D). rewrite repeat_length, map_length in *.
  assert (Sub : incl (seq 0 (length ps)) (map fst ps)).
  { intros x Hx. apply in_seq in Hx. destruct (in_dec Nat.eq_dec x (map fst ps)); auto.
    apply C in n. rewrite nth_error_map in n.
    destruct (nth_error l x) eqn:E.
    - cbn in n. rewrite nth_error_repeat in n by lia. discriminate.
    - apply nth_error_None in E. lia. }
  assert (N : NoDup (map fst ps)).
  { eapply NoDup_incl_NoDup; [apply seq_NoDup| |exact Sub]. rewrite map_length, seq_length. lia. }
  split; auto. split.
  - apply Permutation_sym. apply NoDup_Permutation_bis; auto. apply seq_NoDup.
    rewrite map_length, seq_length. lia.
  - intros a b I. specialize (D N a b I). apply nth_error_map_Some in D. tauto.
Qed.

Lemma perm_of_pairs_split ps : perm_of_pairs ps =
  (do l <- (do data <- write_pairs ps (repeat None (length ps)); all_valid data); perm_of_vector l).
Proof. unfold perm_of_pairs. destruct (write_pairs _ _); reflexivity. Qed.

Lemma map_snd_nth ps (l : list nat) : (forall a b, In (a, b) ps -> nth a l 0 = b) ->
  map snd ps = map (fun a => nth a l 0) (map fst ps).
Proof.
  intros H. rewrite map_map. apply map_ext_in. intros [a b] I. cbn. symmetry. auto.
Qed.

Lemma perm_of_pairs_Ok ps p : perm_of_pairs ps = Ok p ->
  wfp (length ps) p /\
  Permutation (map fst ps) (seq 0 (length ps)) /\
  Permutation (map snd ps) (seq 0 (length ps)) /\
  forall a b, In (a, b) ps -> fw p a = b.
Proof.
  rewrite perm_of_pairs_split. intros H. apply bind_Ok in H as (l & Hl & H).
  apply perm_of_pairs_data in Hl as (L & P & V). apply perm_of_vector_Ok in H as [W E].
  rewrite L in W. split; auto. split; auto. split.
  - rewrite (map_snd_nth ps l V). eapply Permutation_trans. apply Permutation_map. exact P.
    rewrite <- E. fold (fw p).
    apply NoDup_Permutation_bis.
    + assert (I : forall k, (forall i, In i k -> i < length ps) -> NoDup k -> NoDup (map (fun a => nth a (fwd p) 0) k)).
      { induction k as [|a k IH]; cbn; intros Hl N; constructor; inv N.
        - rewrite in_map_iff. intros (b & E' & Hb). assert (a = b); [|subst; auto].
          apply (fw_inj _ _ W); auto.
        - apply IH; auto. }
      apply I; [|apply seq_NoDup]. intros i Hi. apply in_seq in Hi. lia.
    + rewrite map_length, seq_length. auto.
    + intros x Hx. apply in_map_iff in Hx as (y & <- & Hy). apply in_seq in Hy.
      apply in_seq. assert (fw p y < length ps) by (apply (fw_lt _ _ W); lia). cbv beta. lia.
  - intros a b I. unfold fw. rewrite E. auto.
Qed.

Lemma perm_of_pairs_complete ps :
  Permutation (map fst ps) (seq 0 (length ps)) ->
  Permutation (map snd ps) (seq 0 (length ps)) ->
  exists p, perm_of_pairs ps = Ok p.
Proof.
  intros P Q. unfold perm_of_pairs.
  destruct (write_pairs_Ok ps (repeat None (length ps))) as (data & Hd).
  { intros a b I. rewrite repeat_length. apply (in_map fst) in I.
    apply (Permutation_in _ P) in I. apply in_seq in I. cbn in *. lia. }
  rewrite Hd. cbn. apply write_pairs_inv in Hd as (A & _ & _ & D). rewrite repeat_length in A.
  assert (N : NoDup (map fst ps)).
  { eapply Permutation_NoDup; [apply Permutation_sym, P|apply seq_NoDup]. }
  specialize (D N).
  assert (exists l, data = map Some l) as (l & ->).
  { assert (G : forall o, In o data -> exists x, o = Some x).
    { intros o Ho. apply In_nth_error in Ho as (i & Hi).
      assert (Hlt : i < length data) by (apply nth_error_Some; congruence).
      assert (I : In i (map fst ps)).
      { apply (Permutation_in _ (Permutation_sym P)). apply in_seq. lia. }
      apply in_map_iff in I as ([a b] & <- & I). cbn in Hi. rewrite (D _ _ I) in Hi. inv Hi. eauto. }
    clear - G. induction data as [|o r IH].
    - exists []; auto.
    - destruct IH as (l & ->). intros o' Ho; apply G; cbn; auto.
      destruct (G o) as (x & ->); cbn; auto. exists (x :: l). auto. }
  rewrite all_valid_map. cbn. rewrite map_length in A.
  assert (V : forall a b, In (a, b) ps -> nth a l 0 = b).
  { intros a b I. apply D in I. apply nth_error_map_Some in I. tauto. }
  apply perm_of_vector_iff.
  rewrite A. eapply Permutation_trans; [|exact Q]. rewrite (map_snd_nth ps l V).
  assert (E : l = map (fun a => nth a l 0) (seq 0 (length l))).
  { apply nth_ext_nat. now rewrite map_length, seq_length.
    intros i Hi. rewrite (nth_indep (map _ _) 0 (nth 0 l 0)) by (rewrite map_length, seq_length; auto).
    rewrite (map_nth (fun a => nth a l 0)). rewrite seq_nth; auto. }
  rewrite E at 1. apply Permutation_map. rewrite A. apply Permutation_sym, P.
Qed.

(** ** The constructor from cycles *)

Fixpoint cycle_pairs (first : nat) (c : list nat) : list (nat * nat) :=
  match c with
  | [] => []
  | x :: r => (x, match r with [] => first | y :: _ => y end) :: cycle_pairs first r
  end.

Definition cycles_pairs (cs : list (list nat)) := flat_map (fun c => cycle_pairs (hd 0 c) c) cs.

Lemma write_pairs_app ps qs data :
  write_pairs (ps ++ qs) data = (do d <- write_pairs ps data; write_pairs qs d).
Proof.
  revert data. induction ps as [|[a b] r IH]; cbn; intros data; auto.
  destruct (vset data a (Some b)); cbn; auto.
Qed.

Lemma write_cycle_pairs first c : forall data,
  write_cycle first c data = write_pairs (cycle_pairs first c) data.
Proof. induction c as [|x r IH]; cbn; intros data; auto. destruct (vset _ _ _); cbn; auto. Qed.

Lemma write_cycles_pairs cs : forall data,
  write_cycles cs data = write_pairs (cycles_pairs cs) data.
Proof.
  induction cs as [|c r IH]; cbn; intros data; auto.
  rewrite write_pairs_app, write_cycle_pairs. destruct (write_pairs _ _); cbn; auto.
Qed.

Lemma cycle_pairs_fst first c : map fst (cycle_pairs first c) = c.
Proof. induction c; cbn; auto. now rewrite IHc. Qed.

Lemma cycles_pairs_fst cs : map fst (cycles_pairs cs) = concat cs.
Proof.
  unfold cycles_pairs. induction cs as [|c r IH]; cbn; auto.
  now rewrite map_app, IH, cycle_pairs_fst.
Qed.

Lemma cycle_pairs_snd first c : c <> [] -> map snd (cycle_pairs first c) = tl c ++ [first].
Proof.
  induction c as [|x r IH]; cbn; intros H; [contradiction|].
  destruct r as [|y r]; auto. rewrite IH by discriminate. reflexivity.
Qed.

Lemma cycles_pairs_snd cs : Permutation (map snd (cycles_pairs cs)) (concat cs).
Proof.
  unfold cycles_pairs. induction cs as [|c r IH]; cbn; auto.
  rewrite map_app. apply Permutation_app; auto.
  destruct c as [|x c]; auto. rewrite cycle_pairs_snd by discriminate. cbn.
  apply Permutation_sym, Permutation_cons_append.
Qed.

Lemma cycles_pairs_length cs : length (cycles_pairs cs) = list_sum (map (@length nat) cs).
Proof.
  rewrite <- (map_length fst), cycles_pairs_fst.
  induction cs; cbn; auto. rewrite app_length. auto.
Qed.

Lemma perm_of_cycles_pairs cs : perm_of_cycles cs = perm_of_pairs (cycles_pairs cs).
Proof. unfold perm_of_cycles, perm_of_pairs. rewrite write_cycles_pairs, cycles_pairs_length. auto. Qed.

Lemma cycle_pairs_succ first c : NoDup c -> forall x, In x c -> In (x, succ_in first c x) (cycle_pairs first c).
Proof.
  induction c as [|z r IH]; cbn; intros N x H; auto.
  apply NoDup_cons_iff in N as [N1 N2].
  destruct (Nat.eqb_spec x z). subst; auto. right. apply IH; auto. destruct H; congruence.
Qed.

Lemma NoDup_app_inv {A} (a b : list A) : NoDup (a ++ b) ->
  NoDup a /\ NoDup b /\ forall x, In x a -> ~ In x b.
Proof.
  induction a as [|x a IH]; cbn; intros N.
  - repeat split; auto; constructor.
  - apply NoDup_cons_iff in N as [N1 N2]. destruct (IH N2) as (A1 & A2 & A3).
    rewrite in_app_iff in N1. repeat split; auto.
    + constructor; tauto.
    + intros y [->|Hy]; auto.
Qed.

Lemma NoDup_concat_in (cs : list (list nat)) c : NoDup (concat cs) -> In c cs -> NoDup c.
Proof.
  induction cs as [|d r IH]; cbn; intros N H; [contradiction|].
  destruct H as [->|H].
  - now apply NoDup_app_inv in N.
  - apply IH; auto. now apply NoDup_app_inv in N.
Qed.

Lemma list_sum_concat (cs : list (list nat)) : list_sum (map (@length nat) cs) = length (concat cs).
Proof. induction cs; cbn; auto. rewrite app_length. auto. Qed.

Lemma perm_of_cycles_Ok cs p : perm_of_cycles cs = Ok p ->
  let n := length (concat cs) in
  Permutation (concat cs) (seq 0 n) /\ wfp n p /\
  forall c x, In c cs -> In x c -> fw p x = cyclic c x.
Proof.
  rewrite perm_of_cycles_pairs. intros H n.
  apply perm_of_pairs_Ok in H as (W & P & _ & V).
  rewrite cycles_pairs_fst, cycles_pairs_length, list_sum_concat in *.
  split; auto. split; auto. intros c x Hc Hx. apply V. unfold cycles_pairs.
  apply in_flat_map. exists c. split; auto. unfold cyclic. apply cycle_pairs_succ; auto.
  apply NoDup_concat_in with cs; auto.
  eapply Permutation_NoDup; [apply Permutation_sym, P|apply seq_NoDup].
Qed.

Lemma perm_of_cycles_complete cs :
  Permutation (concat cs) (seq 0 (length (concat cs))) -> exists p, perm_of_cycles cs = Ok p.
Proof.
  intros P. rewrite perm_of_cycles_pairs. apply perm_of_pairs_complete;
    rewrite cycles_pairs_length, list_sum_concat.
  - now rewrite cycles_pairs_fst.
  - eapply Permutation_trans. apply cycles_pairs_snd. auto.
Qed.

(** ** Orbits *)

Lemma iter_S {A} (f : A -> A) k x : Nat.iter (S k) f x = f (Nat.iter k f x).
Proof. reflexivity. Qed.

Lemma iter_S' {A} (f : A -> A) k x : Nat.iter (S k) f x = Nat.iter k f (f x).
Proof. induction k; cbn; auto. f_equal. exact IHk. Qed.

Lemma iter_add {A} (f : A -> A) a b x : Nat.iter (a + b) f x = Nat.iter a f (Nat.iter b f x).
Proof. induction a; cbn; auto. now f_equal. Qed.

Lemma iter_lt n f g t : bijection n f g -> t < n -> forall k, Nat.iter k f t < n.
Proof. intros B H k. induction k; cbn; auto. apply B; auto. Qed.

Lemma iter_cancel n f g t : bijection n f g -> t < n -> forall i j, Nat.iter i f t = Nat.iter (i + j) f t -> Nat.iter j f t = t.
Proof.
  intros B H. induction i as [|i IH]; intros j E; cbn in *; auto.
  apply IH. eapply bijection_inj in E; eauto using iter_lt.
Qed.

(** The least positive [k] with [f^k t = t]. *)
Definition period (f : nat -> nat) (t k : nat) : Prop :=
  0 < k /\ Nat.iter k f t = t /\ forall j, 0 < j < k -> Nat.iter j f t <> t.

Lemma exists_return n f g t : bijection n f g -> t < n -> exists k, 0 < k <= n /\ Nat.iter k f t = t.
Proof.
  intros B H.
  assert (N : ~ NoDup (map (fun k => Nat.iter k f t) (seq 0 (S n)))).
  { intros N. assert (length (map (fun k => Nat.iter k f t) (seq 0 (S n))) <= length (seq 0 n)).
    { apply NoDup_incl_length; auto. intros x Hx. apply in_map_iff in Hx as (k & <- & _).
      apply in_seq. pose proof (iter_lt n f g t B H k). lia. }
    rewrite map_length, !seq_length in H0. lia. }
    assert (exists i j, i < j <= n /\ Nat.iter i f t = Nat.iter j f t) as (i & j & Hij & E).
    { assert (G : forall m, (forall i j, i < j <= m -> Nat.iter i f t <> Nat.iter j f t) ->
                NoDup (map (fun k => Nat.iter k f t) (seq 0 (S m)))).
      { intros m Hm. apply (NoDup_nth _ 0). rewrite map_length, seq_length. intros i j Hi Hj E.
        rewrite !(nth_indep (map _ _) 0 (Nat.iter 0 f t)) in E by (rewrite map_length, seq_length; auto).
        rewrite !(map_nth (fun k => Nat.iter k f t)), !seq_nth in E by auto. rewrite !Nat.add_0_l in E.
        destruct (lt_eq_lt_dec i j) as [[L|]|L]; auto; exfalso.
        + apply (Hm i j); auto. lia.
        + apply (Hm j i); auto. lia. }
      (* decide the existence *)
      assert (Dec : forall m, (exists i j, i < j <= m /\ Nat.iter i f t = Nat.iter j f t) \/
                 (forall i j, i < j <= m -> Nat.iter i f t <> Nat.iter j f t)).
      { induction m as [|m IH].
        - right. intros; lia.
        - destruct IH as [(i & j & A & E)|IH].
          + left. exists i, j. split; auto. lia.
          + assert (D : forall q, (exists i, i < q /\ Nat.iter i f t = Nat.iter (S m) f t) \/
                    (forall i, i < q -> Nat.iter i f t <> Nat.iter (S m) f t)).
            { induction q as [|q IHq]. right; intros; lia.
              destruct IHq as [(i & A & E)|IHq]. left; exists i; split; auto.
              destruct (Nat.eq_dec (Nat.iter q f t) (Nat.iter (S m) f t)).
              left; exists q; auto. right. intros i Hi. destruct (Nat.eq_dec i q). now subst. apply IHq. lia. }
            destruct (D (S m)) as [(i & A & E)|D'].
            * left. exists i, (S m). split; [lia|auto].
            * right. intros i j Hij. destruct (Nat.eq_dec j (S m)). subst. apply D'; lia. apply IH; lia. }
      destruct (Dec n) as [?|Hn]; auto. exfalso. apply N, G, Hn. }
    exists (j - i). split; [lia|]. apply (iter_cancel n f g t B H i). rewrite E. f_equal. lia.
Qed.

Lemma exists_period n f g t : bijection n f g -> t < n -> exists k, k <= n /\ period f t k.
Proof.
  intros B H. destruct (exists_return n f g t B H) as (k & Hk & E).
  assert (G : forall m k, k <= m -> 0 < k -> Nat.iter k f t = t -> exists k', k' <= k /\ period f t k').
  { induction m as [|m IH]; intros k0 L P E0; [lia|].
    assert (D : forall q, (exists j, 0 < j < q /\ Nat.iter j f t = t) \/ (forall j, 0 < j < q -> Nat.iter j f t <> t)).
    { induction q as [|q IHq]. right; intros; lia.
      destruct IHq as [(j & A & E')|IHq]. left; exists j; split; [lia|auto].
      destruct (Nat.eq_dec (Nat.iter q f t) t) as [e|ne].
      - destruct q. right; intros; lia. left; exists (S q); split; [lia|auto].
      - right. intros j Hj. destruct (Nat.eq_dec j q). now subst. apply IHq. lia. }
    destruct (D k0) as [(j & A & E')|D'].
    - destruct (IH j) as (k' & A1 & A2); try lia; auto. exists k'. split; [lia|auto].
    - exists k0. split; auto. repeat split; auto. }
  destruct (G k k) as (k' & A & C); try lia; auto. exists k'. split; [lia|auto].
Qed.

Definition orbit_list (f : nat -> nat) (t k : nat) : list nat := map (fun i => Nat.iter i f t) (seq 0 k).

Lemma orbit_list_length f t k : length (orbit_list f t k) = k.
Proof. unfold orbit_list. now rewrite map_length, seq_length. Qed.

Lemma orbit_list_nth f t k i d : i < k -> nth i (orbit_list f t k) d = Nat.iter i f t.
Proof.
  intros H. unfold orbit_list. rewrite (nth_indep _ d (Nat.iter 0 f t)) by (rewrite map_length, seq_length; auto).
  rewrite (map_nth (fun i => Nat.iter i f t)), seq_nth; auto.
Qed.

Lemma orbit_list_In f t k x : In x (orbit_list f t k) <-> exists i, i < k /\ Nat.iter i f t = x.
Proof.
  unfold orbit_list. rewrite in_map_iff. split.
  - intros (i & E & Hi). apply in_seq in Hi. exists i. split; auto. lia.
  - intros (i & Hi & E). exists i. split; auto. apply in_seq. lia.
Qed.

Lemma orbit_list_S f t k : orbit_list f t (S k) = orbit_list f t k ++ [Nat.iter k f t].
Proof. unfold orbit_list. now rewrite seq_S, map_app. Qed.

Lemma orbit_list_NoDup n f g t k : bijection n f g -> t < n -> period f t k -> NoDup (orbit_list f t k).
Proof.
  intros B H (P0 & P1 & P2). apply (NoDup_nth _ 0). rewrite orbit_list_length. intros i j Hi Hj E.
  rewrite !orbit_list_nth in E by auto.
  destruct (lt_eq_lt_dec i j) as [[L|]|L]; auto; exfalso.
  - apply (P2 (j - i)); [lia|]. apply (iter_cancel n f g t B H i). rewrite E. f_equal. lia.
  - apply (P2 (i - j)); [lia|]. apply (iter_cancel n f g t B H j). rewrite <- E. f_equal. lia.
Qed.

Lemma orbit_list_closed f t k x : period f t k -> In x (orbit_list f t k) -> In (f x) (orbit_list f t k).
Proof.
  intros (P0 & P1 & P2). rewrite !orbit_list_In. intros (i & Hi & <-).
  destruct (Nat.eq_dec (S i) k) as [<-|].
  - exists 0. split; [lia|]. cbn. symmetry. apply P1.
  - exists (S i). split; auto. lia.
Qed.

Lemma orbit_list_iter f t k x j : period f t k -> In x (orbit_list f t k) -> In (Nat.iter j f x) (orbit_list f t k).
Proof. intros P H. induction j; cbn; auto using orbit_list_closed. Qed.

(** if some iterate of [s] is in the orbit then [s] is. *)
Lemma orbit_list_back n f g t k s i : bijection n f g -> s < n -> period f t k ->
  In (Nat.iter i f s) (orbit_list f t k) -> In s (orbit_list f t k).
Proof.
  intros B H P I. destruct (exists_return n f g s B H) as (m & Hm & E).
  assert (G : forall q, Nat.iter (q * m) f s = s).
  { induction q; auto. cbn [Nat.mul]. rewrite iter_add, IHq. auto. }
  rewrite <- (G i). replace (i * m) with ((i * m - i) + i) by nia.
  rewrite iter_add. now apply orbit_list_iter.
Qed.

Lemma orbit_list_cyclic n f g t k x : bijection n f g -> t < n -> period f t k ->
  In x (orbit_list f t k) -> cyclic (orbit_list f t k) x = f x.
Proof.
  intros B H P I. pose proof (orbit_list_NoDup _ _ _ _ _ B H P) as N.
  assert (G : forall m a b, NoDup (map (fun i => Nat.iter i f t) (seq a m)) -> a + m = k -> 
     In x (map (fun i => Nat.iter i f t) (seq a m)) -> b = t ->
     succ_in b (map (fun i => Nat.iter i f t) (seq a m)) x = f x).
  { induction m as [|m IH]; intros a b N' E J Eb; [destruct J|].
    cbn in *. destruct (Nat.eqb_spec x (Nat.iter a f t)) as [->|Ne].
    - destruct m; cbn; auto. destruct P as (_ & P1 & _). replace (a + 1) with (S a) in E by lia. rewrite <- E in P1.
      rewrite Eb. symmetry. exact P1.
    - apply IH; auto. now inv N'. lia. destruct J; congruence. }
  unfold cyclic. destruct k as [|k]; [destruct I|]. apply (G (S k) 0); auto.
Qed.

(** ** The walk *)

Lemma walk_cycle_Ok n p t k : wfp n p -> t < n -> period (fw p) t k -> k <= n ->
  pcycle p t = Ok (orbit_list (fw p) t k).
Proof.
  intros W Ht P L. unfold pcycle, psize. rewrite (fwd_len _ _ W).
  destruct P as (P0 & P1 & P2).
  assert (G : forall fuel j, j < k -> k - j <= fuel ->
     walk_cycle fuel p t (Nat.iter j (fw p) t) (rev (orbit_list (fw p) t j)) = Ok (orbit_list (fw p) t k)).
  { induction fuel as [|fuel IH]; intros j Hj Hf; [lia|].
    cbn [walk_cycle]. rewrite (papp_Ok n); [|apply W|].
    2:{ destruct W as (_ & _ & B). eapply iter_lt; eauto. }
    cbn [bind]. rewrite <- iter_S.
    destruct (Nat.eqb_spec (Nat.iter (S j) (fw p) t) t) as [E|E].
    - destruct (Nat.eq_dec (S j) k) as [<-|].
      + cbn [rev]. rewrite rev_involutive, orbit_list_S. auto.
      + exfalso. apply (P2 (S j)); auto. lia.
    - destruct (Nat.eq_dec (S j) k) as [<-|]; [contradiction|].
      replace (Nat.iter j (fw p) t :: rev (orbit_list (fw p) t j)) with (rev (orbit_list (fw p) t (S j))).
      + apply IH; lia.
      + now rewrite orbit_list_S, rev_app_distr. }
  apply (G n 0); lia.
Qed.

Lemma pcycle_Ok n p t : wfp n p -> t < n ->
  exists k, k <= n /\ period (fw p) t k /\ pcycle p t = Ok (orbit_list (fw p) t k).
Proof.
  intros W Ht. pose proof W as (_ & _ & B). destruct (exists_period n _ _ t B Ht) as (k & L & P).
  exists k. repeat split; auto; try apply P. now apply walk_cycle_Ok with n.
Qed.

Definition is_orbit (n : nat) (p : perm) (c : list nat) : Prop :=
  exists t k, t < n /\ k <= n /\ period (fw p) t k /\ c = orbit_list (fw p) t k.

Lemma existsb_found t found : existsb (fun c => existsb (Nat.eqb t) c) found = true <-> In t (concat found).
Proof.
  rewrite existsb_exists, in_concat. split.
  - intros (c & Hc & H). apply existsb_exists in H as (y & Hy & E). apply Nat.eqb_eq in E. subst. eauto.
  - intros (c & Hc & H). exists c. split; auto. apply existsb_exists. exists t. split; auto. apply Nat.eqb_refl.
Qed.

Lemma NoDup_app_intro {A} (a b : list A) : NoDup a -> NoDup b -> (forall x, In x a -> ~ In x b) -> NoDup (a ++ b).
Proof.
  induction a as [|x a IH]; cbn; intros N1 N2 D; auto.
  apply NoDup_cons_iff in N1 as [N1 N1']. constructor.
  - rewrite in_app_iff. intros [?|?]; auto. apply (D x); auto.
  - apply IH; auto.
Qed.

Lemma concat_rev_perm (l : list (list nat)) : Permutation (concat (rev l)) (concat l).
Proof.
  induction l as [|c l IH]; cbn; auto. rewrite concat_app. cbn. rewrite app_nil_r.
  eapply Permutation_trans. apply Permutation_app_comm. now apply Permutation_app_head.
Qed.

Lemma cycles_from_Ok n p : wfp n p -> forall ts found,
  (forall t, In t ts -> t < n) -> Forall (is_orbit n p) found -> NoDup (concat found) ->
  exists cs, cycles_from p ts found = Ok cs /\ Forall (is_orbit n p) cs /\ NoDup (concat cs) /\
    (forall x, In x ts \/ In x (concat found) -> In x (concat cs)).
Proof.
  intros W. pose proof W as (_ & _ & B). induction ts as [|t r IH]; cbn; intros found Ht Ho N.
  - exists (rev found). split; auto. split. now apply Forall_rev. split.
    + eapply Permutation_NoDup; [apply Permutation_sym, concat_rev_perm|auto].
    + intros x [[]|H]. eapply Permutation_in; [apply Permutation_sym, concat_rev_perm|auto].
  - destruct (existsb _ found) eqn:E.
    + apply existsb_found in E. destruct (IH found) as (cs & A1 & A2 & A3 & A4); auto.
      exists cs. repeat split; auto. intros x [[->|H]|H]; auto.
    + destruct (pcycle_Ok n p t W) as (k & L & P & R); auto. unfold pcycle in R. rewrite R. cbn.
      destruct (IH (orbit_list (fw p) t k :: found)) as (cs & A1 & A2 & A3 & A4); auto.
      * constructor; auto. exists t, k. auto.
      * cbn. apply NoDup_app_intro; auto.
        -- eapply orbit_list_NoDup; eauto.
        -- intros x Hx Hc. apply orbit_list_In in Hx as (i & Hi & <-).
           apply in_concat in Hc as (c & Hc & I). rewrite Forall_forall in Ho.
           destruct (Ho c Hc) as (t' & k' & T1 & T2 & T3 & ->).
           eapply orbit_list_back in I; eauto.
           apply not_true_iff_false in E. apply E, existsb_found, in_concat. eauto.
      * exists cs. repeat split; auto. intros x [[->|H]|H]; auto.
        -- apply A4. right. cbn. apply in_or_app. left. apply orbit_list_In. exists 0. split; auto. apply P.
        -- apply A4. right. cbn. apply in_or_app. auto.
Qed.

Lemma pcycles_Ok n p : wfp n p ->
  exists cs, pcycles p = Ok cs /\ Forall (is_orbit n p) cs /\ Permutation (concat cs) (seq 0 n).
Proof.
  intros W. destruct (cycles_from_Ok n p W (pdomain p) []) as (cs & A1 & A2 & A3 & A4); auto.
  - intros t Ht. now apply (fwd_In _ _ W).
  - constructor.
  - exists cs. repeat split; auto. apply NoDup_Permutation; auto using seq_NoDup.
    intros x. rewrite in_seq. split.
    + intros H. apply in_concat in H as (c & Hc & I). rewrite Forall_forall in A2.
      destruct (A2 c Hc) as (t & k & T1 & T2 & T3 & ->). apply orbit_list_In in I as (i & Hi & <-).
      pose proof W as (_ & _ & B). pose proof (iter_lt _ _ _ t B T1 i). lia.
    + intros H. apply A4. left. apply (fwd_In _ _ W). lia.
Qed.

Lemma is_orbit_cyclic n p c x : wfp n p -> is_orbit n p c -> In x c -> cyclic c x = fw p x.
Proof.
  intros (_ & _ & B) (t & k & T1 & T2 & T3 & ->) I. eapply orbit_list_cyclic; eauto.
Qed.

Lemma pcycles_round_trip n p : wfp n p -> exists cs, pcycles p = Ok cs /\ perm_of_cycles cs = Ok p.
Proof.
  intros W. destruct (pcycles_Ok n p W) as (cs & A1 & A2 & A3). exists cs. split; auto.
  pose proof (Permutation_length A3) as L. rewrite seq_length in L.
  destruct (perm_of_cycles_complete cs) as (q & Hq). { now rewrite L. }
  rewrite Hq. f_equal. apply perm_of_cycles_Ok in Hq. cbn in Hq. rewrite L in Hq.
  destruct Hq as (_ & Wq & V). apply wfp_ext with n; auto.
  intros i Hi. assert (I : In i (concat cs)).
  { eapply Permutation_in; [apply Permutation_sym, A3|]. apply in_seq. lia. }
  apply in_concat in I as (c & Hc & I). rewrite (V c i Hc I). rewrite Forall_forall in A2.
  eapply is_orbit_cyclic; eauto.
Qed.

(** ** drop *)

Lemma firstn_nth (l : list nat) m i : i < m -> nth i (firstn m l) 0 = nth i l 0.
Proof.
  revert m i. induction l as [|a l IH]; intros [|m] [|i] H; cbn; auto; try lia. apply IH. lia.
Qed.

Lemma pdrop_Ok n p items q : wfp n p -> NoDup items -> pdrop p items = Ok q ->
  wfp (n - length items) q /\ length items <= n /\
  (forall i, i < n - length items -> fw q i = fw p i) /\
  (forall i, In i items <-> n - length items <= i < n).
Proof.
  intros W N H. unfold pdrop in H. apply bind_Ok in H as (images & Hi & H).
  destruct (forallb _ images) eqn:E1; try discriminate.
  destruct (length items <=? psize p) eqn:E2; try discriminate.
  destruct (forallb (fun i => psize p - length items <=? i) items) eqn:E3; try discriminate.
  cbn in H. inv H. unfold psize in *. rewrite (fwd_len _ _ W) in *. rewrite (bwd_len _ _ W) in *.
  apply Nat.leb_le in E2. rewrite forallb_forall in E1, E3.
  apply omap_Ok in Hi.
  assert (Hlt : forall i, In i items -> i < n).
  { intros i I. clear - Hi I W. induction Hi; [destruct I|]. destruct I as [->|I]; auto.
    apply vget_Ok in H as [H _]. now rewrite (fwd_len _ _ W) in H. }
  assert (Items : forall i, In i items <-> n - length items <= i < n).
  { intros i. split.
    - intros I. specialize (E3 i I). apply Nat.leb_le in E3. specialize (Hlt i I). lia.
    - intros Hr. assert (incl (seq (n - length items) (length items)) items).
      { apply NoDup_length_incl; auto. now rewrite seq_length.
        intros x Hx. apply in_seq. specialize (E3 x Hx). apply Nat.leb_le in E3. specialize (Hlt x Hx). lia. }
      apply H. apply in_seq. lia. }
  assert (Cl : forall i, In i items -> In (fw p i) items).
  { intros i I. assert (J : In (fw p i) images).
    { clear - Hi I W Hlt. induction Hi; [destruct I|]. destruct I as [->|I].
      - rewrite (papp_Ok n) in H. inv H. cbn; auto. apply W. apply Hlt. cbn; auto.
      - cbn. right. apply IHHi; auto. intros; apply Hlt; cbn; auto. }
    apply E1 in J. apply existsb_exists in J as (y & Hy & E). apply Nat.eqb_eq in E. now subst. }
  (* the complement is closed under the permutation, too *)
  assert (Sur : forall i, In i items -> In (bw p i) items).
  { intros i I.
    assert (P : incl items (map (fw p) items)).
    { apply NoDup_length_incl.
      - assert (G : forall l, (forall i, In i l -> i < n) -> NoDup l -> NoDup (map (fw p) l)).
        { induction l as [|a l IH]; cbn; intros Hl N'; constructor; inv N'.
          - rewrite in_map_iff. intros (b & E & Hb). assert (a = b); [|subst; auto].
            apply (fw_inj _ _ W); auto.
          - apply IH; auto. }
        apply G; auto.
      - now rewrite map_length.
      - intros x Hx. apply in_map_iff in Hx as (y & <- & Hy). auto. }
    apply P in I. apply in_map_iff in I as (y & <- & Hy). now rewrite (bw_fw _ _ W); auto. }
  assert (Fq : forall i, i < n - length items -> fw {| fwd := firstn (n - length items) (fwd p); bwd := firstn (n - length items) (bwd p) |} i = fw p i).
  { intros i I. unfold fw; cbn. now apply firstn_nth. }
  assert (Bq : forall i, i < n - length items -> bw {| fwd := firstn (n - length items) (fwd p); bwd := firstn (n - length items) (bwd p) |} i = bw p i).
  { intros i I. unfold bw; cbn. now apply firstn_nth. }
  assert (Cf : forall i, i < n - length items -> fw p i < n - length items).
  { intros i I. destruct (le_lt_dec (n - length items) (fw p i)) as [J|]; auto.
    assert (K : In (fw p i) items). { apply Items. split; auto. apply (fw_lt _ _ W). lia. }
    apply Sur in K. rewrite (bw_fw _ _ W) in K by lia. apply Items in K. lia. }
  assert (Cb : forall i, i < n - length items -> bw p i < n - length items).
  { intros i I. destruct (le_lt_dec (n - length items) (bw p i)) as [J|]; auto.
    assert (K : In (bw p i) items). { apply Items. split; auto. apply (bw_lt _ _ W). lia. }
    apply Cl in K. rewrite (fw_bw _ _ W) in K by lia. apply Items in K. lia. }
  split; auto.
  split. { cbn. rewrite firstn_length, (fwd_len _ _ W). lia. }
  split. { cbn. rewrite firstn_length, (bwd_len _ _ W). lia. }
  split.
  - intros i I. rewrite Fq by auto. split; auto. rewrite Bq by auto. apply (bw_fw _ _ W). lia.
  - intros i I. rewrite Bq by auto. split; auto. rewrite Fq by auto. apply (fw_bw _ _ W). lia.
Qed.
