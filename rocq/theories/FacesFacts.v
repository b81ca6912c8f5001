(** * Gluing triangles along their sides *)
From Coq Require Import List Arith Bool Lia Permutation Relations.
From Verif Require Import Base HalfEdge HalfEdgeFacts Perm PermSpec PermFacts PermCycles IndexedSet IndexedSetSpec
  IndexedSetFacts Combinatorial CombinatorialSpec CombinatorialFacts Faces FacesSpec.
Import ListNotations.

(** ** Maps *)

Lemma lookup_assign m a b x : lookup (assign m a b) x = if a =? x then Some b else lookup m x.
Proof.
  induction m as [|[u v] m IH]; cbn.
  - destruct (a =? x); auto.
  - destruct (Nat.eqb_spec u a) as [->|N]; cbn.
    + destruct (a =? x); auto.
    + rewrite IH. destruct (Nat.eqb_spec u x) as [->|]; auto.
      destruct (Nat.eqb_spec a x); auto. congruence.
Qed.

Definition dflt (m : hmap) (x : nat) : nat := match lookup m x with Some y => y | None => x end.

Lemma lookup_touch m a x : lookup (touch m a) x = if a =? x then Some (dflt m a) else lookup m x.
Proof.
  unfold touch, dflt. destruct (lookup m a) eqn:E.
  - destruct (Nat.eqb_spec a x); subst; auto.
  - now rewrite lookup_assign.
Qed.

Lemma assign_fresh m a b : lookup m a = None -> assign m a b = m ++ [(a, b)].
Proof.
  induction m as [|[u v] m IH]; cbn; auto. destruct (u =? a); [discriminate|]. intros H. now rewrite IH.
Qed.

Lemma lookup_None m a : lookup m a = None <-> ~ In a (map fst m).
Proof.
  induction m as [|[u v] m IH]; cbn; [tauto|]. destruct (Nat.eqb_spec u a); [split; [discriminate|tauto]|].
  rewrite IH. tauto.
Qed.

Lemma record_Ok g a b : exists g', record g (a, b) = Ok g' /\
  g_vertices g' = assign (g_vertices g) a b /\
  g_nonboundary g' = sinsert (g_nonboundary g) a /\
  (forall x, lookup (g_initial g') x = if dflt (g_final g) b =? x then Some (dflt (g_initial g) a)
    else if a =? x then Some (dflt (g_initial g) a) else lookup (g_initial g) x) /\
  (forall x, lookup (g_final g') x = if dflt (g_initial g) a =? x then Some (dflt (g_final g) b)
    else if b =? x then Some (dflt (g_final g) b) else lookup (g_final g) x).
Proof.
  unfold record, at_key. rewrite !lookup_touch, !Nat.eqb_refl. cbn [bind].
  rewrite lookup_assign. rewrite lookup_touch, Nat.eqb_refl.
  replace (if dflt (g_initial g) a =? b then Some (dflt (g_final g) b) else Some (dflt (g_final g) b))
    with (Some (dflt (g_final g) b)) by now destruct (_ =? b).
  cbn [bind]. eexists. split; [reflexivity|]. cbn. split; auto. split; auto.
  split; intros x; rewrite lookup_assign, lookup_touch; auto.
Qed.

(** ** Chains of corners *)

(** One can turn from [i] to [x] along the pairs [P]. *)
Inductive chain (P : list (nat * nat)) (i : nat) : nat -> Prop :=
| chain_refl : chain P i i
| chain_step x y : chain P i x -> In (x, y) P -> chain P i y.

Lemma chain_trans P i x y : chain P i x -> chain P x y -> chain P i y.
Proof. intros H. induction 1; auto. eapply chain_step; eauto. Qed.

Lemma chain_mono P Q i x : (forall p, In p P -> In p Q) -> chain P i x -> chain Q i x.
Proof. intros H. induction 1. constructor. eapply chain_step; eauto. Qed.

Lemma chain_front P i x : chain P i x -> x = i \/ exists y, In (i, y) P /\ chain P y x.
Proof.
  induction 1 as [|x y H [->|(z & A & B)] I]; auto.
  - right. exists y. split; auto. constructor.
  - right. exists z. split; auto. eapply chain_step; eauto.
Qed.

Section Pairs.
Variable P : list (nat * nat).
Hypothesis Nk : NoDup (map fst P).
Hypothesis Nv : NoDup (map snd P).

Lemma pair_fun x y y' : In (x, y) P -> In (x, y') P -> y = y'.
Proof.
  clear Nv. induction P as [|[u v] l IH]; cbn; [tauto|]. apply NoDup_cons_iff in Nk as [K1 K2].
  intros [A|A] [B|B].
  - congruence.
  - inv A. exfalso. apply K1. apply (in_map fst) in B. exact B.
  - inv B. exfalso. apply K1. apply (in_map fst) in A. exact A.
  - auto.
Qed.
Lemma pair_inj x x' y : In (x, y) P -> In (x', y) P -> x = x'.
Proof.
  clear Nk. induction P as [|[u v] l IH]; cbn; [tauto|]. apply NoDup_cons_iff in Nv as [K1 K2].
  intros [A|A] [B|B].
  - congruence.
  - inv A. exfalso. apply K1. apply (in_map snd) in B. exact B.
  - inv B. exfalso. apply K1. apply (in_map snd) in A. exact A.
  - auto.
Qed.

(** Chains from the same point to two ends coincide. *)
Lemma chain_ends i x y : chain P i x -> chain P i y -> ~ In x (map fst P) -> ~ In y (map fst P) -> x = y.
Proof.
  intros A B X Y.
  assert (C : chain P x y \/ chain P y x).
  { clear X Y. induction A as [|x z A [C|C] I].
    - auto.
    - destruct (chain_front _ _ _ C) as [->|(w & J & D)].
      + right. apply chain_step with x; auto.
      + rewrite (pair_fun x z w); auto.
    - right. eapply chain_step; eauto. }
  destruct C as [C|C]; apply chain_front in C as [->|(w & J & _)]; auto;
    apply (in_map fst) in J; tauto.
Qed.
(** Chains from two starts to the same point coincide. *)
Lemma chain_starts i j x : chain P i x -> chain P j x -> ~ In i (map snd P) -> ~ In j (map snd P) -> i = j.
Proof.
  intros A B I J.
  assert (C : chain P i j \/ chain P j i).
  { clear I J. revert B. induction A as [|x y A IH H]; intros B; auto.
    inversion B as [|u v B' H']; subst.
    - left. eapply chain_step; eauto.
    - rewrite (pair_inj x u y) in IH; auto. }
  destruct C as [C|C]; inversion C as [|u v B' H']; subst; auto; apply (in_map snd) in H'; tauto.
Qed.
End Pairs.

(** ** The invariant of the loop *)

Record ends (P : list (nat * nat)) (ini fin : hmap) : Prop := {
  end_ini : forall x, ~ In x (map fst P) -> ~ In (dflt ini x) (map snd P) /\ chain P (dflt ini x) x;
  end_fin : forall x, ~ In x (map snd P) -> ~ In (dflt fin x) (map fst P) /\ chain P x (dflt fin x);
  end_known : forall x, In x (map snd P) -> ~ In x (map fst P) -> lookup ini x <> None
}.

Lemma ends_record P g g' a b : NoDup (map fst ((a, b) :: P)) -> NoDup (map snd ((a, b) :: P)) ->
  ends P (g_initial g) (g_final g) -> record g (a, b) = Ok g' ->
  ends ((a, b) :: P) (g_initial g') (g_final g').
Proof.
  intros Nk Nv [HI HF HK] E. cbn [map fst snd] in Nk, Nv.
  apply NoDup_cons_iff in Nk as [Ka Nk]. apply NoDup_cons_iff in Nv as [Kb Nv].
  destruct (record_Ok g a b) as (g2 & E2 & _ & _ & LI & LF). rewrite E in E2. inv E2.
  destruct (HI a Ka) as [I1 I2]. destruct (HF b Kb) as [F1 F2].
  set (i := dflt (g_initial g) a) in *. set (f := dflt (g_final g) b) in *.
  assert (M : forall u v, chain P u v -> chain ((a, b) :: P) u v).
  { intros u v. apply chain_mono. cbn; auto. }
  assert (C : chain ((a, b) :: P) i f).
  { apply chain_trans with b; auto. apply chain_step with a; auto. now left. }
  constructor; cbn [map fst snd In].
  - intros x X. unfold dflt. rewrite LI.
    destruct (Nat.eqb_spec f x) as [<-|N].
    + split; [|exact C]. intros [B|B]; [|tauto].
      rewrite B in F2. assert (a = f) by (apply (chain_ends P Nk i); auto). tauto.
    + destruct (Nat.eqb_spec a x) as [<-|Nx]; [tauto|].
      destruct (HI x) as [J1 J2]; [tauto|]. unfold dflt in J1, J2.
      destruct (lookup (g_initial g) x) as [j|] eqn:L; split; auto; try constructor.
      * intros [B|B]; [|tauto]. subst j. apply N. apply (chain_ends P Nk b); auto; tauto.
      * intros [B|B]; [|tauto]. subst x. apply N. apply (chain_ends P Nk b); auto; try tauto; constructor.
  - intros x X. unfold dflt. rewrite LF.
    destruct (Nat.eqb_spec i x) as [<-|N].
    + split; [|exact C]. intros [B|B]; [|tauto].
      rewrite <- B in F2. assert (i = b) by (apply (chain_starts P Nv i b a); auto). subst b. tauto.
    + destruct (Nat.eqb_spec b x) as [<-|Nx]; [tauto|].
      destruct (HF x) as [J1 J2]; [tauto|]. unfold dflt in J1, J2.
      destruct (lookup (g_final g) x) as [j|] eqn:L; split; auto; try constructor.
      * intros [B|B]; [|tauto]. subst j. apply N. apply (chain_starts P Nv _ _ a); auto; tauto.
      * intros [B|B]; [|tauto]. subst x. apply N. apply (chain_starts P Nv _ _ a); auto; try tauto; constructor.
  - intros x X Y. rewrite LI. destruct (f =? x) eqn:Q; [discriminate|]. destruct (a =? x); [discriminate|].
    destruct X as [X|X]; [|apply HK; tauto]. subst x. apply Nat.eqb_neq in Q.
    (* [b] is an end, so [f] = [b] *)
    exfalso. apply Q. apply (chain_ends P Nk b); auto; try tauto. constructor.
Qed.

(** All that the loop leaves behind. *)
Lemma records_Ok ps : forall P g, NoDup (map fst (P ++ ps)) -> NoDup (map snd (P ++ ps)) ->
  ends P (g_initial g) (g_final g) -> g_vertices g = P ->
  (forall x, mem (g_nonboundary g) x = true <-> In x (map fst P)) ->
  exists g', records g ps = Ok g' /\ ends (P ++ ps) (g_initial g') (g_final g') /\ g_vertices g' = P ++ ps /\
    (forall x, mem (g_nonboundary g') x = true <-> In x (map fst (P ++ ps))).
Proof.
  induction ps as [|[a b] ps IH]; intros P g Nk Nv H EV B; cbn [records].
  - exists g. rewrite app_nil_r. auto.
  - destruct (record_Ok g a b) as (g1 & E & V1 & B1 & _). rewrite E. cbn [bind].
    replace (P ++ (a, b) :: ps) with ((P ++ [(a, b)]) ++ ps) in * by (rewrite <- app_assoc; auto).
    assert (PP : Permutation ((a, b) :: P) (P ++ [(a, b)])) by apply Permutation_cons_append.
    assert (Nk1 : NoDup (map fst ((a, b) :: P))).
    { rewrite map_app in Nk. apply NoDup_app_inv in Nk as [Nk _].
      eapply Permutation_NoDup; [|exact Nk]. apply Permutation_map. now apply Permutation_sym. }
    assert (Nv1 : NoDup (map snd ((a, b) :: P))).
    { rewrite map_app in Nv. apply NoDup_app_inv in Nv as [Nv _].
      eapply Permutation_NoDup; [|exact Nv]. apply Permutation_map. now apply Permutation_sym. }
    apply IH; auto.
    + pose proof (ends_record P g g1 a b Nk1 Nv1 H E) as [A1 A2 A3].
      assert (S1 : forall x, In x (map fst (P ++ [(a, b)])) <-> In x (map fst ((a, b) :: P))).
      { intros x. split; apply Permutation_in; apply Permutation_map; auto using Permutation_sym. }
      assert (S2 : forall x, In x (map snd (P ++ [(a, b)])) <-> In x (map snd ((a, b) :: P))).
      { intros x. split; apply Permutation_in; apply Permutation_map; auto using Permutation_sym. }
      assert (M : forall u v, chain ((a, b) :: P) u v -> chain (P ++ [(a, b)]) u v).
      { intros u v. apply chain_mono. intros p. apply Permutation_in; auto. }
      constructor.
      * intros x X. rewrite S1 in X. rewrite S2. destruct (A1 x X). auto.
      * intros x X. rewrite S2 in X. rewrite S1. destruct (A2 x X). auto.
      * intros x X Y. rewrite S2 in X. rewrite S1 in Y. auto.
    + rewrite V1, EV. apply assign_fresh. apply lookup_None. cbn in Nk1. apply NoDup_cons_iff in Nk1. tauto.
    + intros x. rewrite B1, mem_insert, orb_true_iff, B, Nat.eqb_eq, map_app, in_app_iff. cbn.
      split; [intros [->|]; auto|intros [|[->|[]]]; auto].
Qed.

Lemma close_Ok ini : forall bnd vs, NoDup (map fst vs ++ bnd) -> (forall h, In h bnd -> lookup ini h <> None) ->
  close ini vs bnd = Ok (vs ++ map (fun h => (h, dflt ini h)) bnd).
Proof.
  induction bnd as [|h bnd IH]; intros vs N K; cbn [close map].
  - now rewrite app_nil_r.
  - unfold at_key, dflt at 1. destruct (lookup ini h) as [i|] eqn:L; [|exfalso; apply (K h); cbn; auto].
    cbn [bind]. rewrite assign_fresh.
    + rewrite IH.
      * now rewrite <- app_assoc.
      * rewrite map_app, <- app_assoc. exact N.
      * intros x X. apply K. now right.
    + apply lookup_None. apply NoDup_remove_2 in N. intros X. apply N. apply in_app_iff. auto.
Qed.

(** ** The constructor *)


Lemma sorted_NoDup l : Sorted.StronglySorted lt l -> NoDup l.
Proof.
  induction 1 as [|a l S IH H]; constructor; auto. intros I. rewrite Forall_forall in H. specialize (H a I). lia.
Qed.

Lemma lookup_In m x y : NoDup (map fst m) -> In (x, y) m -> lookup m x = Some y.
Proof.
  induction m as [|[u v] m IH]; cbn; [tauto|]. intros N. apply NoDup_cons_iff in N as [N1 N2].
  intros [E|I].
  - inv E. now rewrite Nat.eqb_refl.
  - destruct (Nat.eqb_spec u x) as [->|]; auto. exfalso. apply N1. apply (in_map fst) in I. exact I.
Qed.

Lemma keys_sides fs : map fst (flat_map face_records fs) = flat_map sides fs.
Proof. induction fs as [|[[a b] c] l IH]; cbn; auto. now rewrite <- IH. Qed.

Lemma values_sides fs : Permutation (map snd (flat_map face_records fs)) (map neg (flat_map sides fs)).
Proof.
  induction fs as [|[[a b] c] l IH]; cbn; auto.
  eapply perm_trans; [apply perm_swap|]. constructor. eapply perm_trans; [apply perm_swap|]. constructor.
  now constructor.
Qed.

Section Glue.
Variables (n : nat) (fs : list (nat * nat * nat)).
Hypothesis G : gluable n fs.
Let P := flat_map face_records fs.
Let ss := flat_map sides fs.

Lemma Nss : NoDup ss. Proof. apply G. Qed.
Lemma ss_lt e : In e ss -> e < n. Proof. apply G. Qed.
Lemma Nkeys : NoDup (map fst P). Proof. unfold P. rewrite keys_sides. apply Nss. Qed.
Lemma Nvalues : NoDup (map snd P).
Proof.
  eapply Permutation_NoDup; [apply Permutation_sym, values_sides|].
  apply NoDup_map_inj; [|apply Nss]. intros x y _ _. apply neg_inj.
Qed.
Lemma values_In x : In x (map snd P) <-> In (neg x) ss.
Proof.
  split; intros H.
  - apply (Permutation_in _ (values_sides fs)) in H. apply in_map_iff in H as (y & <- & H). now rewrite neg_neg.
  - apply (Permutation_in _ (Permutation_sym (values_sides fs))). apply in_map_iff. exists (neg x). now rewrite neg_neg.
Qed.
Lemma neg_n e : e < n -> neg e < n.
Proof. destruct G as ((m & ->) & _). apply neg_lt. Qed.

(** Triangles up to rotation. *)
Definition rot a b c := In (a, b, c) fs \/ In (b, c, a) fs \/ In (c, a, b) fs.
Lemma rot_next a b c : rot a b c -> rot b c a.
Proof. unfold rot. tauto. Qed.
Lemma rot_pair a b c : rot a b c -> In (a, neg c) P.
Proof. unfold P. intros [H|[H|H]]; apply in_flat_map; eexists; (split; [exact H|]); cbn; auto. Qed.
Lemma rot_side a b c : rot a b c -> In a ss.
Proof. unfold ss. intros [H|[H|H]]; apply in_flat_map; eexists; (split; [exact H|]); cbn; auto. Qed.
Lemma side_rot a : In a ss -> exists b c, rot a b c.
Proof.
  unfold ss. intros H. apply in_flat_map in H as ([[x y] z] & H & S). unfold rot.
  cbn in S. destruct S as [<-|[<-|[<-|[]]]]; eauto.
Qed.
Lemma pair_rot x y : In (x, y) P -> exists b, rot x b (neg y).
Proof.
  unfold P. intros H. apply in_flat_map in H as ([[a b] c] & H & S). unfold rot.
  cbn in S. destruct S as [E|[E|[E|[]]]]; inv E; rewrite neg_neg; eauto.
Qed.
Lemma corner_pair x y : corner fs x y <-> In (x, y) P.
Proof.
  split.
  - intros (a & b & c & H & S). unfold P. apply in_flat_map. exists (a, b, c). split; auto. cbn.
    destruct S as [[-> ->]|[[-> ->]|[-> ->]]]; auto.
  - unfold P. intros H. apply in_flat_map in H as ([[a b] c] & H & S). exists a, b, c. split; auto.
    cbn in S. destruct S as [E|[E|[E|[]]]]; inv E; auto.
Qed.

Let R := map (fun p => (neg (snd p), fst p)) P.
Definition fnext e := dflt R e.
Definition fprev e := match lookup P e with Some y => neg y | None => e end.

Lemma NR : NoDup (map fst R).
Proof.
  unfold R. rewrite map_map. cbn. rewrite <- (map_map snd neg).
  apply NoDup_map_inj; [|apply Nvalues]. intros x y _ _. apply neg_inj.
Qed.
Lemma fnext_rot a b c : rot a b c -> fnext a = b.
Proof.
  intros H. unfold fnext, dflt. apply rot_next, rot_pair in H.
  rewrite (lookup_In R a b); auto using NR. unfold R. apply in_map_iff. exists (b, neg a). cbn [fst snd].
  now rewrite neg_neg.
Qed.
Lemma fprev_rot a b c : rot a b c -> fprev a = c.
Proof. intros H. unfold fprev. apply rot_pair in H. rewrite (lookup_In P _ _ Nkeys H). apply neg_neg. Qed.
Lemma fnext_out e : ~ In e ss -> fnext e = e.
Proof.
  intros H. unfold fnext, dflt. rewrite (proj2 (lookup_None R e)); auto.
  intros I. apply H. unfold R in I. rewrite map_map in I. cbn in I. apply in_map_iff in I as (p & <- & I).
  apply (in_map snd) in I. now apply values_In in I.
Qed.
Lemma fprev_out e : ~ In e ss -> fprev e = e.
Proof.
  intros H. unfold fprev. rewrite (proj2 (lookup_None P e)); auto. unfold P. rewrite keys_sides. exact H.
Qed.
Lemma side_dec e : {In e ss} + {~ In e ss}. Proof. apply in_dec, Nat.eq_dec. Qed.

Lemma fnext_bijection : bijection n fnext fprev.
Proof.
  split; intros e He; destruct (side_dec e) as [I|I].
  - destruct (side_rot e I) as (b & c & H). rewrite (fnext_rot _ _ _ H). split.
    + apply ss_lt. apply (rot_side b c e). now apply rot_next.
    + apply (fprev_rot b c e). now apply rot_next.
  - rewrite fnext_out by auto. split; auto. now apply fprev_out.
  - destruct (side_rot e I) as (b & c & H). rewrite (fprev_rot _ _ _ H). split.
    + apply ss_lt. apply (rot_side c e b). now apply rot_next, rot_next.
    + apply (fnext_rot c e b). now apply rot_next, rot_next.
  - rewrite fprev_out by auto. split; auto. now apply fnext_out.
Qed.
Lemma fnext_three e : fnext (fnext (fnext e)) = e.
Proof.
  destruct (side_dec e) as [I|I].
  - destruct (side_rot e I) as (b & c & H). rewrite (fnext_rot _ _ _ H).
    apply rot_next in H. rewrite (fnext_rot _ _ _ H). apply rot_next in H. now rewrite (fnext_rot _ _ _ H).
  - now rewrite !(fnext_out e).
Qed.

Lemma boundary_Ok b : (forall x, mem b x = true <-> In x ss) -> exists bnd, boundary_of b = Ok bnd /\
  NoDup bnd /\ forall h, In h bnd <-> In (neg h) ss /\ ~ In h ss.
Proof.
  intros H. unfold boundary_of. destruct (elements_spec b) as (l & -> & S & M). cbn [bind].
  eexists. split; [reflexivity|]. split.
  - apply NoDup_map_inj; [intros x y _ _; apply neg_inj|]. apply NoDup_filter. now apply sorted_NoDup.
  - intros h. rewrite in_map_iff. split.
    + intros (e & <- & I). apply filter_In in I as [I1 I2]. rewrite neg_neg. rewrite <- !H.
      apply M in I1. split; auto. rewrite contains_mem in I2. intros Q. rewrite Q in I2. discriminate.
    + intros [A B]. exists (neg h). split; [apply neg_neg|]. apply filter_In. split.
      * apply M, H, A.
      * rewrite neg_neg, contains_mem. rewrite <- H in B. destruct (mem b h); auto.
Qed.

Theorem from_faces_Ok order : (forall m, Permutation (order m) m) ->
  exists t, from_faces order fs = Ok t /\ well_formed n t /\ (forall e, e < n -> nF t e = fnext e) /\
    (forall x y, In (x, y) P -> nV t x = y) /\
    (forall h, h < n -> ~ In h ss -> chain P (nV t h) h).
Proof.
  intros O. unfold from_faces. fold P.
  destruct (records_Ok P [] (mkGluing [] [] [] [])) as (g & E & [HI HF HK] & EV & HB); cbn [app]; auto.
  { apply Nkeys. } { apply Nvalues. }
  { constructor; cbn; auto; try tauto; intros x _; split; auto; constructor. }
  { intros x. cbn. unfold mem. destruct x; cbn; split; (discriminate || tauto). }
  cbn [app] in *. rewrite E. cbn [bind]. unfold P in HB. rewrite keys_sides in HB. fold ss in HB.
  assert (KS : map fst P = ss) by apply keys_sides.
  destruct (boundary_Ok _ HB) as (bnd & -> & NB & BI). cbn [bind].
  assert (Known : forall h, In h bnd -> lookup (g_initial g) h <> None).
  { intros h Hh. apply BI in Hh as [A B]. apply HK; [now apply values_In|now rewrite KS]. }
  assert (ND : NoDup (ss ++ bnd)).
  { apply NoDup_app_intro; auto using Nss. intros x X Y. apply BI in Y. tauto. }
  rewrite close_Ok; [|rewrite EV, KS; exact ND|exact Known].
  cbn [bind]. rewrite EV. set (ini := dflt (g_initial g)) in *.
  set (Q := P ++ map (fun h => (h, ini h)) bnd).
  assert (QF : map fst Q = ss ++ bnd).
  { unfold Q. rewrite map_app, KS, map_map. f_equal. apply map_id. }
  assert (QS : map snd Q = map snd P ++ map ini bnd).
  { unfold Q. rewrite map_app, map_map. reflexivity. }
  assert (PF : Permutation (map fst Q) (seq 0 n)).
  { rewrite QF. apply NoDup_Permutation; auto using seq_NoDup. intros x. rewrite in_app_iff, in_seq. split.
    - intros [X|X].
      + apply ss_lt in X. lia.
      + apply BI in X as [X _]. apply ss_lt, neg_n in X. rewrite neg_neg in X. lia.
    - intros X. destruct (side_dec x) as [|N]; auto. right. apply BI. split; auto.
      destruct G as (_ & _ & _ & C). destruct (C x); [lia|contradiction|auto]. }
  assert (LQ : length Q = n).
  { apply Permutation_length in PF. rewrite map_length, seq_length in PF. auto. }
  assert (Cini : forall h, In h bnd -> ~ In (ini h) (map snd P) /\ chain P (ini h) h).
  { intros h Hh. apply BI in Hh as [A B]. apply HI. now rewrite KS. }
  assert (PS : Permutation (map snd Q) (seq 0 n)).
  { apply NoDup_Permutation_bis.
    - rewrite QS. apply NoDup_app_intro; [apply Nvalues| |].
      + apply NoDup_map_inj; auto. intros x y X Y E'. destruct (Cini x X) as [_ C1]. destruct (Cini y Y) as [_ C2].
        rewrite E' in C1. apply BI in X, Y. apply (chain_ends P Nkeys (ini y)); auto; rewrite KS; tauto.
      + intros x X Y. apply in_map_iff in Y as (h & <- & Y). now apply (Cini h Y).
    - rewrite map_length, seq_length. lia.
    - intros x. rewrite QS, in_app_iff, in_seq. intros [X|X].
      + apply values_In in X. apply ss_lt, neg_n in X. rewrite neg_neg in X. lia.
      + apply in_map_iff in X as (h & <- & X). destruct (Cini h X) as [_ C].
        apply chain_front in C as [<-|(y & C & _)].
        * apply BI in X as [X _]. apply ss_lt, neg_n in X. rewrite neg_neg in X. lia.
        * apply (in_map fst) in C. rewrite KS in C. apply ss_lt in C. cbn in *. lia. }
  assert (LO : length (order Q) = n) by (rewrite (Permutation_length (O Q)); auto).
  destruct (perm_of_pairs_complete (order Q)) as (V & HV).
  { rewrite LO. eapply perm_trans; [|exact PF]. now apply Permutation_map. }
  { rewrite LO. eapply perm_trans; [|exact PS]. now apply Permutation_map. }
  rewrite HV. cbn [bind]. apply perm_of_pairs_Ok in HV as (W & _ & _ & VV). rewrite LO in W.
  assert (VQ : forall x y, In (x, y) Q -> fw V x = y).
  { intros x y I. apply VV. apply Permutation_in with Q; auto. now apply Permutation_sym. }
  destruct (make_tri_complete n V bnd fnext fprev W) as (t & E1 & E2 & E3 & E4).
  - destruct G as ((m & ->) & _). rewrite Nat.mul_comm. apply Nat.mod_mul. lia.
  - apply fnext_bijection.
  - intros e _ I. apply fnext_out. apply BI in I. tauto.
  - intros e He I. destruct (side_dec e) as [S|S].
    + destruct (side_rot e S) as (b & c & H). rewrite (VQ e (neg c)).
      * rewrite neg_neg. apply (fnext_rot c e b). now apply rot_next, rot_next.
      * unfold Q. apply in_app_iff. left. now apply rot_pair in H.
    + exfalso. apply I. apply BI. split; auto. destruct G as (_ & _ & _ & C). destruct (C e); auto. contradiction.
  - intros e _. apply fnext_three.
  - exists t. split; auto. split; auto. split; auto.
    assert (NVE : forall x, nV t x = fw V x) by (intros x; unfold nV; now rewrite E3).
    split.
    + intros x y I. rewrite NVE. apply VQ. unfold Q. apply in_app_iff. auto.
    + intros h Hh I. assert (B : In h bnd).
      { apply BI. split; auto. destruct G as (_ & _ & _ & C). destruct (C h); auto. contradiction. }
      rewrite NVE, (VQ h (ini h)); [now apply Cini|]. unfold Q. apply in_app_iff. right.
      apply in_map_iff. now exists h.
Qed.
End Glue.
