From Coq Require Import List Arith Lia Bool Permutation.
From Verif Require Import Base HalfEdge HalfEdgeFacts Perm PermSpec PermFacts PermCycles PermLemmas
  IndexedSet IndexedSetSpec IndexedSetFacts Combinatorial CombinatorialSpec.
Import ListNotations.

(** ** Basics *)

Lemma nF_fw t e : nF t e = fw (tF t) e. Proof. reflexivity. Qed.
Lemma nV_fw t e : nV t e = fw (tV t) e. Proof. reflexivity. Qed.

Definition pF (t : tri) (e : nat) : nat := nth e (bwd (tF t)) 0.
Definition pV (t : tri) (e : nat) : nat := nth e (bwd (tV t)) 0.

Section wf.
Variables (n : nat) (t : tri).
Hypothesis W : well_formed n t.

Lemma wfV : wfp n (tV t). Proof. apply is_perm_wfp, W. Qed.
Lemma wfF : wfp n (tF t). Proof. apply is_perm_wfp, W. Qed.

Lemma neg_ltn e : e < n -> neg e < n.
Proof. destruct (wf_even _ _ W) as (m & ->). apply neg_lt. Qed.

Lemma nF_lt e : e < n -> nF t e < n. Proof. apply (fw_lt _ _ wfF). Qed.
Lemma nV_lt e : e < n -> nV t e < n. Proof. apply (fw_lt _ _ wfV). Qed.
Lemma pF_lt e : e < n -> pF t e < n. Proof. apply (bw_lt _ _ wfF). Qed.
Lemma pV_lt e : e < n -> pV t e < n. Proof. apply (bw_lt _ _ wfV). Qed.
Lemma nF_inj x y : x < n -> y < n -> nF t x = nF t y -> x = y. Proof. apply (fw_inj _ _ wfF). Qed.
Lemma nV_inj x y : x < n -> y < n -> nV t x = nV t y -> x = y. Proof. apply (fw_inj _ _ wfV). Qed.
Lemma nF_pF e : e < n -> nF t (pF t e) = e. Proof. apply (fw_bw _ _ wfF). Qed.
Lemma pF_nF e : e < n -> pF t (nF t e) = e. Proof. apply (bw_fw _ _ wfF). Qed.
Lemma nV_pV e : e < n -> nV t (pV t e) = e. Proof. apply (fw_bw _ _ wfV). Qed.
Lemma pV_nV e : e < n -> pV t (nV t e) = e. Proof. apply (bw_fw _ _ wfV). Qed.

Lemma pF_tri e : e < n -> pF t e = nF t (nF t e).
Proof. intros H. apply nF_inj; auto using pF_lt, nF_lt. rewrite nF_pF by auto. now rewrite (wf_triangle _ _ W). Qed.

(** [nextAtVertex(e) == -previousInFace(e)] *)
Lemma nV_link e : e < n -> nF t e <> e -> nV t e = neg (pF t e).
Proof.
  intros H B. rewrite <- (neg_neg (nV t e)). f_equal.
  apply nF_inj; auto using pF_lt, neg_ltn, nV_lt. rewrite nF_pF by auto. now apply (wf_link _ _ W).
Qed.

Lemma nV_link' e : e < n -> nF t e <> e -> nV t e = neg (nF t (nF t e)).
Proof. intros. rewrite nV_link by auto. now rewrite pF_tri. Qed.

Lemma nonboundary_nF e : e < n -> nF t e <> e -> nF t (nF t e) <> nF t e.
Proof. intros H B E. apply B. apply nF_inj; auto using nF_lt. Qed.

Lemma nonboundary_nF2 e : e < n -> nF t e <> e -> nF t (nF t e) <> e.
Proof.
  intros H B E. pose proof (wf_triangle _ _ W e H) as T. rewrite E in T. auto.
Qed.

Lemma nonboundary_pF e : e < n -> nF t e <> e -> nF t (pF t e) <> pF t e.
Proof. intros H B E. rewrite nF_pF in E by auto. apply B. rewrite E at 1. now apply nF_pF. Qed.

(** [-V] maps boundary half edges to boundary half edges. *)
Lemma boundary_nV e : e < n -> nF t e = e -> nF t (neg (nV t e)) = neg (nV t e).
Proof.
  intros H B. set (y := neg (nV t e)).
  assert (Hy : y < n) by (apply neg_ltn, nV_lt; auto).
  destruct (Nat.eq_dec (nF t y) y) as [|N]; auto. exfalso.
  (* the half edge x = nF y is nonboundary with -V x = y *)
  pose proof (nonboundary_nF y Hy N) as Nx. pose proof (nV_link (nF t y) (nF_lt _ Hy) Nx) as L.
  rewrite pF_nF in L by auto. unfold y in L. rewrite neg_neg in L.
  apply nV_inj in L; auto using nF_lt.
  fold y in L. apply Nx. now rewrite L.
Qed.
End wf.

(** ** The constructor *)

Lemma mem_list_In e l : mem_list e l = true <-> In e l.
Proof.
  unfold mem_list. rewrite existsb_exists. split.
  - intros (x & I & E). apply Nat.eqb_eq in E. now subst.
  - intros I. exists e. split; auto. apply Nat.eqb_refl.
Qed.

Lemma face_pairs_Ok n V bnd : wfp n V ->
  face_pairs V bnd = Ok (map (fun e => if mem_list e bnd then (e, e) else (neg (fw V e), e)) (fwd V)).
Proof.
  intros W. unfold face_pairs, pdomain. apply omap_map. intros e He.
  destruct (mem_list e bnd); auto. rewrite (papp_Ok n); auto. apply W. now apply (fwd_In _ _ W).
Qed.

Lemma check_triangles_Ok n F : wfp n F -> forall es, (forall e, In e es -> e < n) ->
  (check_triangles F es = Ok tt <-> forall e, In e es -> fw F (fw F (fw F e)) = e).
Proof.
  intros W. induction es as [|e r IH]; intros H.
  - cbn. split; auto. intros _ e [].
  - cbn [check_triangles]. assert (He : e < n) by (apply H; cbn; auto).
    assert (Hr : forall e, In e r -> e < n) by (intros; apply H; cbn; auto).
    pose proof (fw_lt _ _ W e He) as H1. pose proof (fw_lt _ _ W _ H1) as H2.
    rewrite (papp_Ok n) by (auto; apply W). cbn [bind].
    destruct (Nat.eqb_spec (fw F e) e) as [E|E].
    + rewrite IH by auto. split.
      * intros A x [<-|I]; auto. now rewrite !E.
      * intros A x I. apply A. cbn; auto.
    + rewrite (papp_Ok n) by (auto; apply W). cbn [bind].
      rewrite (papp_Ok n) by (auto; apply W). cbn [bind].
      destruct (Nat.eqb_spec (fw F (fw F (fw F e))) e) as [E'|E'].
      * rewrite IH by auto. split.
        -- intros A x [<-|I]; auto.
        -- intros A x I. apply A. cbn; auto.
      * split; [discriminate|]. intros A. exfalso. apply E', A. cbn; auto.
Qed.

Lemma same_iter_trans (f : nat -> nat) x y z : (exists k, Nat.iter k f x = y) -> (exists k, Nat.iter k f y = z) -> exists k, Nat.iter k f x = z.
Proof. intros (i & <-) (j & <-). exists (j + i). now rewrite iter_add. Qed.

Lemma same_iter_sym n f g x y : bijection n f g -> x < n -> (exists k, Nat.iter k f x = y) -> exists k, Nat.iter k f y = x.
Proof.
  intros B H (i & <-). destruct (exists_return n f g x B H) as (m & Hm & E).
  assert (G : forall q, Nat.iter (q * m) f x = x).
  { induction q; auto. cbn [Nat.mul]. rewrite iter_add, IHq. auto. }
  exists (i * m - i). rewrite <- iter_add. replace (i * m - i + i) with (i * m) by nia. apply G.
Qed.

Lemma reset_vertexes_Ok n V F : wfp n V ->
  exists vs, reset_vertexes V = Ok vs /\ vertices_correct n (mkTri V F vs).
Proof.
  intros W. pose proof W as (_ & _ & B). destruct (pcycles_Ok n V W) as (cs & E & O & P).
  unfold reset_vertexes. rewrite E. cbn. eexists. split; eauto.
  assert (C : forall i x, i < length cs -> (scontains (nth i (map sof_list cs) []) x = true <-> In x (nth i cs []))).
  { intros i x Hi. rewrite contains_mem. change (@nil bool) with (sof_list []). rewrite map_nth.
    unfold sof_list. rewrite mem_of_list. destruct (in_dec Nat.eq_dec x (nth i cs [])) as [I|I].
    - split; auto.
    - cbn. unfold mem, sempty_set. split; [destruct x; discriminate|tauto]. }
  rewrite Forall_forall in O.
  assert (N : NoDup (concat cs)) by (eapply Permutation_NoDup; [apply Permutation_sym, P|apply seq_NoDup]).
  unfold vertices_correct. cbn [tverts]. rewrite map_length. split; [|split; [|split]].
  - intros x Hx. assert (I : In x (concat cs)).
    { eapply Permutation_in; [apply Permutation_sym, P|]. apply in_seq. lia. }
    apply in_concat in I as (c & Hc & I). apply In_nth with (d := []) in Hc as (i & Hi & <-).
    exists i. split; auto. now apply C.
  - intros i Hi. destruct (O (nth i cs []) (nth_In _ _ Hi)) as (x & k & T1 & T2 & T3 & T4).
    exists x. split; auto. apply C; auto. rewrite T4. apply orbit_list_In. exists 0. split; auto. apply T3.
  - intros i j x Hi Hj X1 X2. apply C in X1, X2; auto.
    revert i j Hi Hj X1 X2. clear - N. induction cs as [|c r IH]; cbn; intros i j Hi Hj X1 X2; [lia|].
    apply NoDup_app_inv in N as (N1 & N2 & N3).
    destruct i, j; auto.
    + exfalso. apply (N3 x X1). apply in_concat. exists (nth j r []). split; auto. apply nth_In. lia.
    + exfalso. apply (N3 x X2). apply in_concat. exists (nth i r []). split; auto. apply nth_In. lia.
    + f_equal. apply IH; auto; lia.
  - intros i x y Hi X. apply C in X; auto. rewrite C by auto.
    destruct (O (nth i cs []) (nth_In _ _ Hi)) as (s & k & T1 & T2 & T3 & T4).
    rewrite T4 in *. unfold same_vertex. change (nV (mkTri V F (map sof_list cs))) with (fw V).
    assert (Hx : x < n). { apply orbit_list_In in X as (a & _ & <-). eapply iter_lt; eauto. }
    split.
    + intros Y. assert (Hy : y < n). { apply orbit_list_In in Y as (a & _ & <-). eapply iter_lt; eauto. }
      split; auto. split; auto.
      apply orbit_list_In in X as (a & _ & X). apply orbit_list_In in Y as (b & _ & Y).
      apply same_iter_trans with s; eauto. apply (same_iter_sym n (fw V) (bw V)); eauto.
    + intros (_ & _ & (a & <-)). now apply orbit_list_iter.
Qed.

Lemma make_tri_spec n V bnd t : wfp n V -> make_tri V bnd = Ok t ->
  well_formed n t /\ tV t = V /\
  (forall e, e < n -> In e bnd -> nF t e = e) /\
  (forall e, e < n -> ~ In e bnd -> nF t (neg (nV t e)) = e).
Proof.
  intros W H. unfold make_tri in H. rewrite (face_pairs_Ok n) in H by auto. cbn [bind] in H.
  apply bind_Ok in H as (F & HF & H).
  unfold psize in H. rewrite (fwd_len _ _ W) in H. destruct (Nat.eqb_spec (n mod 2) 0) as [E|]; [|discriminate].
  apply bind_Ok in H as (vs & Hv & H). apply bind_Ok in H as ([] & Hc & H). inv H.
  apply perm_of_pairs_Ok in HF as (WF & _ & _ & V').
  rewrite map_length, (fwd_len _ _ W) in WF.
  rewrite (check_triangles_Ok n) in Hc; [|auto|intros e He; now apply (fwd_In _ _ WF)].
  assert (T : forall e, e < n -> fw F (fw F (fw F e)) = e).
  { intros e He. apply Hc. now apply (fwd_In _ _ WF). }
  assert (L1 : forall e, e < n -> In e bnd -> fw F e = e).
  { intros e He I. apply V'. apply in_map_iff. exists e. split.
    - apply mem_list_In in I. now rewrite I.
    - now apply (fwd_In _ _ W). }
  assert (L2 : forall e, e < n -> ~ In e bnd -> fw F (neg (fw V e)) = e).
  { intros e He I. apply V'. apply in_map_iff. exists e. split.
    - rewrite <- mem_list_In in I. apply not_true_is_false in I. now rewrite I.
    - now apply (fwd_In _ _ W). }
  destruct (reset_vertexes_Ok n V F W) as (vs' & Hv' & VC). rewrite Hv in Hv'. inv Hv'.
  split; [constructor; auto|split; auto].
  - exists (n / 2). pose proof (Nat.div_mod n 2). lia.
  - now apply wfp_is_perm.
  - now apply wfp_is_perm.
  - intros e He N. cbn. apply L2; auto. intros I. apply N. now apply L1.
Qed.

Lemma NoDup_map_inj {A B} (f : A -> B) l :
  (forall x y, In x l -> In y l -> f x = f y -> x = y) -> NoDup l -> NoDup (map f l).
Proof.
  induction l as [|a l IH]; cbn; intros H N; constructor; apply NoDup_cons_iff in N as [N1 N2].
  - rewrite in_map_iff. intros (b & E & Hb). assert (b = a) by (apply H; auto). now subst.
  - apply IH; auto.
Qed.

Lemma map_perm_seq n f g p : bijection n f g -> wfp n p -> Permutation (map f (fwd p)) (seq 0 n).
Proof.
  intros B W. apply NoDup_Permutation_bis.
  - apply NoDup_map_inj; [|eapply fwd_NoDup; eauto]. intros x y Hx Hy.
    apply (bijection_inj n f g B); now apply (fwd_In _ _ W).
  - now rewrite map_length, seq_length, (fwd_len _ _ W).
  - intros y Hy. apply in_map_iff in Hy as (x & <- & Hx). apply (fwd_In _ _ W) in Hx.
    apply in_seq. destruct B as [B _]. destruct (B x Hx). lia.
Qed.

Lemma make_tri_complete n V bnd f g : wfp n V -> n mod 2 = 0 -> bijection n f g ->
  (forall e, e < n -> In e bnd -> f e = e) ->
  (forall e, e < n -> ~ In e bnd -> f (neg (fw V e)) = e) ->
  (forall e, e < n -> f (f (f e)) = e) ->
  exists t, make_tri V bnd = Ok t /\ well_formed n t /\ tV t = V /\ forall e, e < n -> nF t e = f e.
Proof.
  intros W E B H1 H2 H3. pose proof B as [B1 B2].
  assert (negl : forall x, x < n -> neg x < n).
  { intros x Hx. pose proof (Nat.div_mod n 2). replace n with (2 * (n / 2)) in * by lia. now apply neg_lt. }
  assert (X : exists t, make_tri V bnd = Ok t).
  { unfold make_tri. rewrite (face_pairs_Ok n) by auto. cbn [bind].
    set (ps := map _ _).
    assert (Lps : length ps = n) by (unfold ps; rewrite map_length; apply W).
    destruct (perm_of_pairs_complete ps) as (F & HF).
    - rewrite Lps. assert (Efst : map fst ps = map g (fwd V)).
      { unfold ps. rewrite map_map. apply map_ext_in. intros e He. apply (fwd_In _ _ W) in He.
        destruct (mem_list e bnd) eqn:M; cbn.
        - apply mem_list_In in M. pose proof (H1 e He M) as Q. rewrite <- Q at 2. symmetry. now apply B1.
        - assert (I : ~ In e bnd) by (rewrite <- mem_list_In; congruence).
          pose proof (H2 e He I) as Q. rewrite <- Q at 2. symmetry. apply B1. apply negl. now apply (fw_lt _ _ W). }
      rewrite Efst. eapply map_perm_seq; eauto. apply bijection_sym; eauto.
    - rewrite Lps. assert (Esnd : map snd ps = fwd V).
      { unfold ps. rewrite map_map. rewrite <- map_id. apply map_ext. intros e. destruct (mem_list e bnd); auto. }
      rewrite Esnd. rewrite <- (map_id (fwd V)). apply (map_perm_seq n _ (fun x => x)); auto. split; auto.
    - rewrite HF. cbn [bind]. unfold psize. rewrite (fwd_len _ _ W), E. cbn [Nat.eqb].
      destruct (reset_vertexes_Ok n V F W) as (vs & -> & _). cbn [bind].
      apply perm_of_pairs_Ok in HF as (WF & _ & _ & VF). rewrite Lps in WF.
      assert (EF : forall e, e < n -> fw F e = f e).
      { intros e He. destruct (B1 e He) as [K1 K2].
        destruct (mem_list (f e) bnd) eqn:M.
        - pose proof M as M'. apply mem_list_In in M'. pose proof (H1 _ K1 M') as Q.
          assert (f e = e). { apply (bijection_inj n f g B); auto. }
          rewrite H. apply VF. unfold ps. apply in_map_iff. exists e. rewrite H in M. rewrite M. split; auto.
          now apply (fwd_In _ _ W).
        - assert (I : ~ In (f e) bnd) by (rewrite <- mem_list_In; congruence).
          pose proof (H2 _ K1 I) as Q. apply VF. unfold ps. apply in_map_iff. exists (f e). rewrite M. split.
          + f_equal. apply (bijection_inj n f g B); auto. apply negl. now apply (fw_lt _ _ W).
          + now apply (fwd_In _ _ W). }
      assert (C : check_triangles F (pdomain F) = Ok tt).
      { apply (check_triangles_Ok n); auto.
        - intros e He. now apply (fwd_In _ _ WF).
        - intros e He. apply (fwd_In _ _ WF) in He. destruct (B1 e He) as [K1 _]. destruct (B1 _ K1) as [K2 _].
          rewrite (EF e), (EF (f e)), EF; auto. }
      rewrite C. cbn. eauto. }
  destruct X as (t & Ht). exists t. split; auto.
  destruct (make_tri_spec n V bnd t W Ht) as (Wt & EV & S1 & S2). split; auto. split; auto.
  intros e He. destruct (B1 e He) as [K1 K2].
  destruct (in_dec Nat.eq_dec (f e) bnd) as [I|I].
  - pose proof (H1 _ K1 I) as Q. assert (f e = e) by (apply (bijection_inj n f g B); auto).
    rewrite H in *. now apply S1.
  - pose proof (H2 _ K1 I) as Q. pose proof (S2 _ K1 I) as Q'. rewrite nV_fw, EV in Q'.
    assert (e = neg (fw V (f e))).
    { apply (bijection_inj n f g B); auto. apply negl. now apply (fw_lt _ _ W). }
    rewrite H at 1. auto.
Qed.

(** ** Flips *)

Lemma nodup6_intro (a b c d e f : nat) :
  (a <> b /\ a <> c /\ a <> d /\ a <> e /\ a <> f) -> (b <> c /\ b <> d /\ b <> e /\ b <> f) ->
  (c <> d /\ c <> e /\ c <> f) -> (d <> e /\ d <> f) -> e <> f -> NoDup [a; b; c; d; e; f].
Proof.
  intros. repeat (apply NoDup_cons; [cbn [In]; intuition congruence|]). apply NoDup_nil.
Qed.

Lemma nodup3_intro (a b c : nat) : a <> b -> a <> c -> b <> c -> NoDup [a; b; c].
Proof.
  intros. repeat (apply NoDup_cons; [cbn [In]; intuition congruence|]). apply NoDup_nil.
Qed.

Lemma flip_six n t e : well_formed n t -> flippable n t e ->
  let a := nF t e in let b := nF t a in let c := nF t (neg e) in let d := nF t c in
  NoDup [e; a; b; neg e; c; d] /\ a < n /\ b < n /\ c < n /\ d < n /\ neg e < n /\
  nF t b = e /\ nF t d = neg e.
Proof.
  intros W (He & N1 & N2 & N3 & N4) a b c d.
  assert (Hn : neg e < n) by (eapply neg_ltn; eauto).
  assert (Ha : a < n) by (eapply nF_lt; eauto). assert (Hb : b < n) by (eapply nF_lt; eauto).
  assert (Hc : c < n) by (eapply nF_lt; eauto). assert (Hd : d < n) by (eapply nF_lt; eauto).
  assert (Eb : nF t b = e) by (apply (wf_triangle _ _ W); auto).
  assert (Ed : nF t d = neg e) by (apply (wf_triangle _ _ W); auto).
  assert (I := nF_inj n t W).
  assert (Ne := neg_ne e).
  assert (ab : a <> b) by (intros E; apply N1; symmetry; apply I; auto).
  assert (eb : b <> e) by (intros E; rewrite E in Eb; auto).
  assert (cd : c <> d) by (intros E; apply N2; symmetry; apply I; auto).
  assert (ed : d <> neg e) by (intros E; rewrite E in Ed; auto).
  assert (ac : a <> c) by (intros E; apply Ne; symmetry; apply I; auto).
  assert (bc : b <> c) by (intros E; apply N3; apply I; auto).
  assert (bd : b <> d) by (intros E; apply ac; apply I; auto).
  assert (ec : e <> c) by (intros E; apply N4; transitivity (nF t d); [unfold d; now rewrite <- E|exact Ed]).
  assert (ad : a <> d) by (intros E; apply ec; apply I; auto).
  assert (edd : e <> d) by (intros E; rewrite <- E in Ed; contradiction).
  split; [|repeat split; auto].
  change (a <> e) in N1. change (c <> neg e) in N2. change (a <> neg e) in N3. change (b <> neg e) in N4.
  clearbody a b c d. apply nodup6_intro; intuition congruence.
Qed.

Definition flip_F (t : tri) (e i : nat) : nat :=
  let a := nF t e in let b := nF t a in let c := nF t (neg e) in let d := nF t c in
  if i =? a then neg e else if i =? neg e then d else if i =? d then a
  else if i =? c then e else if i =? e then b else if i =? b then c else nF t i.

Definition flip_V (t : tri) (e i : nat) : nat :=
  let a := nF t e in let b := nF t a in let c := nF t (neg e) in let d := nF t c in
  if i =? a then neg d else if i =? neg e then neg a else if i =? d then e
  else if i =? c then neg b else if i =? e then neg c else if i =? b then neg e else nV t i.

Ltac eqbs := repeat match goal with
  | |- context [?x =? ?y] => destruct (Nat.eqb_spec x y)
  end.

Lemma cyclic3 x y z i : cyclic [x; y; z] i = if i =? x then y else if i =? y then z else if i =? z then x else i.
Proof. reflexivity. Qed.

Lemma nodup6 (a b c d e f : nat) : NoDup [a; b; c; d; e; f] ->
  (a <> b /\ a <> c /\ a <> d /\ a <> e /\ a <> f) /\ (b <> c /\ b <> d /\ b <> e /\ b <> f) /\
  (c <> d /\ c <> e /\ c <> f) /\ (d <> e /\ d <> f) /\ e <> f.
Proof.
  intros N. repeat match goal with H : NoDup (_ :: _) |- _ => apply NoDup_cons_iff in H as [? ?] end.
  cbn in *. intuition congruence.
Qed.

(** The permutations after a flip. *)
Lemma flip_perms n t e : well_formed n t -> flippable n t e ->
  let a := nF t e in let b := nF t a in let c := nF t (neg e) in let d := nF t c in
  exists V1 V2 F1 F2,
    rmul_cycle (tV t) [b; a; neg e] = Ok V1 /\ rmul_cycle V1 [d; c; e] = Ok V2 /\
    rmul_cycle (tF t) [a; d; e] = Ok F1 /\ rmul_cycle F1 [c; b; neg e] = Ok F2 /\
    wfp n V2 /\ wfp n F2 /\
    (forall i, i < n -> fw F2 i = flip_F t e i) /\ (forall i, i < n -> fw V2 i = flip_V t e i).
Proof.
  intros W Fl a b c d. destruct (flip_six n t e W Fl) as (ND & Ha & Hb & Hc & Hd & Hn & Eb & Ed).
  fold a b c d in ND, Ha, Hb, Hc, Hd, Eb, Ed. pose proof Fl as (He & Nb & Nbn & _).
  apply nodup6 in ND.
  assert (L3 : forall x y z, x < n -> y < n -> z < n -> forall u, In u [x; y; z] -> u < n) by (cbn; intuition congruence).
  assert (D3 : forall x y z : nat, x <> y -> x <> z -> y <> z -> NoDup [x; y; z]).
  { apply nodup3_intro. }
  destruct (rmul_cycle_Ok n (tV t) [b; a; neg e] (wfV _ _ W)) as (V1 & E1 & W1 & G1).
  { apply L3; auto. } { left. apply D3; intuition congruence. }
  destruct (rmul_cycle_Ok n V1 [d; c; e] W1) as (V2 & E2 & W2 & G2).
  { apply L3; auto. } { left. apply D3; intuition congruence. }
  destruct (rmul_cycle_Ok n (tF t) [a; d; e] (wfF _ _ W)) as (F1 & E3 & W3 & G3).
  { apply L3; auto. } { left. apply D3; intuition congruence. }
  destruct (rmul_cycle_Ok n F1 [c; b; neg e] W3) as (F2 & E4 & W4 & G4).
  { apply L3; auto. } { left. apply D3; intuition congruence. }
  exists V1, V2, F1, F2. repeat (split; [assumption|]).
  assert (Fa : nF t a = b) by reflexivity. assert (Fe : nF t e = a) by reflexivity.
  assert (Fc : nF t c = d) by reflexivity. assert (Fn : nF t (neg e) = c) by reflexivity.
  assert (lk : forall x, x < n -> nF t x <> x -> nV t x = neg (nF t (nF t x))) by (intros; eapply nV_link'; eauto).
  assert (Va : nV t a = neg e) by (rewrite lk; [congruence|auto|rewrite Fa; intuition congruence]).
  assert (Vb : nV t b = neg a) by (rewrite lk; [congruence|auto|rewrite Eb; intuition congruence]).
  assert (Ve : nV t e = neg b) by (rewrite lk; [congruence|auto|rewrite Fe; intuition congruence]).
  assert (Vc : nV t c = neg (neg e)) by (rewrite lk; [congruence|auto|rewrite Fc; intuition congruence]).
  assert (Vd : nV t d = neg c) by (rewrite lk; [congruence|auto|rewrite Ed; intuition congruence]).
  assert (Vn : nV t (neg e) = neg d) by (rewrite lk; [congruence|auto|rewrite Fn; intuition congruence]).
  rewrite neg_neg in Vc.
  assert (G3' : forall j, j < n -> fw F1 j = nF t (cyclic [a; d; e] j)) by (intros; rewrite G3; auto).
  assert (G1' : forall j, j < n -> fw V1 j = nV t (cyclic [b; a; neg e] j)) by (intros; rewrite G1; auto).
  destruct ND as ((? & ? & ? & ? & ?) & (? & ? & ? & ?) & (? & ? & ?) & (? & ?) & ?).
  split; intros i Hi; [rewrite G4 by auto; unfold flip_F|rewrite G2 by auto; unfold flip_V];
    fold a b c d; clear G1 G2 G3 G4 E1 E2 E3 E4 L3 D3 lk;
    clearbody a b c d; rewrite cyclic3.
  - destruct (Nat.eqb_spec i c); [|destruct (Nat.eqb_spec i b); [|destruct (Nat.eqb_spec i (neg e))]];
      rewrite G3', cyclic3 by congruence; eqbs; congruence.
  - destruct (Nat.eqb_spec i d); [|destruct (Nat.eqb_spec i c); [|destruct (Nat.eqb_spec i e)]];
      rewrite G1', cyclic3 by congruence; eqbs; congruence.
Qed.
