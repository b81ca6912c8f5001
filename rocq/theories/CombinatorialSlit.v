(** * slit *)
From Coq Require Import List Arith Lia Bool Permutation.
From Verif Require Import Base HalfEdge HalfEdgeFacts Perm PermSpec PermFacts PermCycles PermLemmas
  IndexedSet IndexedSetSpec IndexedSetFacts Combinatorial CombinatorialSpec CombinatorialFacts CombinatorialFlip
  CombinatorialHistory CombinatorialOps CombinatorialInsert.
Import ListNotations.

(** ** Maps as functions *)
Definition repD (P : nat -> Prop) (f : nat -> nat) (m : list (nat * nat)) : Prop :=
  NoDup (map fst m) /\ forall k v, In (k, v) m <-> P k /\ v = f k.

Lemma map_set_keys m k v x : In x (map fst (map_set m k v)) <-> x = k \/ In x (map fst m).
Proof.
  induction m as [|[k' v'] r IH]; cbn.
  - intuition.
  - destruct (Nat.eqb_spec k' k) as [->|N]; cbn.
    + intuition.
    + rewrite IH. intuition.
Qed.

Lemma map_set_NoDup m k v : NoDup (map fst m) -> NoDup (map fst (map_set m k v)).
Proof.
  induction m as [|[k' v'] r IH]; cbn; intros N.
  - constructor; auto.
  - apply NoDup_cons_iff in N as [N1 N2]. destruct (Nat.eqb_spec k' k) as [->|Ne]; cbn.
    + constructor; auto.
    + constructor; auto. rewrite map_set_keys. intros [E|I]; auto.
Qed.

Lemma map_set_In m k v x y : NoDup (map fst m) ->
  (In (x, y) (map_set m k v) <-> x = k /\ y = v \/ x <> k /\ In (x, y) m).
Proof.
  induction m as [|[k' v'] r IH]; cbn; intros N.
  - split.
    + intros [E|[]]. inv E. auto.
    + intros [[-> ->]|[_ []]]. auto.
  - apply NoDup_cons_iff in N as [N1 N2]. destruct (Nat.eqb_spec k' k) as [->|Ne]; cbn.
    + split.
      * intros [E|I]; [inv E; auto|]. right. split; auto. intros ->. apply N1. now apply (in_map fst) in I.
      * intros [[-> ->]|[H [E|I]]]; auto. inv E. congruence.
    + rewrite IH by auto. split.
      * intros [E|H]; [inv E; auto|]. tauto.
      * intros [H|[H [E|I]]]; auto.
Qed.

Lemma repD_set P f m k : repD P f m -> repD (fun x => x = k \/ P x) f (map_set m k (f k)).
Proof.
  intros [N H]. split; [now apply map_set_NoDup|]. intros x y. rewrite map_set_In by auto. rewrite H.
  destruct (Nat.eq_dec x k) as [->|]; intuition (subst; auto).
Qed.

Lemma repD_upd P f m k v : repD P f m -> P k -> repD P (fun x => if x =? k then v else f x) (map_set m k v).
Proof.
  intros [N H] Pk. split; [now apply map_set_NoDup|]. intros x y. rewrite map_set_In by auto. rewrite H.
  destruct (Nat.eqb_spec x k) as [->|]; intuition (subst; auto).
Qed.

Lemma repD_ext P Q f g m : (forall x, P x <-> Q x) -> (forall x, Q x -> f x = g x) -> repD P f m -> repD Q g m.
Proof.
  intros HP E [N H]. split; auto. intros x y. rewrite H, HP. split; intros [A ->]; split; auto. symmetry. auto.
Qed.

Lemma repD_keys P f m x : repD P f m -> (In x (map fst m) <-> P x).
Proof.
  intros [N H]. rewrite in_map_iff. split.
  - intros ([k v] & <- & I). apply H in I. apply I.
  - intros Px. exists (x, f x). split; auto. apply H. auto.
Qed.

Lemma rep_perm N f m : repD (fun x => x < N) f m -> (forall x, x < N -> f x < N) ->
  (forall x y, x < N -> y < N -> f x = f y -> x = y) ->
  exists V, perm_of_pairs m = Ok V /\ wfp N V /\ forall x, x < N -> fw V x = f x.
Proof.
  intros R L I. pose proof R as [ND H].
  assert (P1 : Permutation (map fst m) (seq 0 N)).
  { apply NoDup_Permutation; auto using seq_NoDup. intros x. pose proof (repD_keys _ _ _ x R) as K. cbv beta in K. rewrite K, in_seq. lia. }
  assert (Lm : length m = N). { rewrite <- (map_length fst), (Permutation_length P1). apply seq_length. }
  assert (Esnd : map snd m = map f (map fst m)).
  { rewrite map_map. apply map_ext_in. intros [k v] Hm. apply H in Hm. apply Hm. }
  assert (P2 : Permutation (map snd m) (seq 0 N)).
  { rewrite Esnd. apply NoDup_Permutation_bis.
    - apply NoDup_map_inj; auto. intros x y Hx Hy E. apply (repD_keys _ _ _ _ R) in Hx, Hy. auto.
    - now rewrite !map_length, seq_length, Lm.
    - intros y Hy. apply in_map_iff in Hy as (x & <- & Hx). apply (repD_keys _ _ _ _ R) in Hx. cbv beta in Hx.
      apply in_seq. specialize (L x Hx). lia. }
  destruct (perm_of_pairs_complete m) as (V & HV); try (rewrite Lm; auto).
  exists V. split; auto. apply perm_of_pairs_Ok in HV as (WV & _ & _ & E). rewrite Lm in WV. split; auto.
  intros x Hx. apply E. apply H. auto.
Qed.

(** ** Finding the boundary *)

Lemma find_boundary_spec n t e k : well_formed n t -> e < n -> period (nV t) e k ->
  forall fuel j, 1 <= j <= k -> k - j < fuel ->
  exists r, find_boundary fuel t e (Nat.iter j (nV t) e) = Ok r /\
    match r with
    | Some b => exists i, j <= i < k /\ b = Nat.iter i (nV t) e /\ nF t b = b /\
                  forall l, j <= l < i -> nF t (Nat.iter l (nV t) e) <> Nat.iter l (nV t) e
    | None => forall i, j <= i < k -> nF t (Nat.iter i (nV t) e) <> Nat.iter i (nV t) e
    end.
Proof.
  intros W He (P0 & P1 & P2). destruct (wfV _ _ W) as (_ & _ & B).
  induction fuel as [|fuel IH]; intros j Hj Hf; [lia|]. cbn [find_boundary].
  destruct (Nat.eq_dec j k) as [->|Nj].
  - change (Nat.iter k (nV t) e = e) in P1. rewrite P1, Nat.eqb_refl. exists None. split; auto. intros i Hi. lia.
  - destruct (Nat.eqb_spec (Nat.iter j (nV t) e) e) as [E|_]; [exfalso; apply (P2 j); auto; lia|].
    assert (Hx : Nat.iter j (nV t) e < n) by (eapply iter_lt; eauto).
    unfold boundary. rewrite (papp_Ok n) by (auto; apply (fwd_len _ _ (wfF _ _ W))). cbn [bind].
    change (fw (tF t)) with (nF t). destruct (Nat.eqb_spec (nF t (Nat.iter j (nV t) e)) (Nat.iter j (nV t) e)) as [E|E].
    + eexists. split; [reflexivity|]. exists j. split; [lia|]. split; auto. split; auto. intros l Hl. lia.
    + unfold nextAtVertex. rewrite (papp_Ok n) by (auto; apply (fwd_len _ _ (wfV _ _ W))). cbn [bind].
      change (fw (tV t) (Nat.iter j (nV t) e)) with (Nat.iter (S j) (nV t) e).
      destruct (IH (S j)) as (r & Er & Hr); [lia|lia|]. exists r. split; auto.
      destruct r as [b|].
      * destruct Hr as (i & Hi & Eb & Bb & Hl). exists i. split; [lia|]. split; auto. split; auto.
        intros l Hl'. destruct (Nat.eq_dec l j) as [->|]; auto. apply Hl. lia.
      * intros i Hi. destruct (Nat.eq_dec i j) as [->|]; auto. apply Hr. lia.
Qed.

Lemma split_vertex_Ok n t e target other m : well_formed n t -> e < n -> nF t e <> e ->
  (exists b, split_vertex t e target other m = Ok (map_set (map_set m b target) other (nV t b)) /\ b < n /\ first_boundary t e b) \/
  (split_vertex t e target other m = Ok m /\ forall b, ~ first_boundary t e b).
Proof.
  intros W He NB. destruct (wfV _ _ W) as (_ & _ & B).
  destruct (exists_period n (nV t) (bw (tV t)) e B He) as (k & Lk & P).
  destruct (find_boundary_spec n t e k W He P (tsize t) 1) as (r & Er & Hr).
  { destruct P; lia. } { rewrite (wf_size n t W). destruct P. lia. }
  unfold split_vertex, nextAtVertex. rewrite (papp_Ok n) by (auto; apply (fwd_len _ _ (wfV _ _ W))). cbn [bind].
  change (fw (tV t) e) with (Nat.iter 1 (nV t) e). rewrite Er. cbn [bind].
  destruct r as [b|].
  - left. destruct Hr as (i & Hi & Eb & Bb & Hl). exists b.
    assert (Hb : b < n) by (rewrite Eb; eapply iter_lt; eauto).
    rewrite (papp_Ok n) by (auto; apply (fwd_len _ _ (wfV _ _ W))). cbn [bind].
    split; auto. split; auto. exists i. split; auto. split; auto. intros j Hj.
    destruct j; auto. apply Hl. lia.
  - right. split; auto. intros b (i & Ei & Bb & Hl). destruct P as (P0 & P1 & P2).
    assert (Q : forall j, nF t (Nat.iter j (nV t) e) <> Nat.iter j (nV t) e).
    { intros j. induction j as [j IH] using lt_wf_ind. destruct (le_lt_dec k j) as [Hk|Hk].
      - replace j with ((j - k) + k) by lia. rewrite iter_add, P1. apply IH. lia.
      - destruct j; auto. apply Hr. lia. }
    apply (Q i). now rewrite Ei.
Qed.

(** ** The loop *)

Definition slitV (V : nat -> nat) (e h n x : nat) : nat :=
  if x =? e then n else if x =? n then V e else if x =? h then n + 1 else if x =? n + 1 then neg e else V x.
Definition slitF (F : nat -> nat) (e g n x : nat) : nat :=
  if x =? e then e else if x =? n + 1 then n + 1 else if x =? n then F e else if x =? g then n else F x.

Lemma slitV_spec V e h n : e < n -> h < n -> e <> h ->
  slitV V e h n e = n /\ slitV V e h n n = V e /\ slitV V e h n h = n + 1 /\ slitV V e h n (n + 1) = neg e /\
  forall x, x < n -> x <> e -> x <> h -> slitV V e h n x = V x.
Proof. intros. unfold slitV. repeat split; intros; eqbl. Qed.

Lemma slitF_spec F e g n : e < n -> g < n -> e <> g ->
  slitF F e g n e = e /\ slitF F e g n (n + 1) = n + 1 /\ slitF F e g n n = F e /\ slitF F e g n g = n /\
  forall x, x < n -> x <> e -> x <> g -> slitF F e g n x = F x.
Proof. intros. unfold slitF. repeat split; intros; eqbl. Qed.

Lemma slit_fill_Ok n t e h : well_formed n t -> e < n -> h < n -> e <> h -> nV t h = neg e -> neg n = n + 1 ->
  forall hs done m, (forall x, In x hs -> x < n) ->
  repD (fun x => In x done \/ x = n /\ In e done \/ x = n + 1 /\ In h done) (slitV (nV t) e h n) m ->
  exists m', slit_fill t e n hs m = Ok m' /\
    repD (fun x => In x (hs ++ done) \/ x = n /\ In e (hs ++ done) \/ x = n + 1 /\ In h (hs ++ done)) (slitV (nV t) e h n) m'.
Proof.
  intros W He Hh eh Vh Nn. destruct (slitV_spec (nV t) e h n He Hh eh) as (S1 & S2 & S3 & S4 & SO).
  induction hs as [|x r IH]; intros done m L R.
  - exists m. split; auto.
  - cbn [slit_fill]. assert (Hx : x < n) by (apply L; cbn; auto). unfold nextAtVertex.
    rewrite (papp_Ok n) by (auto; apply (fwd_len _ _ (wfV _ _ W))). cbn [bind]. change (fw (tV t)) with (nV t).
    set (m1 := if x =? e then _ else _).
    assert (R1 : repD (fun y => In y (x :: done) \/ y = n /\ In e (x :: done) \/ y = n + 1 /\ In h (x :: done)) (slitV (nV t) e h n) m1).
    { unfold m1. destruct (Nat.eqb_spec x e) as [->|Ne].
      - assert (Q := repD_set _ _ _ n (repD_set _ _ _ e R)).
        rewrite S1, S2 in Q. eapply repD_ext; [| |exact Q]; auto. intros y. cbn. intuition congruence.
      - destruct (Nat.eqb_spec (nV t x) (neg e)) as [E|NE].
        + assert (x = h) by (apply (nV_inj n t W); auto; congruence). subst x.
          rewrite Nn. assert (Q := repD_set _ _ _ (n + 1) (repD_set _ _ _ h R)). rewrite S3, S4 in Q.
          eapply repD_ext; [| |exact Q]; auto. intros y. cbn. intuition congruence.
        + assert (Q := repD_set _ _ _ x R). assert (x <> h) by congruence. rewrite SO in Q by auto.
          eapply repD_ext; [| |exact Q]; auto. intros y. cbn. intuition congruence. }
    destruct (IH (x :: done) m1) as (m' & E & R'); auto. { intros y Hy. apply L. cbn; auto. }
    exists m'. split; auto. eapply repD_ext; [| |exact R']; auto. intros y. cbn. rewrite !in_app_iff. cbn. intuition.
Qed.

(** ** slit *)

Lemma first_boundary_lt n t e b : well_formed n t -> e < n -> first_boundary t e b -> b < n /\ nF t b = b.
Proof.
  intros W He (k & <- & B & _). split; auto. destruct (wfV _ _ W) as (_ & _ & BV). eapply iter_lt; eauto.
Qed.

Definition swapped (f : nat -> nat) (x y : nat) (z : nat) : nat := f (exchange x y z).

Lemma exchange_inj a b x y : exchange a b x = exchange a b y -> x = y.
Proof.
  unfold exchange. destruct (Nat.eqb_spec x a), (Nat.eqb_spec y a), (Nat.eqb_spec x b), (Nat.eqb_spec y b); congruence.
Qed.

Lemma exchange_lt a b N x : a < N -> b < N -> x < N -> exchange a b x < N.
Proof. unfold exchange. intros. destruct (x =? a), (x =? b); auto. Qed.

Lemma swap_rep N f m k1 k2 v1 v2 : repD (fun x => x < N) f m -> k1 < N -> k2 < N -> v1 = f k2 -> v2 = f k1 ->
  repD (fun x => x < N) (swapped f k1 k2) (map_set (map_set m k1 v1) k2 v2).
Proof.
  intros R H1 H2 -> ->. assert (Q := repD_upd _ _ _ k2 (f k1) (repD_upd _ _ _ k1 (f k2) R H1) H2).
  eapply repD_ext; [| |exact Q]; [tauto|]. intros x Hx. cbv beta. unfold swapped, exchange.
  destruct (Nat.eqb_spec x k2), (Nat.eqb_spec x k1); subst; auto.
Qed.

Lemma slit_Ok n t e : well_formed n t -> e < n -> nF t e <> e -> nF t (neg e) <> neg e ->
  (forall b, first_boundary t e b -> first_boundary t (neg e) b -> False) ->
  exists t', slit t e = Ok t' /\ well_formed (n + 2) t' /\ slit_faces n t t' e.
Proof.
  intros W He NB NBn NC. assert (NL := neg_ltn n t W). assert (Hn := NL e He).
  destruct (six_names t e) as (h & g & Fe & Fh).
  assert (Hh : h < n) by (rewrite <- Fe; apply (nF_lt n t W); auto).
  assert (Hg : g < n) by (rewrite <- Fh; apply (nF_lt n t W); auto).
  assert (Fg : nF t g = e) by (rewrite <- Fh, <- Fe; apply (wf_triangle _ _ W); auto).
  assert (eh : e <> h) by congruence.
  assert (NBh : nF t h <> h) by (intros E; apply eh; apply (nF_inj n t W); auto; congruence).
  assert (eg : e <> g) by (intros E; rewrite <- E in Fg; congruence).
  assert (hg : h <> g) by congruence.
  assert (Vh : nV t h = neg e). { rewrite (nV_link' n t W), Fh, Fg; auto. }
  assert (Ve : nV t e = neg g). { rewrite (nV_link' n t W), Fe, Fh; auto. }
  destruct (wf_even _ _ W) as (k & Hk).
  assert (D : 2 * (n / 2) = n) by (rewrite Hk, div2_even; auto).
  assert (Nn : neg n = n + 1) by (rewrite Hk, neg_even; lia).
  assert (Nn' : neg (n + 1) = n) by (rewrite <- Nn; apply neg_neg).
  unfold slit, boundary. assert (LF := fwd_len _ _ (wfF _ _ W)).
  rewrite !(papp_Ok n) by auto. cbn [bind]. change (fw (tF t)) with (nF t).
  destruct (Nat.eqb_spec (nF t e) e); [congruence|]. destruct (Nat.eqb_spec (nF t (neg e)) (neg e)); [congruence|].
  cbn [Datatypes.orb]. rewrite (wf_size n t W), D.
  destruct (slit_fill_Ok n t e h W He Hh eh Vh Nn (half_edges t) [] []) as (m0 & E0 & R0).
  { intros x Hx. now apply (half_edges_lt n t). }
  { split; [constructor|]. cbn. intuition. }
  rewrite E0. cbn [bind]. rewrite app_nil_r in R0.
  set (f0 := slitV (nV t) e h n) in *.
  assert (R0' : repD (fun x => x < n + 2) f0 m0).
  { eapply repD_ext; [| |exact R0]; auto. intros x. cbv beta.
    rewrite (half_edges_lt n t x W), (half_edges_lt n t e W), (half_edges_lt n t h W). lia. }
  clear R0 E0.
  destruct (slitV_spec (nV t) e h n He Hh eh) as (S1 & S2 & S3 & S4 & SO). fold f0 in S1, S2, S3, S4, SO.
  assert (Vlt := nV_lt n t W).
  assert (f0lt : forall x, x < n + 2 -> f0 x < n + 2).
  { intros x Hx. destruct (Nat.eq_dec x e) as [->|]; [lia|]. destruct (Nat.eq_dec x h) as [->|]; [lia|].
    destruct (Nat.eq_dec x n) as [->|]; [specialize (Vlt e He); lia|].
    destruct (Nat.eq_dec x (n + 1)) as [->|]; [lia|]. assert (Lx : x < n) by lia.
    rewrite SO by auto. specialize (Vlt x Lx). lia. }
  assert (f0inj : forall x y, x < n + 2 -> y < n + 2 -> f0 x = f0 y -> x = y).
  { assert (C : forall x, x < n + 2 -> x = e \/ x = h \/ x = n \/ x = n + 1 \/ (x < n /\ x <> e /\ x <> h)) by (intros; lia).
    assert (Vi := nV_inj n t W). pose proof (Vlt e He) as Le.
    assert (T : forall x, x < n -> x <> e -> x <> h -> f0 x < n /\ f0 x <> nV t e /\ f0 x <> neg e).
    { intros x Hx X1 X2. rewrite SO by auto. split; auto. split; intros E; [apply X1|apply X2]; apply Vi; auto. congruence. }
    assert (Vh' : nV t e <> neg e). { intros E. apply eh. apply Vi; auto. congruence. }
    intros x y Hx Hy E.
    destruct (C x Hx) as [->|[->|[->|[->|(X1 & X2 & X3)]]]]; destruct (C y Hy) as [->|[->|[->|[->|(Y1 & Y2 & Y3)]]]]; auto;
      rewrite ?S1, ?S2, ?S3, ?S4 in E; try (destruct (T x X1 X2 X3) as (T1 & T2 & T3)); try (destruct (T y Y1 Y2 Y3) as (T4 & T5 & T6));
      try lia; try (exfalso; congruence).
    rewrite !SO in E by auto. auto. }
  (* boundary half edges are not touched by the first loop *)
  assert (f0b : forall b, b < n -> nF t b = b -> f0 b = nV t b /\ b <> e /\ b <> h).
  { intros b Hb Bb. assert (b <> e) by congruence. assert (b <> h) by congruence. rewrite SO; auto. }
  (* after the first split *)
  assert (X1 : exists m1 f1, split_vertex t e n e m0 = Ok m1 /\ repD (fun x => x < n + 2) f1 m1 /\
     (forall x, x < n + 2 -> f1 x < n + 2) /\ (forall x y, x < n + 2 -> y < n + 2 -> f1 x = f1 y -> x = y) /\
     (forall x, x < n + 2 -> x <> e -> (x < n -> nF t x <> x) -> f1 x = f0 x) /\
     (forall b, b < n -> nF t b = b -> ~ first_boundary t e b -> f1 b = nV t b)).
  { destruct (split_vertex_Ok n t e n e m0 W He NB) as [(b & -> & Hb & Fb)|(-> & NoB)].
    - eexists. exists (swapped f0 b e). split; [reflexivity|].
      destruct (first_boundary_lt n t e b W He Fb) as (_ & Bb). destruct (f0b b Hb Bb) as (Q1 & Q2 & Q3).
      split; [apply swap_rep; auto; lia|]. split; [|split; [|split]].
      + intros x Hx. apply f0lt. apply exchange_lt; auto; lia.
      + intros x y Hx Hy E. apply f0inj in E; [|apply exchange_lt; auto; lia|apply exchange_lt; auto; lia].
        now apply exchange_inj in E.
      + intros x Hx Xe Xb. unfold swapped, exchange. destruct (Nat.eqb_spec x b) as [->|]; [exfalso; apply Xb; auto|].
        destruct (Nat.eqb_spec x e); [congruence|]. auto.
      + intros b' Hb' Bb' Nb'. unfold swapped, exchange. destruct (Nat.eqb_spec b' b) as [->|]; [contradiction|].
        destruct (f0b b' Hb' Bb') as (Q1' & Q2' & Q3'). destruct (Nat.eqb_spec b' e); [congruence|]. auto.
    - exists m0, f0. split; auto. split; auto. split; auto. split; auto. split; auto.
      intros b Hb Bb _. now apply f0b. }
  destruct X1 as (m1 & f1 & -> & R1 & f1lt & f1inj & f1o & f1b). cbn [bind]. rewrite Nn.
  assert (X2 : exists m2 f2, split_vertex t (neg e) (neg e) (n + 1) m1 = Ok m2 /\ repD (fun x => x < n + 2) f2 m2 /\
     (forall x, x < n + 2 -> f2 x < n + 2) /\ (forall x y, x < n + 2 -> y < n + 2 -> f2 x = f2 y -> x = y) /\
     (forall x, x < n + 2 -> x <> e -> x <> n + 1 -> (x < n -> nF t x <> x) -> f2 x = f0 x)).
  { destruct (split_vertex_Ok n t (neg e) (neg e) (n + 1) m1 W Hn NBn) as [(b & -> & Hb & Fb)|(-> & NoB)].
    - eexists. exists (swapped f1 b (n + 1)). split; [reflexivity|].
      destruct (first_boundary_lt n t (neg e) b W Hn Fb) as (_ & Bb).
      split.
      { apply swap_rep; auto; try lia.
        - rewrite f1o; lia.
        - symmetry. apply f1b; auto. intros Fb'. eapply NC; eauto. }
      split; [|split].
      + intros x Hx. apply f1lt. apply exchange_lt; auto; lia.
      + intros x y Hx Hy E. apply f1inj in E; [|apply exchange_lt; auto; lia|apply exchange_lt; auto; lia].
        now apply exchange_inj in E.
      + intros x Hx Xe Xn Xb. unfold swapped, exchange. destruct (Nat.eqb_spec x b) as [->|]; [exfalso; apply Xb; auto|].
        destruct (Nat.eqb_spec x (n + 1)); [congruence|]. auto.
    - exists m1, f1. split; auto. }
  destruct X2 as (m2 & f2 & -> & R2 & f2lt & f2inj & f2o). cbn [bind].
  destruct (rep_perm (n + 2) f2 m2 R2 f2lt f2inj) as (V & -> & WV & EV). cbn [bind].
  assert (DL : forall x, In x (pdomain V) <-> x < n + 2) by (intros; apply (fwd_In _ _ WV)).
  set (isb := fun x => if (x =? e) || (x =? n + 1) then true else if x =? n then false else nF t x =? x).
  rewrite (omap_map _ (fun x => (x, isb x))).
  2: { intros x Hx. apply DL in Hx. unfold isb. destruct ((x =? e) || (x =? n + 1)) eqn:Q; auto.
       apply orb_false_iff in Q as [Q1 Q2]. apply Nat.eqb_neq in Q1, Q2.
       destruct (Nat.eqb_spec x n); auto. rewrite (papp_Ok n) by (auto; lia). reflexivity. }
  cbn [bind]. set (bnd := map fst _).
  assert (Bd : forall x, x < n + 2 -> (In x bnd <-> isb x = true)).
  { intros x Hx. unfold bnd. rewrite in_map_iff. split.
    - intros ([y b] & <- & I). apply filter_In in I as [I Hb]. apply in_map_iff in I as (z & Ez & _). inv Ez. exact Hb.
    - intros B. exists (x, isb x). split; auto. apply filter_In. split; auto. apply in_map_iff. exists x. split; auto. now apply DL. }
  assert (isb_spec : forall x, x < n + 2 -> (isb x = true <-> x = e \/ x = n + 1 \/ (x < n /\ nF t x = x))).
  { intros x Hx. unfold isb. destruct (Nat.eqb_spec x e), (Nat.eqb_spec x (n + 1)); cbn [Datatypes.orb]; try (split; auto; fail).
    destruct (Nat.eqb_spec x n) as [->|].
    - split; [discriminate|]. lia.
    - rewrite Nat.eqb_eq. split; [|intros [Q|[Q|Q]]; tauto]. intros Q. right. right. split; auto. lia. }
  destruct (slitF_spec (nF t) e g n He Hg eg) as (U1 & U2 & U3 & U4 & UO).
  assert (Flt := nF_lt n t W).
  assert (C : forall x, x < n + 2 -> x = e \/ x = g \/ x = n \/ x = n + 1 \/ (x < n /\ x <> e /\ x <> g)) by (intros; lia).
  destruct (make_tri_complete (n + 2) V bnd (slitF (nF t) e g n)
     (fun x => slitF (nF t) e g n (slitF (nF t) e g n x))) as (t' & E & W' & EVt & EF).
  - auto.
  - replace (n + 2) with ((k + 1) * 2) by lia. apply Nat.mod_mul. lia.
  - apply bij_cube.
    + intros x Hx. destruct (C x Hx) as [->|[->|[->|[->|(X1 & X2 & X3)]]]]; rewrite ?U1, ?U2, ?U3, ?U4; try lia.
      rewrite UO by auto. specialize (Flt x X1). lia.
    + intros x Hx. destruct (C x Hx) as [->|[->|[->|[->|(X1 & X2 & X3)]]]].
      * now rewrite !U1.
      * rewrite U4, U3, Fe. rewrite UO; auto.
      * rewrite U3, Fe. rewrite (UO h), Fh; auto.
      * now rewrite !U2.
      * destruct (Nat.eq_dec x h) as [->|Xh].
        -- rewrite (UO h), Fh, U4, U3; auto.
        -- assert (A1 : nF t x <> e) by (intros Q; apply X3; apply (nF_inj n t W); auto; congruence).
           assert (A2 : nF t x <> g) by (intros Q; apply Xh; apply (nF_inj n t W); auto; congruence).
           assert (A3 : nF t x <> h) by (intros Q; apply X2; apply (nF_inj n t W); auto; congruence).
           pose proof (Flt x X1) as L1. pose proof (Flt _ L1) as L2.
           assert (A4 : nF t (nF t x) <> e) by (intros Q; apply A2; apply (nF_inj n t W); auto; congruence).
           assert (A5 : nF t (nF t x) <> g) by (intros Q; apply A3; apply (nF_inj n t W); auto; congruence).
           rewrite (UO x), (UO (nF t x)), UO by auto. apply W; auto.
  - intros x Hx I. apply Bd in I; auto. apply isb_spec in I; auto. destruct I as [->|[->|(Lx & Bx)]]; auto.
    rewrite UO; auto; congruence.
  - intros x Hx I. rewrite Bd, isb_spec in I by auto. rewrite EV by auto.
    assert (x <> e) by tauto. assert (x <> n + 1) by tauto. assert (NBx : x < n -> nF t x <> x) by tauto.
    rewrite f2o by auto. destruct (Nat.eq_dec x n) as [->|].
    { now rewrite S2, Ve, neg_neg, U4. }
    destruct (Nat.eq_dec x h) as [->|].
    { now rewrite S3, Nn', U3, Fe. }
    assert (Lx : x < n) by lia. rewrite SO by auto.
    pose proof (wf_link _ _ W x Lx (NBx Lx)) as Lk.
    assert (Ly : neg (nV t x) < n) by auto.
    rewrite UO; auto; intros Y; rewrite Y in Lk; congruence.
  - intros x Hx. destruct (C x Hx) as [->|[->|[->|[->|(X1 & X2 & X3)]]]].
      * now rewrite !U1.
      * rewrite U4, U3, Fe. rewrite UO; auto.
      * rewrite U3, Fe. rewrite (UO h), Fh; auto.
      * now rewrite !U2.
      * destruct (Nat.eq_dec x h) as [->|Xh].
        -- rewrite (UO h), Fh, U4, U3; auto.
        -- assert (A1 : nF t x <> e) by (intros Q; apply X3; apply (nF_inj n t W); auto; congruence).
           assert (A2 : nF t x <> g) by (intros Q; apply Xh; apply (nF_inj n t W); auto; congruence).
           assert (A3 : nF t x <> h) by (intros Q; apply X2; apply (nF_inj n t W); auto; congruence).
           pose proof (Flt x X1) as L1. pose proof (Flt _ L1) as L2.
           assert (A4 : nF t (nF t x) <> e) by (intros Q; apply A2; apply (nF_inj n t W); auto; congruence).
           assert (A5 : nF t (nF t x) <> g) by (intros Q; apply A3; apply (nF_inj n t W); auto; congruence).
           rewrite (UO x), (UO (nF t x)), UO by auto. apply W; auto.
  - exists t'. split; auto. split; auto. unfold slit_faces. rewrite Fe, Fh.
    rewrite !EF by lia. rewrite U1, U2, U3, U4, Fe, (UO h), Fh by auto.
    repeat (split; [reflexivity|]). intros i Hi I1 I2. rewrite EF by lia. auto.
Qed.
