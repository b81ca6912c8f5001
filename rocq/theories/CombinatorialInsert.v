(** * insertAt *)
From Coq Require Import List Arith Lia Bool Permutation.
From Verif Require Import Base HalfEdge HalfEdgeFacts Perm PermSpec PermFacts PermCycles PermLemmas
  IndexedSet IndexedSetSpec IndexedSetFacts Combinatorial CombinatorialSpec CombinatorialFacts CombinatorialFlip
  CombinatorialHistory CombinatorialOps.
Import ListNotations.

(** ** Inserting into cycles *)
Section insert.
Variable new : nat -> option nat.
Definition ins1 (x : nat) : list nat := match new x with Some y => [x; y] | None => [x] end.
Definition insc (c : list nat) : list nat := flat_map ins1 c.

Lemma hd_insc d c : hd d (insc c) = hd d c.
Proof. destruct c as [|x c]; cbn; auto. unfold ins1. destruct (new x); auto. Qed.

Lemma insc_match (d : nat) c : match insc c with [] => d | w :: _ => w end = match c with [] => d | w :: _ => w end.
Proof. destruct c as [|x c]; cbn; auto. unfold ins1. destruct (new x); auto. Qed.

Lemma succ_insc first c : NoDup c ->
  (forall x y, In x c -> new x = Some y -> ~ In y c) ->
  (forall x x' y, In x c -> In x' c -> new x = Some y -> new x' = Some y -> x = x') ->
  forall x, In x c ->
    succ_in first (insc c) x = match new x with Some y => y | None => succ_in first c x end /\
    forall y, new x = Some y -> succ_in first (insc c) y = succ_in first c x.
Proof.
  induction c as [|z r IH]; intros N H1 H2 x Hx; [contradiction|].
  apply NoDup_cons_iff in N as [N1 N2].
  assert (IH' : forall x, In x r ->
    succ_in first (insc r) x = match new x with Some y => y | None => succ_in first r x end /\
    forall y, new x = Some y -> succ_in first (insc r) y = succ_in first r x).
  { apply IH; auto.
    - intros u v Hu E I. apply (H1 u v); cbn; auto.
    - intros u u' v Hu Hu' E E'. apply (H2 u u' v); cbn; auto. }
  clear IH. cbn [insc flat_map]. fold (insc r). unfold ins1.
  destruct (new z) as [w|] eqn:Ez.
  - assert (Wz : w <> z) by (intros ->; apply (H1 z z); cbn; auto).
    assert (Wr : ~ In w r) by (intros I; apply (H1 z w); cbn; auto).
    destruct (Nat.eq_dec x z) as [->|Nx].
    + rewrite Ez. cbn [app succ_in]. rewrite Nat.eqb_refl. split; auto.
      intros y E. inv E. destruct (Nat.eqb_spec y z); [congruence|]. rewrite Nat.eqb_refl. apply insc_match.
    + destruct Hx as [->|Hx]; [congruence|]. destruct (IH' x Hx) as [A B].
      cbn [app succ_in]. destruct (Nat.eqb_spec x z); [congruence|].
      destruct (Nat.eqb_spec x w); [congruence|]. split; auto.
      intros y E. assert (y <> z) by (intros ->; apply (H1 x z); cbn; auto).
      assert (y <> w) by (intros ->; apply Nx; apply (H2 x z w); cbn; auto).
      destruct (Nat.eqb_spec y z); [congruence|]. destruct (Nat.eqb_spec y w); [congruence|]. auto.
  - destruct (Nat.eq_dec x z) as [->|Nx].
    + rewrite Ez. cbn [app succ_in]. rewrite Nat.eqb_refl. split; [apply insc_match|]. intros y E. congruence.
    + destruct Hx as [->|Hx]; [congruence|]. destruct (IH' x Hx) as [A B].
      cbn [app succ_in]. destruct (Nat.eqb_spec x z); [congruence|]. split; auto.
      intros y E. assert (y <> z) by (intros ->; apply (H1 x z); cbn; auto).
      destruct (Nat.eqb_spec y z); [congruence|]. auto.
Qed.

Lemma insc_In y c : In y (insc c) <-> In y c \/ exists x, In x c /\ new x = Some y.
Proof.
  unfold insc. rewrite in_flat_map. unfold ins1. split.
  - intros (x & Hx & I). destruct (new x) eqn:E; cbn in I; intuition (subst; eauto).
  - intros [I|(x & Hx & E)].
    + exists y. destruct (new y); cbn; auto.
    + exists x. rewrite E. cbn; auto.
Qed.

Lemma insc_NoDup c : NoDup c ->
  (forall x y, In x c -> new x = Some y -> ~ In y c) ->
  (forall x x' y, In x c -> In x' c -> new x = Some y -> new x' = Some y -> x = x') -> NoDup (insc c).
Proof.
  induction c as [|z r IH]; intros N H1 H2; [constructor|].
  apply NoDup_cons_iff in N as [N1 N2]. cbn [insc flat_map]. fold (insc r).
  assert (NR : NoDup (insc r)).
  { apply IH; auto.
    - intros u v Hu E I. apply (H1 u v); cbn; auto.
    - intros u u' v Hu Hu' E E'. apply (H2 u u' v); cbn; auto. }
  assert (Z : ~ In z (insc r)).
  { rewrite insc_In. intros [I|(x & Hx & E)]; auto. apply (H1 x z); cbn; auto. }
  unfold ins1. destruct (new z) as [w|] eqn:Ez; cbn [app].
  - constructor; [|constructor; auto].
    + intros [->|I]; auto. apply (H1 z z); cbn; auto.
    + rewrite insc_In. intros [I|(x & Hx & E)].
      * apply (H1 z w); cbn; auto.
      * assert (x = z) by (apply (H2 x z w); cbn; auto). subst. contradiction.
  - constructor; auto.
Qed.

Lemma concat_insc cs : concat (map insc cs) = insc (concat cs).
Proof. induction cs as [|c r IH]; cbn; auto. rewrite IH. unfold insc. now rewrite flat_map_app. Qed.
End insert.

Definition new_after (e f g a b c x : nat) : option nat :=
  if x =? e then Some (neg a) else if x =? f then Some (neg b) else if x =? g then Some (neg c) else None.

Lemma insert_after_insc e f g a b c l : insert_after e f g a b c l = insc (new_after e f g a b c) l.
Proof.
  induction l as [|x r IH]; cbn [insert_after insc flat_map]; auto. fold (insc (new_after e f g a b c) r).
  rewrite IH. unfold ins1, new_after. destruct (x =? e), (x =? f), (x =? g); reflexivity.
Qed.

Lemma bij_cube n f : (forall x, x < n -> f x < n) -> (forall x, x < n -> f (f (f x)) = x) -> bijection n f (fun x => f (f x)).
Proof. intros H1 H2. split; intros x Hx; split; auto. Qed.

(** The faces after inserting a vertex into the face [(e f g)]. *)
Definition insF (F : nat -> nat) (e f g n x : nat) : nat :=
  if x =? n then e else if x =? e then n + 3 else if x =? n + 3 then n
  else if x =? n + 2 then f else if x =? f then n + 5 else if x =? n + 5 then n + 2
  else if x =? n + 4 then g else if x =? g then n + 1 else if x =? n + 1 then n + 4
  else F x.

Definition insV (V : nat -> nat) (e f g n x : nat) : nat :=
  if x =? n then n + 2 else if x =? n + 2 then n + 4 else if x =? n + 4 then n
  else if x =? e then n + 1 else if x =? n + 1 then V e
  else if x =? f then n + 3 else if x =? n + 3 then V f
  else if x =? g then n + 5 else if x =? n + 5 then V g
  else V x.

Ltac eqbl := repeat match goal with
  | |- context [?x =? ?y] => destruct (Nat.eqb_spec x y); try lia
  end; try reflexivity.

Lemma insF_spec F e f g n : e < n -> f < n -> g < n -> e <> f -> e <> g -> f <> g ->
  insF F e f g n n = e /\ insF F e f g n e = n + 3 /\ insF F e f g n (n + 3) = n /\
  insF F e f g n (n + 2) = f /\ insF F e f g n f = n + 5 /\ insF F e f g n (n + 5) = n + 2 /\
  insF F e f g n (n + 4) = g /\ insF F e f g n g = n + 1 /\ insF F e f g n (n + 1) = n + 4 /\
  forall x, x < n -> x <> e -> x <> f -> x <> g -> insF F e f g n x = F x.
Proof. intros. unfold insF. repeat split; intros; eqbl. Qed.

Lemma insV_spec V e f g n : e < n -> f < n -> g < n -> e <> f -> e <> g -> f <> g ->
  insV V e f g n n = n + 2 /\ insV V e f g n (n + 2) = n + 4 /\ insV V e f g n (n + 4) = n /\
  insV V e f g n e = n + 1 /\ insV V e f g n (n + 1) = V e /\ insV V e f g n f = n + 3 /\
  insV V e f g n (n + 3) = V f /\ insV V e f g n g = n + 5 /\ insV V e f g n (n + 5) = V g /\
  forall x, x < n -> x <> e -> x <> f -> x <> g -> insV V e f g n x = V x.
Proof. intros. unfold insV. repeat split; intros; eqbl. Qed.

Lemma ins_cases n e f g x : x < n + 6 ->
  (x < n /\ x <> e /\ x <> f /\ x <> g) \/ x = e \/ x = f \/ x = g \/ x = n \/ x = n + 1 \/ x = n + 2 \/ x = n + 3 \/ x = n + 4 \/ x = n + 5.
Proof. lia. Qed.

Lemma insF_lt F e f g n : e < n -> f < n -> g < n -> (forall x, x < n -> F x < n) -> forall x, x < n + 6 -> insF F e f g n x < n + 6.
Proof.
  intros He Hf Hg H x Hx. unfold insF. destruct (lt_dec x n) as [L|L].
  - specialize (H x L). eqbl.
  - eqbl.
Qed.

Lemma insF_cube F e f g n : e < n -> f < n -> g < n -> e <> f -> e <> g -> f <> g ->
  F e = f -> F f = g -> F g = e -> (forall x, x < n -> F x < n) ->
  (forall x y, x < n -> y < n -> F x = F y -> x = y) -> (forall x, x < n -> F (F (F x)) = x) ->
  forall x, x < n + 6 -> insF F e f g n (insF F e f g n (insF F e f g n x)) = x.
Proof.
  intros He Hf Hg ef eg fg Fe Ff Fg L I C x Hx.
  destruct (insF_spec F e f g n He Hf Hg ef eg fg) as (I1 & I2 & I3 & I4 & I5 & I6 & I7 & I8 & I9 & IO).
  destruct (ins_cases n e f g x Hx) as [(Lx & X1 & X2 & X3)|[->|[->|[->|[->|[->|[->|[->|[->| ->]]]]]]]]]; try congruence.
  assert (S : forall y, y < n -> y <> e -> y <> f -> y <> g -> F y <> e /\ F y <> f /\ F y <> g).
  { intros y Hy Y1 Y2 Y3. repeat split; intros Q.
    - apply Y3. apply I; auto. congruence.
    - apply Y1. apply I; auto. congruence.
    - apply Y2. apply I; auto. congruence. }
  pose proof (L x Lx) as L1. pose proof (L _ L1) as L2.
  destruct (S x Lx X1 X2 X3) as (S1 & S2 & S3). destruct (S _ L1 S1 S2 S3) as (S4 & S5 & S6).
  rewrite (IO x) by auto. rewrite (IO (F x)) by auto. rewrite IO by auto. auto.
Qed.

Definition insert_F (t : tri) (e n x : nat) : nat := insF (nF t) e (nF t e) (nF t (nF t e)) n x.
Definition insert_V (t : tri) (e n x : nat) : nat := insV (nV t) e (nF t e) (nF t (nF t e)) n x.

Lemma six_names t e : exists f g, nF t e = f /\ nF t f = g.
Proof. eauto. Qed.

Lemma insert_at_Ok n t e : well_formed n t -> e < n -> nF t e <> e ->
  exists t', insert_at t e = Ok t' /\ well_formed (n + 6) t' /\
    (forall x, x < n + 6 -> nF t' x = insert_F t e n x) /\ (forall x, x < n + 6 -> nV t' x = insert_V t e n x).
Proof.
  intros W He NB. unfold insert_at, boundary, nextInFace.
  destruct (six_names t e) as (f & g & Fe & Ff).
  assert (Hf : f < n) by (rewrite <- Fe; apply (nF_lt n t W); auto). assert (Hg : g < n) by (rewrite <- Ff; apply (nF_lt n t W); auto).
  assert (Fg : nF t g = e) by (rewrite <- Ff, <- Fe; apply (wf_triangle _ _ W); auto).
  assert (ef : e <> f) by congruence.
  assert (fg : f <> g) by (intros E; apply ef; apply (nF_inj n t W); auto; congruence).
  assert (eg : e <> g) by (intros E; rewrite <- E in Fg; congruence).
  assert (Lf := fwd_len _ _ (wfF _ _ W)).
  assert (Pe : papp (tF t) e = Ok f) by (rewrite (papp_Ok n) by auto; now rewrite <- Fe).
  assert (Pf : papp (tF t) f = Ok g) by (rewrite (papp_Ok n) by auto; now rewrite <- Ff).
  rewrite Pe. cbn [bind]. destruct (Nat.eqb_spec f e); [congruence|].
  destruct (wf_even _ _ W) as (m & Hm). rewrite (wf_size n t W).
  assert (D : n / 2 = m) by (rewrite Hm; apply div2_even).
  rewrite D. replace (2 * m) with n by lia. replace (2 * (m + 1)) with (n + 2) by lia. replace (2 * (m + 2)) with (n + 4) by lia.
  assert (Na : neg n = n + 1) by (rewrite Hm, neg_even; lia).
  assert (Nb : neg (n + 2) = n + 3) by (replace (n + 2) with (2 * (m + 1)) by lia; rewrite neg_even; lia).
  assert (Nc : neg (n + 4) = n + 5) by (replace (n + 4) with (2 * (m + 2)) by lia; rewrite neg_even; lia).
  assert (Na' : neg (n + 1) = n) by (rewrite <- Na; apply neg_neg).
  assert (Nb' : neg (n + 3) = n + 2) by (rewrite <- Nb; apply neg_neg).
  assert (Nc' : neg (n + 5) = n + 4) by (rewrite <- Nc; apply neg_neg).
  destruct (pcycles_Ok n (tV t) (wfV _ _ W)) as (cs & -> & O & P). cbn [bind]. rewrite Pf. cbn [bind].
  rewrite (map_ext _ _ (insert_after_insc e f g n (n + 2) (n + 4))).
  set (new := new_after e f g n (n + 2) (n + 4)).
  assert (new_spec : forall x, new x = if x =? e then Some (n + 1) else if x =? f then Some (n + 3) else if x =? g then Some (n + 5) else None).
  { intros x. unfold new, new_after. now rewrite Na, Nb, Nc. }
  assert (new_ge : forall x y, new x = Some y -> y = n + 1 /\ x = e \/ y = n + 3 /\ x = f \/ y = n + 5 /\ x = g).
  { intros x y. rewrite new_spec. destruct (Nat.eqb_spec x e), (Nat.eqb_spec x f), (Nat.eqb_spec x g); intros E; inv E; auto. }
  assert (new_inj : forall x x' y, new x = Some y -> new x' = Some y -> x = x').
  { intros x x' y E E'. apply new_ge in E, E'. lia. }
  assert (Lc : forall x, In x (concat cs) <-> x < n).
  { intros x. split; intros H.
    - eapply Permutation_in in H; [|exact P]. apply in_seq in H. lia.
    - eapply Permutation_in; [apply Permutation_sym, P|]. apply in_seq. lia. }
  assert (NDc : NoDup (concat cs)) by (eapply Permutation_NoDup; [apply Permutation_sym, P|apply seq_NoDup]).
  set (X := map (insc new) cs ++ [[n; n + 2; n + 4]]).
  assert (CX : concat X = insc new (concat cs) ++ [n; n + 2; n + 4]).
  { unfold X. rewrite concat_app, concat_insc. reflexivity. }
  assert (IX : forall x, In x (insc new (concat cs)) <-> x < n \/ x = n + 1 \/ x = n + 3 \/ x = n + 5).
  { intros x. rewrite insc_In, Lc. split.
    - intros [H|(z & Hz & E)]; auto. apply new_ge in E. lia.
    - intros [H|H]; auto. right. destruct H as [->|[->| ->]]; [exists e|exists f|exists g]; rewrite Lc; split; auto; rewrite new_spec; clear - ef fg eg; eqbl. }
  assert (PX : Permutation (concat X) (seq 0 (n + 6))).
  { apply NoDup_Permutation; [|apply seq_NoDup|].
    - rewrite CX. apply NoDup_app_intro.
      + apply insc_NoDup; auto.
        * intros x y _ E I. apply Lc in I. apply new_ge in E. lia.
        * intros x x' y _ _. apply new_inj.
      + apply nodup3_intro; lia.
      + intros x I. apply IX in I. cbn. lia.
    - intros x. rewrite CX, in_app_iff, IX, in_seq. cbn [In]. lia. }
  assert (LX : length (concat X) = n + 6) by (erewrite Permutation_length by exact PX; apply seq_length).
  destruct (perm_of_cycles_complete X) as (V & HV); [now rewrite LX|].
  fold X. rewrite HV. cbn [bind]. apply perm_of_cycles_Ok in HV as (_ & WV & CV). rewrite LX in WV.
  rewrite (boundary_of_Ok n) by (auto; intros; now apply (domain_lt n t)). cbn [bind].
  (* the vertex permutation *)
  assert (OV : forall x, x < n -> fw V x = match new x with Some y => y | None => nV t x end /\
                 forall y, new x = Some y -> fw V y = nV t x).
  { intros x Hx. apply Lc in Hx. apply in_concat in Hx as (c & Hc & Hx).
    rewrite Forall_forall in O. destruct (O c Hc) as (s & k & Hs & Hk & Pk & Ec).
    destruct (wfV _ _ W) as (_ & _ & B).
    assert (Sx : cyclic c x = nV t x) by (rewrite Ec in Hx |- *; exact (orbit_list_cyclic n _ _ s k x B Hs Pk Hx)).
    assert (Nc1 : NoDup c) by (eapply NoDup_concat_in; eauto).
    assert (Ic : forall z, In z c -> z < n). { intros z Hz. apply Lc. apply in_concat. eauto. }
    destruct (succ_insc new (hd 0 c) c Nc1) with (x := x) as [A1 A2]; auto.
    { intros z y _ E I. apply Ic in I. apply new_ge in E. lia. }
    { intros z z' y _ _. apply new_inj. }
    assert (Ci : forall z, In z (insc new c) -> fw V z = succ_in (hd 0 c) (insc new c) z).
    { intros z Hz. rewrite (CV (insc new c) z); auto.
      - unfold cyclic. now rewrite hd_insc.
      - unfold X. apply in_app_iff. left. apply in_map. auto. }
    rewrite <- Sx. unfold cyclic. split.
    - rewrite Ci by (rewrite insc_In; auto). exact A1.
    - intros y E. rewrite Ci by (rewrite insc_In; eauto). auto. }
  assert (C3 : fw V n = n + 2 /\ fw V (n + 2) = n + 4 /\ fw V (n + 4) = n).
  { assert (Q : In [n; n + 2; n + 4] X) by (unfold X; apply in_app_iff; cbn; auto).
    rewrite !(CV _ _ Q) by (cbn; auto). rewrite !cyclic3. repeat split; eqbl. }
  destruct C3 as (C31 & C32 & C33).
  assert (EF0 : forall x, insert_F t e n x = insF (nF t) e f g n x) by (intros; unfold insert_F; now rewrite Fe, Ff).
  assert (EV0 : forall x, insert_V t e n x = insV (nV t) e f g n x) by (intros; unfold insert_V; now rewrite Fe, Ff).
  destruct (insF_spec (nF t) e f g n He Hf Hg ef eg fg) as (I1 & I2 & I3 & I4 & I5 & I6 & I7 & I8 & I9 & IO).
  destruct (insV_spec (nV t) e f g n He Hf Hg ef eg fg) as (J1 & J2 & J3 & J4 & J5 & J6 & J7 & J8 & J9 & JO).
  assert (EVV : forall x, x < n + 6 -> fw V x = insV (nV t) e f g n x).
  { intros x Hx.
    assert (Ne : new e = Some (n + 1)) by (now rewrite new_spec, Nat.eqb_refl).
    assert (Nf : new f = Some (n + 3)).
    { rewrite new_spec. destruct (Nat.eqb_spec f e); [congruence|]. now rewrite Nat.eqb_refl. }
    assert (Ng : new g = Some (n + 5)).
    { rewrite new_spec. destruct (Nat.eqb_spec g e); [congruence|]. destruct (Nat.eqb_spec g f); [congruence|]. now rewrite Nat.eqb_refl. }
    destruct (OV e He) as [Oe Oe']. specialize (Oe' (n + 1) Ne). rewrite Ne in Oe.
    destruct (OV f Hf) as [Of Of']. specialize (Of' (n + 3) Nf). rewrite Nf in Of.
    destruct (OV g Hg) as [Og Og']. specialize (Og' (n + 5) Ng). rewrite Ng in Og.
    destruct (ins_cases n e f g x Hx) as [(Lx & X1 & X2 & X3)|[->|[->|[->|[->|[->|[->|[->|[->| ->]]]]]]]]]; try congruence.
    rewrite JO by auto. destruct (OV x Lx) as [-> _]. rewrite new_spec.
    destruct (Nat.eqb_spec x e); [congruence|]. destruct (Nat.eqb_spec x f); [congruence|]. destruct (Nat.eqb_spec x g); [congruence|]. auto. }
  assert (Vlt := nV_lt n t W). assert (Flt := nF_lt n t W).
  assert (Ve : nV t e = neg g) by (rewrite (nV_link' n t W); auto; congruence).
  assert (Vf : nV t f = neg e).
  { rewrite (nV_link' n t W) by (auto; congruence). now rewrite Ff, Fg. }
  assert (Vg : nV t g = neg f) by (rewrite (nV_link' n t W) by (auto; congruence); now rewrite Fg, Fe).
  assert (CU := insF_cube (nF t) e f g n He Hf Hg ef eg fg Fe Ff Fg Flt (nF_inj n t W) (wf_triangle _ _ W)).
  destruct (make_tri_complete (n + 6) V (filter (fun x => nF t x =? x) (pdomain (tF t))) (insF (nF t) e f g n)
     (fun x => insF (nF t) e f g n (insF (nF t) e f g n x))) as (t' & E & W' & EV & EF).
  - auto.
  - replace (n + 6) with ((m + 3) * 2) by lia. apply Nat.mod_mul. lia.
  - apply bij_cube; auto. now apply insF_lt.
  - intros x Hx I. apply filter_In in I as [K1 K2]. apply Nat.eqb_eq in K2. apply (domain_lt n t x W) in K1.
    rewrite IO; auto; congruence.
  - intros x Hx I. rewrite EVV by auto.
    destruct (ins_cases n e f g x Hx) as [(Lx & X1 & X2 & X3)|Cx].
    + rewrite JO by auto.
      assert (NBx : nF t x <> x).
      { intros B. apply I. apply filter_In. rewrite (domain_lt n t x W), Nat.eqb_eq. auto. }
      pose proof (wf_link _ _ W x Lx NBx) as Lk.
      assert (Ly : neg (nV t x) < n) by (apply (neg_ltn n t W); auto).
      rewrite IO; auto; intros Y; rewrite Y in Lk; congruence.
    + destruct Cx as [->|[->|[->|[->|[->|[->|[->|[->| ->]]]]]]]].
      * now rewrite J4, Na', I1.
      * now rewrite J6, Nb', I4.
      * now rewrite J8, Nc', I7.
      * now rewrite J1, Nb, I3.
      * now rewrite J5, Ve, neg_neg, I8.
      * now rewrite J2, Nc, I6.
      * now rewrite J7, Vf, neg_neg, I2.
      * now rewrite J3, Na, I9.
      * now rewrite J9, Vg, neg_neg, I5.
  - auto.
  - exists t'. split; auto. split; auto. split.
    + intros x Hx. rewrite EF0. auto.
    + intros x Hx. unfold nV at 1. rewrite EV, EV0. exact (EVV x Hx).
Qed.

(** Old half edges are at the same vertex after the insertion iff they were before. *)
Lemma insert_orbits n V V' (new : nat -> option nat) :
  (forall x, x < n -> V x < n) ->
  (forall x, x < n -> match new x with Some y => n <= y /\ V' x = y /\ V' y = V x | None => V' x = V x end) ->
  forall x y, x < n -> y < n -> (orb V' x y <-> orb V x y).
Proof.
  intros L H x y Hx Hy. split; intros (k & E).
  - revert x Hx E. induction k as [k IH] using lt_wf_ind. intros x Hx E.
    destruct k as [|k]; [cbn in E; subst; apply orb_refl|]. rewrite iter_S' in E.
    specialize (H x Hx). apply orb_step. destruct (new x) as [z|].
    + destruct H as (Hz & Ez & Ez'). rewrite Ez in E. destruct k as [|k]; [cbn in E; lia|].
      rewrite iter_S', Ez' in E. apply (IH k); auto.
    + rewrite H in E. apply (IH k); auto.
  - revert x Hx E. induction k as [|k IH]; intros x Hx E; [cbn in E; subst; apply orb_refl|].
    rewrite iter_S' in E. specialize (H x Hx). destruct (new x) as [z|].
    + destruct H as (Hz & Ez & Ez'). apply orb_step. rewrite Ez. apply orb_step. rewrite Ez'. apply IH; auto.
    + apply orb_step. rewrite H. apply IH; auto.
Qed.
