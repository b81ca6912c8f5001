(** * The search finds where a vertex ends up *)
From Coq Require Import ZArith Reals List Arith Bool Lia Lra Psatz Relations.
From Verif Require Import Base HalfEdge HalfEdgeFacts Perm PermSpec PermFacts IndexedSet Combinatorial CombinatorialSpec
  CombinatorialFacts CombinatorialHistory CombinatorialOps ExactReal Vector PlaneSpec Plane VectorFacts
  FlatTri FlatSpec FlatFacts FlatSum Chain ChainSpec ChainFacts Saddle SaddleSpec SaddleFacts
  Search SearchSpec SearchMoves SearchPlane SearchDepth SearchRun SearchAll Point PointSpec PointFacts PointOps PointPlane
  Translate TranslateSpec TranslateRun.
Import ListNotations.
Local Open Scope R_scope.

Section trace.
Context {K : ExactReal} (n : nat) (cs : conns K).
Local Notation s := (cn_surface cs).
Hypothesis S0 : flat_surface n s.
Hypothesis Cl : closed_surface n s.
Hypothesis Rad : cn_radius cs = None.
Variable x0 : ssector K.
Variable rest : list (ssector K).
Variable d : vec K.
Let v := vden d.
Let W := fs_wf n s S0.
Local Notation conf := (conf n cs x0 rest).
Local Notation bdir := (bdir n cs).

(** The next edge to be reported is [x]. *)
Definition opening (m : iter K) (b0 b1 : sboundary K) (x : pt * nat) : Prop :=
  exists c m' f e st tmp, (forall k, with_intersections cs (S (S (S k))) m = Ok (Some (c, snd x), m')) /\ length c = (n / 2)%nat /\ cvector n s c = fst x /\
    calm f /\ calm e /\ crossed_to n cs x0 rest x b0 b1 m' f e st tmp.
Lemma conf_opening m x c0 c1 f e st tmp : (snd x < n)%nat -> bgood n (@BChain K c0) -> bgood n (@BChain K c1) ->
  conf m (BChain c0) (BChain c1) x (START f e :: st) tmp -> calm f -> calm e -> opening m (BChain c0) (BChain c1) x.
Proof.
  intros Hx G0 G1 C Cf Ce. assert (Hn : (neg (snd x) < n)%nat) by now apply (neg_ltn n (fT s) W).
  destruct (intersection n cs S0 Rad x0 rest x (BChain c0) (BChain c1) c0 c1 Hx (Cl _ Hn) eq_refl eq_refl G0 G1 m f e st tmp C Cf Ce) as (c & m' & A1 & A2 & A3 & A4).
  exists c, m', f, e, st, tmp. split; auto.
Qed.
Lemma calm_false : calm (Some false).
Proof. discriminate. Qed.
Lemma calm_None : calm None.
Proof. discriminate. Qed.

(** The trace ends with [R]. *)
Definition result (m : iter K) (P : point K + halfedge * vec K -> Prop) : Prop := exists R, P R /\ exists N, forall fuel, (N <= fuel)%nat -> trace cs fuel m d = Ok R.

(** Is the end of the vector in the next triangle? *)
Lemma trace_open m b0 b1 x (P : point K + halfedge * vec K -> Prop) : (snd x < n)%nat -> opening m b0 b1 x ->
  (forall w q, found s (fst x) (snd x) v w -> normal n q -> same_point n s (location q) (fF s (neg (snd x)), w) -> P (inl q)) ->
  ((forall w, ~ found s (fst x) (snd x) v w) -> forall m' f e st tmp, calm f -> calm e -> crossed_to n cs x0 rest x b0 b1 m' f e st tmp -> result m' P) ->
  result m P.
Proof.
  intros Hx (c & m' & f & e & st & tmp & Ei & Lc & Dc & Cf & Ce & Cr) Pf Pn. assert (Hn : (neg (snd x) < n)%nat) by now apply (neg_ltn n (fT s) W).
  assert (Hf : (fF s (neg (snd x)) < n)%nat) by now apply (fF_lt n).
  destruct (zc_vector_Ok n s S0 c Lc) as (u & Eu & Du). rewrite Dc in Du. set (z := vsub d u).
  assert (Dz : padd (fst x) (vden z) = v) by (unfold z; rewrite vden_sub, Du; fold v; destruct v, (fst x); unfold padd, pneg; apply pt_eq; cbn [fst snd]; ring).
  destruct (barycentric_ok n s S0 Cl (fF s (neg (snd x))) z Hf) as ([[a b] c'] & Eb & Sb & Pb). cbn [tden] in Sb, Pb.
  assert (A := area_pos n s S0 Cl _ Hf). unfold sum3 in Sb. rewrite <- Sb in A.
  assert (St : forall k, trace cs (S (S (S (S k)))) m d = if nonneg a && nonneg b && nonneg c' then do q <- normalize s (mkPoint (fF s (neg (snd x))) a b c'); Ok (inl q) else trace cs (S (S (S k))) m' d).
  { intros k. remember (S (S (S k))) as k3. cbn [trace]. subst k3. rewrite Ei. cbn [bind]. rewrite (next_Ok n) by auto. cbn [bind]. fold (fF s (neg (snd x))). rewrite Eu. cbn [bind]. fold z. rewrite Eb. reflexivity. }
  destruct (nonneg a && nonneg b && nonneg c') eqn:Nn.
  - apply andb_true_iff in Nn as [Nn N3]. apply andb_true_iff in Nn as [N1 N2]. apply nonneg_spec in N1, N2, N3.
    assert (Wt : weights (den a, den b, den c')) by (unfold weights; lra).
    destruct (normalize_ok n s S0 Cl (mkPoint (fF s (neg (snd x))) a b c') Hf Wt) as (q & Eq & Nq & Tq).
    exists (inl q). split.
    + apply (Pf (den a, den b, den c')); auto; [split; auto; now rewrite Pb|]. apply sp_sym. apply (turned_sp n s S0 (mkPoint (fF s (neg (snd x))) a b c') q); auto.
    + exists 4%nat. intros fuel Lf. do 4 (destruct fuel as [|fuel]; [lia|]). rewrite St, Eq. reflexivity.
  - assert (Nf : forall w, ~ found s (fst x) (snd x) v w).
    { intros w [Ww Ew]. destruct (place_point n s S0 Cl (fF s (neg (snd x))) z Hf) as (a' & b' & c'' & Eb' & Ww' & _).
      - exists w. split; auto. rewrite <- Dz in Ew. destruct (place s (fF s (neg (snd x))) w), (vden z), (fst x). unfold padd in Ew; cbn [fst snd] in Ew. injection Ew as X Y. apply pt_eq; cbn [fst snd]; lra.
      - rewrite Eb in Eb'. injection Eb' as <- <- <-. destruct Ww' as (Q1 & Q2 & Q3 & _). apply nonneg_spec in Q1, Q2, Q3. rewrite Q1, Q2, Q3 in Nn. discriminate. }
    destruct (Pn Nf m' f e st tmp Cf Ce Cr) as (R & PR & N & HN). exists R. split; auto. exists (N + 4)%nat. intros fuel Lf. do 4 (destruct fuel as [|fuel]; [lia|]). rewrite St. apply HN. lia.
Qed.

(** A vertex was found. *)
Lemma sc_vector_of y c : y = mkSconn s (sec_source x0) y.(sc_target) c -> length c = (n / 2)%nat -> exists w, sc_vector y = Ok w /\ vden w = cvector n s c.
Proof. intros -> Lc. unfold sc_vector. cbn [sc_surface sc_chain]. now apply zc_vector_Ok. Qed.
Section vertex.
Variables (x : pt * nat) (c0 c1 c : zchain) (f e : option bool) (st : list sstate) (tmp : list (sboundary K)).
Hypothesis Hx : (snd x < n)%nat.
Hypothesis G0 : length c0 = (n / 2)%nat.
Hypothesis G1 : length c1 = (n / 2)%nat.
Hypothesis Lc : length c = (n / 2)%nat.
Hypothesis Dc : cvector n s c = apex cs x.
Hypothesis Cf : calm f.
Hypothesis Ce : calm e.
Let m := mkIter (x0 :: rest) (BChain c0) (@BChain K c) (snd (child s false x)) c (FOUND :: START f (Some false) :: SEARCHING_FIRST :: START (Some false) e :: SEARCHING_SECOND :: st) [] (BChain c1 :: tmp).
Lemma vnb : fF s (neg (snd x)) <> neg (snd x).
Proof. apply Cl. now apply (neg_ltn n (fT s) W). Qed.
Lemma vertex_step : exists u, vden u = apex cs x /\ forall k, trace cs (S (S k)) m d = match ccw d u with
  | COLLINEAR => Ok (inr (fF s (fF s (neg (snd x))), vsub d u)) | o => do m <- skip_sector o m; trace cs (S k) m d end.
Proof.
  destruct (zc_vector_Ok n s S0 c Lc) as (u & Eu & Du). rewrite Dc in Du. exists u. split; auto. intros k. remember (S k) as k1. cbn [trace]. subst k1.
  unfold m. rewrite no_intersection. cbn [bind]. rewrite (vertex_found n cs S0 x0 rest x (BChain c0) (BChain c1) Hx vnb c f e st tmp). cbn [bind]. unfold sc_vector. cbn [sc_surface sc_chain]. rewrite Eu. cbn [bind]. now destruct (ccw d u).
Qed.
Lemma vertex_right (P : point K + halfedge * vec K -> Prop) : 0 < pdet v (apex cs x) -> (forall m', opening m' (BChain c0) (BChain c) (child s false x) -> result m' P) -> result m P.
Proof.
  intros D H. destruct vertex_step as (u & Du & Et). pose proof (ccw_cases d u) as Cu. rewrite Du in Cu. fold v in Cu.
  destruct (skip_left n cs S0 x0 rest x (BChain c0) (BChain c1) Hx c f e st tmp Lc Dc) as (m' & Es & C). fold m in Es.
  destruct (H m') as (R & PR & N & HN).
  { apply (conf_opening m' (child s false x) c0 c f (Some false) (SEARCHING_FIRST :: SEARCHING_SECOND :: st) (BChain c1 :: tmp) (lt_a n cs S0 x Hx) G0 Lc C Cf calm_false). }
  exists R. split; auto. exists (N + 2)%nat. intros fuel Lf. do 2 (destruct fuel as [|fuel]; [lia|]). rewrite Et. destruct (ccw d u); try (exfalso; lra). rewrite Es. cbn [bind]. apply HN. lia.
Qed.
Lemma vertex_left (P : point K + halfedge * vec K -> Prop) : pdet v (apex cs x) < 0 -> (forall m' c', length c' = (n / 2)%nat -> cvector n s c' = apex cs x -> opening m' (BChain c') (BChain c1) (child s true x) -> result m' P) -> result m P.
Proof.
  intros D H. destruct vertex_step as (u & Du & Et). pose proof (ccw_cases d u) as Cu. rewrite Du in Cu. fold v in Cu.
  destruct (skip_right n cs S0 Rad x0 rest x (BChain c0) (BChain c1) c0 Hx vnb eq_refl c f e st tmp Lc Dc) as (m' & Es & c' & m'' & Lc' & Dc' & C & Ew). fold m in Es.
  destruct (H m' c' Lc' Dc') as (R & PR & N & HN).
  { destruct (intersection n cs S0 Rad x0 rest (child s true x) (BChain c') (BChain c1) c' c1 (lt_b n cs S0 x Hx)) with (m := m'') (f := Some false) (e := e) (st := SEARCHING_SECOND :: st) (tmp := BChain c0 :: tmp) as (a & m3 & A1 & A2 & A3 & A4);
      auto; try apply calm_false; [apply Cl; apply (neg_ltn n (fT s) W); apply (lt_b n cs S0 x Hx)|].
    exists a, m3, (Some false), e, (SEARCHING_SECOND :: st), (BChain c0 :: tmp). split; [intros k; rewrite Ew; apply A1|]. split; auto. split; auto. split; [apply calm_false|]. split; auto. }
  exists R. split; auto. exists (N + 2)%nat. intros fuel Lf. do 2 (destruct fuel as [|fuel]; [lia|]). rewrite Et. destruct (ccw d u); try (exfalso; lra). rewrite Es. cbn [bind]. apply HN. lia.
Qed.
Lemma vertex_hit k (P : point K + halfedge * vec K -> Prop) : v = pscale (1 + k) (apex cs x) -> (forall y, vden y = pscale k (apex cs x) -> P (inr (fF s (fF s (neg (snd x))), y))) -> result m P.
Proof.
  intros Ev H. destruct vertex_step as (u & Du & Et). pose proof (ccw_cases d u) as Cu. rewrite Du in Cu. fold v in Cu. eexists. split; [apply H|exists 2%nat; intros fuel Lf; do 2 (destruct fuel as [|fuel]; [lia|])].
  2:{ rewrite Et. assert (Z : pdet v (apex cs x) = 0) by (rewrite Ev; unfold pdet, pscale; cbn; ring). rewrite Z in Cu. destruct (ccw d u); try (exfalso; lra). reflexivity. }
  rewrite vden_sub, Du. fold v. rewrite Ev. destruct (apex cs x). unfold padd, pneg, pscale. apply pt_eq; cbn [fst snd]; ring.
Qed.
End vertex.

Lemma goes_passes left p h y r : goes s left p h y r -> passes s left p h y.
Proof. now destruct 1. Qed.
(** The search follows the direction. *)
Lemma trace_goes left p h r : goes s left p h v r -> forall m c0 c1, (h < n)%nat -> length c0 = (n / 2)%nat -> length c1 = (n / 2)%nat ->
  opening m (BChain c0) (BChain c1) (p, h) -> node_ok s false p h (cvector n s c0) (cvector n s c1) ->
  (if left then pdet (cvector n s c0) v = 0 else 0 < pdet (cvector n s c0) v) -> 0 < pdet v (cvector n s c1) ->
  result m (fun R => match R with inl q => normal n q /\ same_point n s (location q) r | inr _ => False end).
Proof.
  assert (Hp : forall p h, passes s left p h v -> 0 < pdet v (vv s h)).
  { intros p' h' [A B]. replace (pdet v (vv s h')) with (pdet v (padd p' (vv s h')) + pdet p' v) by (unfold pdet, padd; cbn; ring). destruct left; lra. }
  remember v as v' eqn:Ev'. induction 1 as [p h v' w Ps Fd|p h v' r Ps Nf G IH|p h v' r Ps Nf G IH]; intros m c0 c1 Hh L0 L1 Op Nd D0 D1; subst v'; try specialize (IH eq_refl Hp);
    apply (trace_open m (BChain c0) (BChain c1) (p, h) _ Hh Op); cbn [fst snd].
  - intros w' q Fd' Nq Sq. split; auto. apply (sp_trans n s _ _ _ Sq). destruct Fd as [Ww Ew], Fd' as [Ww' Ew']. 
    assert (Hn : (neg h < n)%nat) by now apply (neg_ltn n (fT s) W). assert (Hf : (fF s (neg h) < n)%nat) by now apply (fF_lt n).
    assert (Ep : place s (fF s (neg h)) w' = place s (fF s (neg h)) w).
    { rewrite <- Ew in Ew'. destruct (place s (fF s (neg h)) w), (place s (fF s (neg h)) w'), p. unfold padd in Ew'; cbn [fst snd] in Ew'. injection Ew' as X Y. apply pt_eq; cbn [fst snd]; lra. }
    destruct w as [[a b] c], w' as [[a' b'] c']. pose proof Ww as (_ & _ & _ & Q). pose proof Ww' as (_ & _ & _ & Q').
    destruct (place_unique n s S0 Cl (fF s (neg h)) a' b' c' a b c Hf ltac:(lra) ltac:(lra) Ep) as (X1 & X2 & X3).
    apply (sp_prop n s (fF s (neg h))); auto; lra.
  - intros Nf'. exfalso. now apply (Nf' w).
  - intros w q Fd. exfalso. now apply (Nf w).
  - intros _ m' f e st tmp Cf Ce Cr. assert (HV := Hp _ _ Ps). assert (Hn : (neg h < n)%nat) by now apply (neg_ltn n (fT s) W). assert (Nb := Cl _ Hn).
    assert (Pr : 0 < pdet v (apex cs (p, h))) by (apply (proj2 (goes_passes _ _ _ _ _ G))).
    assert (HW := hp_w0 n s S0 false p h _ _ Hh Nb Nd). assert (H0 := hp_d0 s false p h _ _ Nd). change (padd p (vv s (fF s (neg h)))) with (apex cs (p, h)) in HW.
    destruct Cr as [C1 C2|C1 C2 C3|c C1 C2 Lc Dc ->]; cbn [SearchRun.bdir] in C1, C2.
    + exfalso. assert (X : 0 < pdet v (cvector n s c0)) by (apply (hp_lt_le (vv s h) v (apex cs (p, h)) (cvector n s c0)); auto; rewrite pdet_swap; lra). rewrite pdet_swap in X. destruct left; lra.
    + destruct (step_counterclockwise n s S0 false p h _ _ Hh Nb Nd C1 C2) as (Nd' & _). apply (IH m' c0 c1); auto; [apply (lt_a n cs S0 (p, h) Hh)|].
      apply (conf_opening m' (child s false (p, h)) c0 c1 f None (OUTSIDE_CCW :: st) tmp (lt_a n cs S0 (p, h) Hh) L0 L1 C3 Cf calm_None).
    + destruct (step_found n s S0 false p h _ _ Hh Nb Nd C1 C2) as (Nd' & _). apply (vertex_right (p, h) c0 c1 c f e st tmp); auto. intros m2 Op2. apply (IH m2 c0 c); auto; [apply (lt_a n cs S0 (p, h) Hh)|rewrite Dc; exact Nd'|rewrite Dc; exact Pr].
  - intros w q Fd. exfalso. now apply (Nf w).
  - intros _ m' f e st tmp Cf Ce Cr. assert (HV := Hp _ _ Ps). assert (Hn : (neg h < n)%nat) by now apply (neg_ltn n (fT s) W). assert (Nb := Cl _ Hn).
    assert (Pl : if left then 0 <= pdet (apex cs (p, h)) v else 0 < pdet (apex cs (p, h)) v) by (apply (proj1 (goes_passes _ _ _ _ _ G))).
    assert (HW := hp_w0 n s S0 false p h _ _ Hh Nb Nd). assert (H0 := hp_d0 s false p h _ _ Nd). assert (H1 := hp_d1 s false p h _ _ Nd). change (padd p (vv s (fF s (neg h)))) with (apex cs (p, h)) in HW.
    assert (Pl' : 0 <= pdet (apex cs (p, h)) v) by (destruct left; lra).
    destruct Cr as [C1 C2|C1 C2 C3|c C1 C2 Lc Dc ->]; cbn [SearchRun.bdir] in C1, C2.
    + assert (C1' : pdet (cvector n s c0) (apex cs (p, h)) < 0 \/ (pdet (cvector n s c0) (apex cs (p, h)) = 0 /\ false = false)) by (destruct (Rle_lt_or_eq_dec _ _ C1); auto).
      destruct (step_clockwise n s S0 false p h _ _ Hh Nb Nd C1') as (Nd' & _). apply (IH m' c0 c1); auto; [apply (lt_b n cs S0 (p, h) Hh)|].
      apply (conf_opening m' (child s true (p, h)) c0 c1 (Some false) e (OUTSIDE_CW :: st) tmp (lt_b n cs S0 (p, h) Hh) L0 L1 C2 calm_false Ce).
    + exfalso. assert (X : 0 < pdet (apex cs (p, h)) (cvector n s c1)) by (apply (hp_le_lt (vv s h) (apex cs (p, h)) v (cvector n s c1)); auto). rewrite pdet_swap in X. lra.
    + destruct left.
      * exfalso. assert (X : 0 <= pdet (apex cs (p, h)) (cvector n s c0)) by (apply (hp_le (vv s h) (apex cs (p, h)) v (cvector n s c0)); auto; rewrite pdet_swap; lra). rewrite pdet_swap in X. lra.
      * destruct (step_found n s S0 false p h _ _ Hh Nb Nd C1 C2) as (_ & Nd' & _). apply (vertex_left (p, h) c0 c1 c f e st tmp); auto; [rewrite pdet_swap; lra|].
        intros m2 c' Lc' Dc' Op2. apply (IH m2 c' c1); auto; [apply (lt_b n cs S0 (p, h) Hh)|rewrite Dc'; exact Nd'|rewrite Dc'; exact Pl].
Qed.

(** Beyond the first vertex, the direction has left the triangles before it. *)
Lemma hits_not_found p h u g k w : hits s p h u g -> (h < n)%nat -> 0 < pdet p (padd p (vv s h)) -> 0 < k -> ~ found s p h (pscale (1 + k) u) w.
Proof.
  intros H Hh D Hk [Ww Ew]. assert (Hn : (neg h < n)%nat) by now apply (neg_ltn n (fT s) W). assert (Nb := Cl _ Hn). destruct (across' n s S0 p h Hh Nb) as [Eq Ar].
  pose proof (hits_crosses s _ _ _ _ H) as [X1 X2]. apply hits_inv in H. destruct H as (_ & _ & H).
  destruct w as [[a0 b0] c0]. unfold place in Ew. set (a := vv s (fF s (neg h))) in *. set (b := vv s (fF s (fF s (neg h)))) in *. set (e := vv s h) in *. 
  destruct Ww as (Q1 & Q2 & Q3 & Q4). set (sg := a0 + b0 + c0) in *. set (be := b0 / sg). set (ga := c0 / sg). set (al := a0 / sg).
  assert (Hbe : 0 <= be) by (apply Rmult_le_pos; auto; apply Rlt_le, Rinv_0_lt_compat; auto).
  assert (Hga : 0 <= ga) by (apply Rmult_le_pos; auto; apply Rlt_le, Rinv_0_lt_compat; auto).
  assert (Hal : 0 <= al) by (apply Rmult_le_pos; auto; apply Rlt_le, Rinv_0_lt_compat; auto).
  assert (Hs : al + be + ga = 1) by (unfold al, be, ga, sg; field; unfold sg in Q4; lra).
  assert (Eab : padd a b = e). { destruct p, a, b, e. unfold padd in *; cbn [fst snd] in *. injection Eq as Z1 Z2. apply pt_eq; cbn [fst snd]; lra. }
  assert (Ev : pscale (1 + k) u = padd p (padd (pscale be a) (pscale ga e))).
  { rewrite <- Ew, <- Eab. unfold be, ga. destruct p, a, b. unfold padd, pscale; cbn [fst snd]. apply pt_eq; cbn [fst snd]; field; lra. }
  clear Ew Q1 Q2 Q3 Q4. clearbody be ga al. clear sg a0 b0 c0.
  assert (HV : 0 < pdet u e) by (replace (pdet u e) with (pdet u (padd p e) + pdet p u) by (unfold pdet, padd; cbn; ring); lra).
  assert (HP : 0 < pdet p e) by (replace (pdet p e) with (pdet p (padd p e)) by (unfold pdet, padd; cbn; ring); auto).
  assert (HQ : 0 < pdet (padd p e) e) by (replace (pdet (padd p e) e) with (pdet p e) by (unfold pdet, padd; cbn; ring); auto).
  assert (HW : 0 < pdet (padd p a) e) by (replace (pdet (padd p a) e) with (pdet p e + pdet a e) by (unfold pdet, padd; cbn; ring); lra).
  assert (Sa : pdet a (pscale (1 + k) u) = pdet a p + ga * pdet a e) by (rewrite Ev; unfold pdet, padd, pscale; cbn; ring).
  assert (Pa : pdet a p = - pdet p (padd p a)) by (unfold pdet, padd; cbn; ring).
  destruct H as [[-> _]|[H|H]].
  - replace (pdet a (pscale (1 + k) (padd p a))) with ((1 + k) * pdet a p) in Sa by (unfold pdet, padd, pscale; cbn; ring). 
    assert (0 < pdet p (padd p a)) by exact X1. assert (0 <= ga * pdet a e) by nra. nra.
  - pose proof (hits_crosses s _ _ _ _ H) as [Y1 Y2]. fold a in Y2. assert (Wp : 0 < pdet p (padd p a)) by (apply (hp_lt_le e p u (padd p a)); auto; lra).
    pose proof (hits_beyond n s S0 _ _ _ _ H (fF_lt n s _ S0 Hn) Wp) as B. fold a in B.
    replace (pdet a (pscale (1 + k) u)) with (- ((1 + k) * pdet u a)) in Sa by (unfold pdet, pscale; cbn; ring). assert (0 <= ga * pdet a e) by nra. nra.
  - pose proof (hits_crosses s _ _ _ _ H) as [Y1 Y2]. fold b in Y2. rewrite Eq in Y2. assert (Wq : 0 < pdet (padd p a) (padd (padd p a) b)) by (rewrite Eq; apply (hp_lt_le e (padd p a) u (padd p e)); auto; lra).
    pose proof (hits_beyond n s S0 _ _ _ _ H (fF_lt n s _ S0 (fF_lt n s _ S0 Hn)) Wq) as B. fold b in B. 
    assert (Sb : pdet (pscale (1 + k) u) b = pdet (padd p a) (padd (padd p a) b) - al * pdet a e).
    { rewrite Ev, <- Eab. replace al with (1 - be - ga) by lra. unfold pdet, padd, pscale; cbn; ring. }
    replace (pdet (pscale (1 + k) u) b) with ((1 + k) * pdet u b) in Sb by (unfold pdet, pscale; cbn; ring). assert (0 <= al * pdet a e) by nra. nra.
Qed.

Lemma trace_hits k p h u g : hits s p h u g -> v = pscale (1 + k) u -> 0 < k -> forall m c0 c1, (h < n)%nat -> length c0 = (n / 2)%nat -> length c1 = (n / 2)%nat ->
  opening m (BChain c0) (BChain c1) (p, h) -> node_ok s false p h (cvector n s c0) (cvector n s c1) -> 0 < pdet (cvector n s c0) u -> 0 < pdet u (cvector n s c1) ->
  result m (fun R => match R with inl _ => False | inr (g', y) => g' = g /\ vden y = pscale k u end).
Proof.
  intros H Ev Hk. assert (Su : forall z, pdet v z = (1 + k) * pdet u z) by (intros z; rewrite Ev; unfold pdet, pscale; cbn; ring).
  induction H as [p h Nb Cr|p h u g Nb Cr H IH|p h u g Nb Cr H IH]; intros m c0 c1 Hh L0 L1 Op Nd D0 D1;
    (apply (trace_open m (BChain c0) (BChain c1) (p, h) _ Hh Op); cbn [fst snd];
    [intros w q Fd; exfalso; rewrite Ev in Fd; revert Fd; first [pose proof (hits_left s p h u g Nb Cr H) as HH|pose proof (hits_right s p h u g Nb Cr H) as HH|pose proof (hits_vertex s p h Nb Cr) as HH]; apply (hits_not_found p h _ _ k w HH Hh (proj1 Nd) Hk)|]);
    intros _ m' f e st tmp Cf Ce X; assert (Hn : (neg h < n)%nat) by (now apply (neg_ltn n (fT s) W));
    assert (HW := hp_w0 n s S0 false p h _ _ Hh Nb Nd); assert (H0 := hp_d0 s false p h _ _ Nd); assert (H1 := hp_d1 s false p h _ _ Nd); change (padd p (vv s (fF s (neg h)))) with (apex cs (p, h)) in *.
  - destruct X as [C1 C2|C1 C2 C3|c C1 C2 Lc Dc ->]; cbn [SearchRun.bdir] in C1, C2; try (exfalso; lra).
    + exfalso. rewrite pdet_swap in D1. lra.
    + apply (vertex_hit (p, h) c0 c1 c f e st tmp) with (k := k); auto.
  - pose proof (crosses_hp s p h u Cr) as HV. pose proof (hits_crosses s _ _ _ _ H) as [_ Y]. change (padd p (vv s (fF s (neg h)))) with (apex cs (p, h)) in Y.
    destruct X as [C1 C2|C1 C2 C3|c C1 C2 Lc Dc ->]; cbn [SearchRun.bdir] in C1, C2.
    + exfalso. assert (Z : 0 < pdet u (cvector n s c0)) by (apply (hp_lt_le (vv s h) u (apex cs (p, h)) (cvector n s c0)); auto; rewrite pdet_swap; lra). rewrite pdet_swap in Z. lra.
    + destruct (step_counterclockwise n s S0 false p h _ _ Hh Nb Nd C1 C2) as (Nd' & _). apply (IH Ev Su m' c0 c1); auto; [apply (lt_a n cs S0 (p, h) Hh)|].
      apply (conf_opening m' (child s false (p, h)) c0 c1 f None (OUTSIDE_CCW :: st) tmp (lt_a n cs S0 (p, h) Hh) L0 L1 C3 Cf calm_None).
    + destruct (step_found n s S0 false p h _ _ Hh Nb Nd C1 C2) as (Nd' & _). apply (vertex_right (p, h) c0 c1 c f e st tmp); auto; [rewrite Su; nra|].
      intros m2 Op2. apply (IH Ev Su m2 c0 c); auto; [apply (lt_a n cs S0 (p, h) Hh)|rewrite Dc; exact Nd'|rewrite Dc; exact Y].
  - pose proof (crosses_hp s p h u Cr) as HV. pose proof (hits_crosses s _ _ _ _ H) as [Y _]. change (padd p (vv s (fF s (neg h)))) with (apex cs (p, h)) in Y.
    destruct X as [C1 C2|C1 C2 C3|c C1 C2 Lc Dc ->]; cbn [SearchRun.bdir] in C1, C2.
    + assert (C1' : pdet (cvector n s c0) (apex cs (p, h)) < 0 \/ (pdet (cvector n s c0) (apex cs (p, h)) = 0 /\ false = false)) by (destruct (Rle_lt_or_eq_dec _ _ C1); auto).
      destruct (step_clockwise n s S0 false p h _ _ Hh Nb Nd C1') as (Nd' & _). apply (IH Ev Su m' c0 c1); auto; [apply (lt_b n cs S0 (p, h) Hh)|].
      apply (conf_opening m' (child s true (p, h)) c0 c1 (Some false) e (OUTSIDE_CW :: st) tmp (lt_b n cs S0 (p, h) Hh) L0 L1 C2 calm_false Ce).
    + exfalso. assert (Z : 0 < pdet (apex cs (p, h)) (cvector n s c1)) by (apply (hp_lt_le (vv s h) (apex cs (p, h)) u (cvector n s c1)); auto; lra). rewrite pdet_swap in Z. lra.
    + destruct (step_found n s S0 false p h _ _ Hh Nb Nd C1 C2) as (_ & Nd' & _). apply (vertex_left (p, h) c0 c1 c f e st tmp); auto; [rewrite Su; rewrite pdet_swap in Y; nra|].
      intros m2 c' Lc' Dc' Op2. apply (IH Ev Su m2 c' c1); auto; [apply (lt_b n cs S0 (p, h) Hh)|rewrite Dc'; exact Nd'|rewrite Dc'; exact Y].
Qed.
End trace.
