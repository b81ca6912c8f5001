(** * The search lists the half edges that are crossed *)
From Coq Require Import ZArith Reals List Arith Bool Lia Lra Psatz Relations.
From Verif Require Import Base HalfEdge HalfEdgeFacts Perm PermSpec PermFacts IndexedSet Combinatorial CombinatorialSpec
  CombinatorialFacts CombinatorialHistory CombinatorialOps ExactReal Vector PlaneSpec Plane VectorFacts
  FlatTri FlatSpec FlatFacts FlatSum FlatLinear Chain ChainSpec ChainFacts Saddle SaddleSpec SaddleFacts
  Search SearchSpec SearchMoves SearchPlane SearchDepth SearchRun SearchAll Point PointSpec PointFacts PointOps PointPlane
  Translate TranslateSpec TranslateRun TranslateFacts TranslateMove Intersection Crossings CrossingsSpec.
Import ListNotations.
Local Open Scope R_scope.

Section gather.
Context {K : ExactReal} (n : nat) (cs : conns K).
Local Notation s := (cn_surface cs).
Hypothesis S0 : flat_surface n s.
Hypothesis Cl : closed_surface n s.
Hypothesis Rad : cn_radius cs = None.
Variable x0 : ssector K.
Variable rest : list (ssector K).
Variable c : sconn K.
Hypothesis Cs : sc_surface c = s.
Hypothesis Cv : sc_valid n c.
Hypothesis Source : sc_source c = sec_source x0.
Let u := sv n c.
Let W := fs_wf n s S0.
Local Notation conf := (conf n cs x0 rest).
Local Notation opening := (opening n cs x0 rest).
Local Notation shows := (shows s u).

Definition gathers (m : iter K) (l : list (intersection K)) (m' : iter K) : Prop := exists N, forall f, (N <= f)%nat -> gather cs c f m = Ok (l, m').
Definition ends (m : iter K) (acc r : list (intersection K)) : Prop := exists N, forall f, (N <= f)%nat -> reconstruct cs c f m acc = Ok r.
(** From [m] on, the half edges [l] are found. *)
Definition rest_of (m : iter K) (l : list (pt * nat)) : Prop :=
  forall acc, exists l1 m' r, gathers m l1 m' /\ ends m' (acc ++ l1) (acc ++ r) /\ Forall2 shows r l.

Lemma rest_step m m' c' x l : (snd x < n)%nat -> (forall k, with_intersections cs (S (S (S k))) m = Ok (Some (c', snd x), m')) -> length c' = (n / 2)%nat -> cvector n s c' = fst x ->
  rest_of m' l -> rest_of m (x :: l).
Proof.
  intros Hx Ei Lc Dc H acc.
  assert (Ln : length (zc_neg c') = (n / 2)%nat) by now rewrite zc_neg_length.
  destruct (zc_vector_Ok n s S0 _ Ln) as (b & Eb & Db). rewrite cvector_neg, Dc in Db.
  destruct (sc_vector_Ok n c Cv) as (w & Ew & Dw).
  set (i := mkIntersection s b (snd x) w).
  destruct (H (acc ++ [i])) as (l1 & m1 & r & [N HN] & Hr & F).
  exists (i :: l1), m1, (i :: r). split; [|split].
  - exists (S (N + 3)). intros [|g] Lg; [lia|]. cbn [gather]. do 3 (destruct g as [|g]; [lia|]). rewrite Ei. cbn [bind]. rewrite Cs, Eb. cbn [bind]. rewrite Ew. cbn [bind]. rewrite HN by lia. reflexivity.
  - rewrite <- !app_assoc in Hr. exact Hr.
  - constructor; auto. repeat split; auto.
Qed.

(** A vertex was found. *)
Section vertex.
Variables (x : pt * nat) (c0 c1 c' : zchain) (f e : option bool) (st : list sstate) (tmp : list (sboundary K)).
Hypothesis Hx : (snd x < n)%nat.
Hypothesis L0 : length c0 = (n / 2)%nat.
Hypothesis L1 : length c1 = (n / 2)%nat.
Hypothesis Lc : length c' = (n / 2)%nat.
Hypothesis Dc : cvector n s c' = apex cs x.
Hypothesis Cf : calm f.
Hypothesis Ce : calm e.
Let m := mkIter (x0 :: rest) (BChain c0) (BChain c') (snd (child s false x)) c'
      (FOUND :: START f (Some false) :: SEARCHING_FIRST :: START (Some false) e :: SEARCHING_SECOND :: st) [] (BChain c1 :: tmp).
Lemma cnb : fF s (neg (snd x)) <> neg (snd x).
Proof. apply Cl. now apply (neg_ltn n (fT s) W). Qed.
Lemma target_lt : (fF s (fF s (neg (snd x))) < n)%nat.
Proof. apply (lt_b n cs S0 x Hx). Qed.
Lemma vertex_gathers : gathers m [] m.
Proof. exists 2%nat. intros [|[|g]] Lg; try lia. reflexivity. Qed.
Lemma vertex_ends : exists w w' : vec K, vden w = apex cs x /\ vden w' = u /\ forall k acc, reconstruct cs c (S k) m acc =
  if Req_EM_T (fst (apex cs x)) (fst u) then if Req_EM_T (snd (apex cs x)) (snd u) then Ok acc else
    do it <- skip_sector (ccw_neg (ccw w w')) m; do (l, it) <- gather cs c k it; reconstruct cs c k it (acc ++ l)
  else do it <- skip_sector (ccw_neg (ccw w w')) m; do (l, it) <- gather cs c k it; reconstruct cs c k it (acc ++ l).
Proof.
  set (y := mkSconn s (sec_source x0) (fF s (fF s (neg (snd x)))) c').
  assert (Y : sc_valid n y). { split; [exact S0|]. split; [|split; [exact target_lt|exact Lc]]. cbn [sc_source y]. rewrite <- Source. apply Cv. }
  destruct (sc_vector_Ok n y Y) as (w & Ew & Dw). change (sv n y) with (cvector n s c') in Dw. rewrite Dc in Dw.
  destruct (sc_vector_Ok n c Cv) as (w' & Ew' & Dw').
  exists w, w'. split; auto. split; auto. intros k acc. cbn [reconstruct]. unfold m. rewrite (vertex_found n cs S0 x0 rest x (BChain c0) (BChain c1) Hx cnb c' f e st tmp). cbn [bind]. fold y m.
  destruct (sc_eqb_spec n n y c Y Cv) as (b & -> & B). cbn [bind].
  assert (Ref : flat_eqb (sc_surface y) (sc_surface c) = Ok true). { change (sc_surface y) with s. rewrite Cs. destruct (flat_eqb_spec n n s s S0 S0) as (b' & -> & B'). f_equal. apply B'. auto. }
  assert (B' : b = true <-> apex cs x = u). { rewrite B. change (sv n y) with (cvector n s c'). rewrite Dc. split; [tauto|]. intros E. auto. }
  clear B. rewrite Ew, Ew'. cbn [bind].
  assert (Xu : apex cs x = u <-> fst (apex cs x) = fst u /\ snd (apex cs x) = snd u). { split; [intros ->; auto|]. intros [E1 E2]. destruct (apex cs x), u. cbn in E1, E2. congruence. }
  destruct b.
  - destruct (proj1 Xu (proj1 B' eq_refl)) as [E1 E2]. destruct (Req_EM_T (fst (apex cs x)) (fst u)); [|contradiction]. destruct (Req_EM_T (snd (apex cs x)) (snd u)); [|contradiction]. reflexivity.
  - assert (N : apex cs x <> u) by (intros E; apply B' in E; discriminate). destruct (Req_EM_T (fst (apex cs x)) (fst u)) as [E1|]; [|reflexivity]. destruct (Req_EM_T (snd (apex cs x)) (snd u)) as [E2|]; [|reflexivity]. exfalso. apply N, Xu. auto.
Qed.
Lemma vertex_done : u = apex cs x -> rest_of m [].
Proof.
  intros E acc. exists [], m, []. split; [exact vertex_gathers|]. split; [|constructor]. rewrite !app_nil_r. destruct vertex_ends as (w & w' & _ & _ & H). exists 1%nat. intros [|k] Lk; [lia|]. rewrite H.
  destruct (Req_EM_T (fst (apex cs x)) (fst u)) as [_|N]; [|exfalso; apply N; now rewrite E]. destruct (Req_EM_T (snd (apex cs x)) (snd u)) as [_|N]; [|exfalso; apply N; now rewrite E]. reflexivity.
Qed.
Lemma vertex_skip m2 l (o : CCW) : pdet u (apex cs x) <> 0 -> (0 < pdet u (apex cs x) -> o = COUNTERCLOCKWISE) -> (pdet u (apex cs x) < 0 -> o = CLOCKWISE) ->
  skip_sector o m = Ok m2 -> rest_of m2 l -> rest_of m l.
Proof.
  intros D D1 D2 Es H acc. destruct (H acc) as (l1 & m' & r & [N HN] & [N' HN'] & F). exists [], m, r. split; [exact vertex_gathers|]. split; auto. rewrite app_nil_r.
  destruct vertex_ends as (w & w' & Dw & Dw' & E). exists (S (N + N')). intros [|k] Lk; [lia|]. rewrite E.
  assert (Ne : fst (apex cs x) <> fst u \/ snd (apex cs x) <> snd u). { destruct (Req_EM_T (fst (apex cs x)) (fst u)) as [E1|]; auto. destruct (Req_EM_T (snd (apex cs x)) (snd u)) as [E2|]; auto. exfalso. apply D. unfold pdet. rewrite E1, E2. ring. }
  assert (Eo : ccw_neg (ccw w w') = o).
  { pose proof (ccw_cases w w') as Cw. rewrite Dw, Dw' in Cw. rewrite (pdet_swap _ u) in Cw. destruct (ccw w w'); cbn [ccw_neg]; [rewrite D2; auto; lra|exfalso; lra|rewrite D1; auto; lra]. }
  rewrite Eo, Es. cbn [bind]. rewrite HN by lia. cbn [bind]. rewrite HN' by lia.
  destruct (Req_EM_T (fst (apex cs x)) (fst u)); auto. destruct (Req_EM_T (snd (apex cs x)) (snd u)); auto. tauto.
Qed.
Lemma vertex_opens_right : exists m', skip_sector COUNTERCLOCKWISE m = Ok m' /\ opening m' (BChain c0) (BChain c') (child s false x).
Proof.
  destruct (skip_left n cs S0 x0 rest x (BChain c0) (BChain c1) Hx c' f e st tmp Lc Dc) as (m' & Es & C). exists m'. split; [exact Es|].
  apply (conf_opening n cs S0 Cl Rad x0 rest m' (child s false x) c0 c' f (Some false) (SEARCHING_FIRST :: SEARCHING_SECOND :: st) (BChain c1 :: tmp) (lt_a n cs S0 x Hx) L0 Lc C Cf calm_false).
Qed.
Lemma vertex_opens_left : exists m' c2, skip_sector CLOCKWISE m = Ok m' /\ length c2 = (n / 2)%nat /\ cvector n s c2 = apex cs x /\ opening m' (BChain c2) (BChain c1) (child s true x).
Proof.
  destruct (skip_right n cs S0 Rad x0 rest x (BChain c0) (BChain c1) c0 Hx cnb eq_refl c' f e st tmp Lc Dc) as (m' & Es & c2 & m'' & Lc' & Dc' & C & Ew).
  exists m', c2. split; [exact Es|]. split; auto. split; auto.
  destruct (TranslateRun.intersection n cs S0 Rad x0 rest (child s true x) (BChain c2) (BChain c1) c2 c1 (lt_b n cs S0 x Hx)) with (m := m'') (f := Some false) (e := e) (st := SEARCHING_SECOND :: st) (tmp := BChain c0 :: tmp) as (a & m3 & A1 & A2 & A3 & A4);
    auto; try apply calm_false; [apply Cl; apply (neg_ltn n (fT s) W); apply (lt_b n cs S0 x Hx)|].
  exists a, m3, (Some false), e, (SEARCHING_SECOND :: st), (BChain c0 :: tmp). split; [intros k; rewrite Ew; apply A1|]. split; auto. split; auto. split; [apply calm_false|]. split; auto.
Qed.
End vertex.

(** The search follows the segment. *)
Lemma rest_hits p h v g : hits s p h v g -> v = u -> forall m c0 c1, (h < n)%nat -> length c0 = (n / 2)%nat -> length c1 = (n / 2)%nat ->
  opening m (BChain c0) (BChain c1) (p, h) -> node_ok s false p h (cvector n s c0) (cvector n s c1) -> 0 < pdet (cvector n s c0) v -> 0 < pdet v (cvector n s c1) ->
  exists l, through s p h v l /\ rest_of m ((p, h) :: l).
Proof.
  induction 1 as [p h Nb Cr|p h v g Nb Cr H IH|p h v g Nb Cr H IH]; intros Ev m c0 c1 Hh L0 L1 Op Nd D0 D1; assert (Hn : (neg h < n)%nat) by (now apply (neg_ltn n (fT s) W));
    assert (HW := hp_w0 n s S0 false p h _ _ Hh Nb Nd); assert (H0 := hp_d0 s false p h _ _ Nd); assert (H1 := hp_d1 s false p h _ _ Nd); 
    destruct Op as (c' & m' & f & e & st & tmp & Ei & Lc' & Dc' & Cf & Ce & X); assert (Go := rest_step m m' c' (p, h)); specialize (Go) with (1 := Hh) (2 := Ei) (3 := Lc') (4 := Dc'); change (padd p (vv s (fF s (neg h)))) with (apex cs (p, h)) in *.
  - exists []. split; [apply through_last|]. apply Go.
    destruct X as [C1 C2|C1 C2 C3|c2 C1 C2 Lc Dc ->]; cbn [SearchRun.bdir] in C1, C2; try (exfalso; lra).
    + exfalso. rewrite pdet_swap in D1. lra.
    + apply (vertex_done (p, h) c0 c1 c2 f e st tmp); auto.
  - pose proof (crosses_hp s p h v Cr) as HV. pose proof (hits_crosses s _ _ _ _ H) as Cx. pose proof (proj2 Cx) as Y. change (padd p (vv s (fF s (neg h)))) with (apex cs (p, h)) in Y.
    assert (G : exists l, through s p (fF s (neg h)) v l /\ rest_of m' ((p, fF s (neg h)) :: l)).
    { destruct X as [C1 C2|C1 C2 C3|c2 C1 C2 Lc Dc ->]; cbn [SearchRun.bdir] in C1, C2.
      + exfalso. assert (Z : 0 < pdet v (cvector n s c0)) by (apply (hp_lt_le (vv s h) v (apex cs (p, h)) (cvector n s c0)); auto; rewrite pdet_swap; lra). rewrite pdet_swap in Z. lra.
      + destruct (step_counterclockwise n s S0 false p h _ _ Hh Nb Nd C1 C2) as (Nd' & _). apply (IH Ev m' c0 c1); auto; [apply (lt_a n cs S0 (p, h) Hh)|].
        apply (conf_opening n cs S0 Cl Rad x0 rest m' (child s false (p, h)) c0 c1 f None (OUTSIDE_CCW :: st) tmp (lt_a n cs S0 (p, h) Hh) L0 L1 C3 Cf calm_None).
      + destruct (step_found n s S0 false p h _ _ Hh Nb Nd C1 C2) as (Nd' & _).
        destruct (vertex_opens_right (p, h) c0 c1 c2 f e st tmp) as (m2 & Es & Op2); auto.
        destruct (IH Ev m2 c0 c2) as (l & T & R); auto; [apply (lt_a n cs S0 (p, h) Hh)|rewrite Dc; exact Nd'|rewrite Dc; exact Y|].
        exists l. split; auto. apply (vertex_skip (p, h) c0 c1 c2 f e st tmp) with (m2 := m2) (o := COUNTERCLOCKWISE); auto; rewrite <- ?Ev; try lra; intros; lra. }
    destruct G as (l & T & R). exists ((p, fF s (neg h)) :: l). split; [now apply through_right|]. now apply Go.
  - pose proof (crosses_hp s p h v Cr) as HV. pose proof (hits_crosses s _ _ _ _ H) as Cx. pose proof (proj1 Cx) as Y. change (padd p (vv s (fF s (neg h)))) with (apex cs (p, h)) in Y.
    assert (G : exists l, through s (apex cs (p, h)) (fF s (fF s (neg h))) v l /\ rest_of m' ((apex cs (p, h), fF s (fF s (neg h))) :: l)).
    { destruct X as [C1 C2|C1 C2 C3|c2 C1 C2 Lc Dc ->]; cbn [SearchRun.bdir] in C1, C2.
      + assert (C1' : pdet (cvector n s c0) (apex cs (p, h)) < 0 \/ (pdet (cvector n s c0) (apex cs (p, h)) = 0 /\ false = false)) by (destruct (Rle_lt_or_eq_dec _ _ C1); auto).
        destruct (step_clockwise n s S0 false p h _ _ Hh Nb Nd C1') as (Nd' & _). apply (IH Ev m' c0 c1); auto; [apply (lt_b n cs S0 (p, h) Hh)|].
        apply (conf_opening n cs S0 Cl Rad x0 rest m' (child s true (p, h)) c0 c1 (Some false) e (OUTSIDE_CW :: st) tmp (lt_b n cs S0 (p, h) Hh) L0 L1 C2 calm_false Ce).
      + exfalso. assert (Z : 0 < pdet (apex cs (p, h)) (cvector n s c1)) by (apply (hp_lt_le (vv s h) (apex cs (p, h)) v (cvector n s c1)); auto; lra). rewrite pdet_swap in Z. lra.
      + destruct (step_found n s S0 false p h _ _ Hh Nb Nd C1 C2) as (_ & Nd' & _).
        destruct (vertex_opens_left (p, h) c0 c1 c2 f e st tmp) as (m2 & c3 & Es & Lc3 & Dc3 & Op2); auto.
        destruct (IH Ev m2 c3 c1) as (l & T & R); auto; [apply (lt_b n cs S0 (p, h) Hh)|rewrite Dc3; exact Nd'|rewrite Dc3; exact Y|].
        exists l. split; auto. apply (vertex_skip (p, h) c0 c1 c2 f e st tmp) with (m2 := m2) (o := CLOCKWISE); auto; rewrite <- ?Ev; rewrite pdet_swap in Y; try lra; intros; lra. }
    destruct G as (l & T & R). exists ((apex cs (p, h), fF s (fF s (neg h))) :: l). split; [now apply through_left|]. now apply Go.
Qed.
End gather.

Section geometry.
Context {K : ExactReal} (n : nat) (s : flat K).
Hypothesis S0 : flat_surface n s.
Hypothesis Cl : closed_surface n s.
Let W := fs_wf n s S0.

Lemma through_unique p h v l : through s p h v l -> forall l', through s p h v l' -> l = l'.
Proof.
  induction 1 as [p h|p h v l C T IH|p h v l q b C T IH]; intros l' T'; inversion T'; subst; auto; try (f_equal; now apply IH); exfalso;
    repeat match goal with H : crosses _ _ _ _ |- _ => destruct H end; unfold pdet, padd in *; cbn [fst snd] in *; try lra.
  all: unfold q in *; cbn [fst snd] in *; lra.
Qed.

Lemma mark p e v : 0 < pdet p e -> 0 < pdet p v -> 0 < pdet v (padd p e) ->
  exists t r, 0 < t < 1 /\ 0 < r /\ 0 < pdet v e /\ padd p (pscale t e) = pscale r v /\ r * pdet v e = pdet p e.
Proof.
  intros D A B. replace (pdet v (padd p e)) with (pdet v e - pdet p v) in B by (unfold pdet, padd; cbn; ring). assert (E : 0 < pdet v e) by lra.
  exists (pdet p v / pdet v e), (pdet p e / pdet v e). assert (X : forall a, a / pdet v e * pdet v e = a) by (intros; field; lra). split; [split|].
  - apply Rdiv_lt_0_compat; auto.
  - apply (Rmult_lt_reg_r (pdet v e)); auto. rewrite X. lra.
  - split; [apply Rdiv_lt_0_compat; auto|]. split; auto. split; [|apply X]. destruct p as [a b], e as [c d], v as [x y]. unfold pdet, padd, pscale in *; cbn [fst snd] in *. apply pt_eq; cbn [fst snd]; field; lra.
Qed.
Lemma times p h v l : through s p h v l -> (h < n)%nat -> crosses s p h v -> 0 < pdet p (vv s h) ->
  exists t r ms, 0 < t < 1 /\ 0 < r < 1 /\ 0 < pdet v (vv s h) /\ padd p (pscale t (vv s h)) = pscale r v /\
    (forall i, Forall2 (shows s v) i l -> Forall2 (meets_at s) i ms) /\ increasing (r :: map snd ms).
Proof.
  induction 1 as [p h|p h v l C T IH|p h v l q b C T IH]; intros Hh [X1 X2] D; assert (Hn : (neg h < n)%nat) by (now apply (neg_ltn n (fT s) W));
    destruct (fs_flat n s S0 (neg h) Hn (Cl _ Hn)) as [Z O]; rewrite (fs_odd n s S0 h Hh) in Z, O; set (e := vv s h) in *; set (a := vv s (fF s (neg h))) in *; set (b0 := vv s (fF s (fF s (neg h)))) in *;
    assert (Oe : 0 < pdet a e) by (unfold pdet, pneg in *; cbn [fst snd] in *; lra);
    destruct (mark p e _ D X1 X2) as (t & r & Ht & Hr & E & Em & Er).
  - exists t, r, []. split; auto. split; [split; auto|split; auto; split; auto; split; [intros i F; inversion F; constructor|exact I]].
    apply (Rmult_lt_reg_r (pdet (padd p a) e)); auto. rewrite Er. replace (pdet (padd p a) e) with (pdet p e + pdet a e) by (unfold pdet, padd; cbn; ring). lra.
  - assert (Ha : (fF s (neg h) < n)%nat) by now apply (fF_lt n). destruct C as [C1 C2]. fold a in C2.
    assert (Pl : pdet p (padd p a) * pdet v e = pdet p v * pdet (padd p a) e + pdet p e * pdet v (padd p a)) by (unfold pdet, padd; cbn; ring).
    assert (We : 0 < pdet (padd p a) e) by (replace (pdet (padd p a) e) with (pdet p e + pdet a e) by (unfold pdet, padd; cbn; ring); lra).
    assert (D' : 0 < pdet p a). { replace (pdet p a) with (pdet p (padd p a)) by (unfold pdet, padd; cbn; ring). apply (Rmult_lt_reg_r (pdet v e)); auto. rewrite Pl. rewrite Rmult_0_l. assert (0 < pdet p v * pdet (padd p a) e) by now apply Rmult_lt_0_compat. assert (0 < pdet p e * pdet v (padd p a)) by now apply Rmult_lt_0_compat. lra. }
    destruct (IH Ha (conj C1 C2) D') as (t' & r' & ms & Ht' & Hr' & E' & Em' & F & Inc). fold a in E', Em'.
    assert (Lt : r < r'). { apply (Rmult_lt_reg_r (pdet v e)); auto. rewrite Er. replace (r' * pdet v e) with (pdet (pscale r' v) e) by (unfold pdet, pscale; cbn; ring). rewrite <- Em'. replace (pdet (padd p (pscale t' a)) e) with (pdet p e + t' * pdet a e) by (unfold pdet, padd, pscale; cbn; ring). assert (0 < t' * pdet a e) by (apply Rmult_lt_0_compat; lra). lra. }
    exists t, r, ((t', r') :: ms). split; auto. split; [lra|]. split; auto. split; auto. split; [|split; auto].
    intros i G. inversion_clear G as [|i0 x i' l' G0 G5]. destruct G0 as (G1 & G2 & G3 & G4). constructor; [|now apply F]. cbn [fst snd] in *. unfold meets_at. rewrite G2, G3, G4. cbn [fst snd]. fold a. repeat (split; [assumption || lra|]).
    rewrite <- Em'. unfold padd, pneg, pscale; cbn [fst snd]; apply pt_eq; cbn [fst snd]; ring.
  - assert (Hb : (b < n)%nat) by (unfold b; apply (fF_lt n); auto; apply (fF_lt n); auto). destruct C as [C1 C2]. change (vv s b) with b0 in *. fold a in q. 
    assert (Eq : padd q b0 = padd p e). { unfold q. destruct p, a, b0, e. unfold padd, pneg in *; cbn [fst snd] in *. injection Z as Z1 Z2. apply pt_eq; cbn [fst snd]; lra. }
    assert (Eb : b0 = padd e (pneg a)). { destruct a, b0, e. unfold padd, pneg in *; cbn [fst snd] in *. injection Z as Z1 Z2. apply pt_eq; cbn [fst snd]; lra. }
    rewrite Eq in C2.
    assert (We : pdet q e = pdet p e + pdet a e) by (unfold q, pdet, padd; cbn; ring).
    assert (Pl : pdet q (padd p e) * pdet v e = pdet q v * pdet p e + pdet q e * pdet v (padd p e)) by (unfold pdet, padd; cbn; ring).
    assert (D' : 0 < pdet q b0). { replace (pdet q b0) with (pdet q (padd q b0)) by (unfold pdet, padd; cbn; ring). rewrite Eq. apply (Rmult_lt_reg_r (pdet v e)); auto. rewrite Pl. rewrite Rmult_0_l. assert (0 < pdet q v * pdet p e) by now apply Rmult_lt_0_compat. assert (0 < pdet q e * pdet v (padd p e)) by (apply Rmult_lt_0_compat; lra). lra. }
    rewrite <- Eq in C2. destruct (IH Hb (conj C1 C2) D') as (t' & r' & ms & Ht' & Hr' & E' & Em' & F & Inc). change (vv s b) with b0 in *.
    assert (Lt : r < r'). { apply (Rmult_lt_reg_r (pdet v e)); auto. rewrite Er. replace (r' * pdet v e) with (pdet (pscale r' v) e) by (unfold pdet, pscale; cbn; ring). rewrite <- Em'. rewrite Eb.
      replace (pdet (padd q (pscale t' (padd e (pneg a)))) e) with (pdet q e - t' * pdet a e) by (unfold pdet, padd, pscale, pneg; cbn; ring). rewrite We. assert (0 < (1 - t') * pdet a e) by (apply Rmult_lt_0_compat; lra). lra. }
    exists t, r, ((t', r') :: ms). split; auto. split; [lra|]. split; auto. split; auto. split; [|split; auto].
    intros i G. inversion_clear G as [|i0 x i' l' G0 G5]. destruct G0 as (G1 & G2 & G3 & G4). constructor; [|now apply F]. cbn [fst snd] in *. unfold meets_at. rewrite G2, G3, G4. change (vv s b) with b0. repeat (split; [assumption || lra|]).
    cbn [fst snd]. rewrite <- Em'. unfold padd, pneg, pscale; cbn [fst snd]; apply pt_eq; cbn [fst snd]; ring.
Qed.
Lemma through_lt p g v l : through s p g v l -> (g < n)%nat -> forall x, In x l -> (snd x < n)%nat.
Proof.
  induction 1 as [p g|p g v l C T IH|p g v l q b C T IH]; intros Hg x I; [destruct I| |]; assert (Hn : (neg g < n)%nat) by (now apply (neg_ltn n (fT s) W));
    assert (Ha : (fF s (neg g) < n)%nat) by (now apply (fF_lt n)); destruct I as [<-|I]; auto; [|apply IH; auto]; unfold b; now apply (fF_lt n).
Qed.
End geometry.
