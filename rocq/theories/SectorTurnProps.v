(** * Theorems on sectors between saddle connections *)
From Coq Require Import ZArith Reals List Arith Bool Lia Lra Psatz.
From Verif Require Import Base HalfEdge HalfEdgeFacts Perm PermSpec PermFacts PermCycles IndexedSet Combinatorial CombinatorialSpec
  CombinatorialFacts CombinatorialHistory CombinatorialOps CombinatorialProps ExactReal Vector PlaneSpec Plane VectorFacts VectorProps
  FlatTri FlatSpec FlatFacts FlatSum FlatAngle FlatProps Chain ChainSpec ChainFacts Saddle SaddleSpec SaddleFacts SaddleTurn
  Search SearchSpec SearchPlane SearchProps SectorSpec SectorFacts SectorProps SectorTurn FlatAngleProps SaddleProps.
Import ListNotations.
Local Open Scope R_scope.

Section between.
Context {K : ExactReal}.

Lemma collection_ext n (cs : conns K) D D' : collection n cs D -> (forall h v g, D h v g <-> D' h v g) -> collection n cs D'.
Proof. intros [] H. split; auto. intros h v g. now rewrite co_found. Qed.
Lemma source_sectors n (cs : conns K) D h0 vx cs' : collection n cs D -> (h0 < n)%nat -> vertex_source (fT (cn_surface cs)) h0 = Ok vx -> cn_source cs vx = Ok cs' ->
  forall x, In x (cn_sectors cs') -> same_vertex (fT (cn_surface cs)) h0 (sec_source x).
Proof.
  intros C H0 Ev E x I. pose proof (fs_wf n _ (co_surface n cs D C)) as W. unfold cn_source in E. destruct (ofilter _ (cn_sectors cs)) as [l| | |] eqn:F; try discriminate. injection E as <-. cbn [cn_sectors set_sectors] in I.
  assert (X : forall xs l, (forall x, In x xs -> In x (cn_sectors cs)) -> ofilter (fun x => do w <- vertex_source (fT (cn_surface cs)) (sec_source x); Ok (vertex_eqb w vx)) xs = Ok l -> forall x, In x l -> same_vertex (fT (cn_surface cs)) h0 (sec_source x)).
  { clear x l F I. induction xs as [|x xs IH]; intros l Sub E y I; cbn [ofilter] in E; [injection E as <-; destruct I|].
    assert (Hx : (sec_source x < n)%nat) by (apply (co_sectors n cs D C); apply Sub; now left). destruct (vertex_source (fT (cn_surface cs)) (sec_source x)) as [w| | |] eqn:Ew; try discriminate. cbn [bind] in E.
    destruct (ofilter _ xs) as [r| | |] eqn:Er; try discriminate. cbn [bind] in E. injection E as <-. assert (Sub' : forall z, In z xs -> In z (cn_sectors cs)) by (intros z J; apply Sub; now right).
    destruct (vertex_eqb w vx) eqn:Eq; [|now apply (IH r)]. destruct I as [<-|I]; [|now apply (IH r)]. apply (vertex_eqb_spec n _ _ _ _ _ W Hx H0 Ew Ev) in Eq. now apply (same_vertex_sym n _ _ _ W Hx). }
  now apply (X (cn_sectors cs) l).
Qed.

Lemma ofilter_sub {A} (p : A -> outcome bool) : forall xs l, ofilter p xs = Ok l -> forall x, In x l -> In x xs.
Proof.
  induction xs as [|y xs IH]; intros r E x I; cbn [ofilter] in E; [injection E as <-; destruct I|]. destruct (p y) as [o| | |]; try discriminate. cbn [bind] in E.
  destruct (ofilter p xs) as [r'| | |] eqn:Er; try discriminate. injection E as <-. destruct o; [destruct I as [<-|I]; [now left|]|]; right; now apply (IH r').
Qed.
(** Keeping or dropping a part. *)
Lemma keep_part (s : flat K) x (P : pt -> Prop) (o : bool) : part_ok s x -> (forall v, sector_contains s (sec_source x) v -> P v <-> o = true) ->
  let l := if o then [x] else [] in
  (forall y, In y l -> part_ok s y) /\ (forall v, sector_contains s (sec_source x) v -> (exists y, In y l /\ in_part y v) <-> in_part x v /\ P v) /\
  (forall v i j y z, sector_contains s (sec_source x) v -> nth_error l i = Some y -> nth_error l j = Some z -> in_part y v -> in_part z v -> i = j).
Proof.
  intros Px H l. split; [|split].
  - intros y I. unfold l in I. destruct o; [destruct I as [<-|[]]; auto|destruct I].
  - intros v C. rewrite (H v C). unfold l. destruct o; split.
    + intros (y & [<-|[]] & Ip). auto.
    + intros [Ip _]. exists x. split; [now left|auto].
    + intros (y & [] & _).
    + intros [_ X]. discriminate.
  - intros v i j y z _ E1 E2 _ _. unfold l in *. destruct o; [|now destruct i]. destruct i as [|[|]], j as [|[|]]; cbn in *; congruence.
Qed.

Theorem C34_between n (cs : conns K) D (b e : sconn K) : collection n cs D -> sc_valid n b -> sc_valid n e -> sc_surface b = cn_surface cs -> sc_surface e = cn_surface cs ->
  inner_at (cn_surface cs) (sc_source b) -> sector_contains (cn_surface cs) (sc_source b) (sv n b) -> sector_contains (cn_surface cs) (sc_source e) (sv n e) -> sv n b <> (0, 0) -> sv n e <> (0, 0) ->
  exists cs', cn_sector_between cs b e = Ok cs' /\ cn_surface cs' = cn_surface cs /\ cn_radius cs' = cn_radius cs /\
    collection n cs' (fun h v g => D h v g /\ turns_between n (cn_surface cs) (sc_source b) (sv n b) (sc_source e) (sv n e) h v).
Proof.
  intros C Vb Ve Sb Se Inner Cb Ce Nb Ne. pose proof (co_surface n cs D C) as S0. pose proof (fs_wf n _ S0) as W. assert (Hb : (sc_source b < n)%nat) by apply Vb. assert (He : (sc_source e < n)%nat) by apply Ve.
  destruct (vertex_source_Ok n _ (sc_source b) W Hb) as (wb & Eb & _). destruct (vertex_source_Ok n _ (sc_source e) W He) as (we & Ee & _).
  unfold cn_sector_between. rewrite Eb. cbn [bind]. destruct (C34_source n cs D (sc_source b) wb C Hb Eb) as (cs1 & E1 & F1 & R1 & C1). rewrite E1. cbn [bind]. rewrite Ee. cbn [bind].
  rewrite <- F1 in Ee. destruct (C34_source n cs1 _ (sc_source e) we C1 He Ee) as (cs2 & E2 & F2 & R2 & C2). rewrite E2. cbn [bind].
  destruct (sc_vector_Ok n b Vb) as (v & Ev & Dv). destruct (sc_vector_Ok n e Ve) as (w & Ew & Dw). rewrite Ev, Ew. cbn [bind]. rewrite <- Dv in *. rewrite <- Dw in *.
  assert (Sec : forall x, In x (cn_sectors cs2) -> same_vertex (fT (cn_surface cs)) (sc_source b) (sec_source x) /\ same_vertex (fT (cn_surface cs)) (sc_source e) (sec_source x)).
  { intros x I. split; [|rewrite <- F1; exact (source_sectors n cs1 _ (sc_source e) we cs2 C1 He Ee E2 x I)]. 
    apply (source_sectors n cs D (sc_source b) wb cs1 C Hb Eb E1). unfold cn_source in E2. destruct (ofilter _ (cn_sectors cs1)) as [l| | |] eqn:F; try discriminate. injection E2 as <-. cbn [cn_sectors set_sectors] in I.
    exact (ofilter_sub _ _ _ F x I). }
  set (s := cn_surface cs) in *. set (hb := sc_source b) in *. set (he := sc_source e) in *. assert (Fs : cn_surface cs2 = s) by congruence.
  destruct (all_corners_exist n s S0) as (alpha & Al).
  assert (Co : forall i, turn (vv s (Nat.iter i (fV s) hb)) (vv s (Nat.iter (Datatypes.S i) (fV s) hb)) (alpha (Nat.iter i (fV s) hb))).
  { intros i. apply Al; [now apply it_lt|now apply it_inner]. }
  destruct (exists_period n _ _ hb (bijV n s S0) Hb) as (p & Lp & Per).
  assert (J : forall g, same_vertex (fT s) hb g -> exists j, (j < p)%nat /\ Nat.iter j (fV s) hb = g).
  { intros g (k & <-). apply orbit_list_In. apply orbit_list_iter; auto. apply orbit_list_In. exists 0%nat. split; auto. apply Per. }
  pose proof (it_nz n s S0 hb Hb Inner) as Nz. destruct (turn_exists (vv s hb) (vden v) (Nz 0%nat) Nb) as (ou & Tu).
  assert (Fin : forall l, collection n (set_sectors cs2 l) (fun h u g => ((D h u g /\ same_vertex (fT s) hb h) /\ same_vertex (fT (cn_surface cs1)) he h) /\ turns_between n s hb (vden v) he (vden w) h u) ->
    exists cs', Ok (set_sectors cs2 l) = Ok cs' /\ cn_surface cs' = s /\ cn_radius cs' = cn_radius cs /\ collection n cs' (fun h u g => D h u g /\ turns_between n s hb (vden v) he (vden w) h u)).
  { intros l Cl. eexists. split; [reflexivity|]. split; auto. split; [cbn; congruence|]. apply (collection_ext n _ _ _ Cl). intros h u g. split; [tauto|]. intros (Du & T). split; auto. rewrite F1.
    assert (same_vertex (fT s) hb h /\ same_vertex (fT s) hb he). { destruct T as (a & c & (al & o1 & o2 & j & q & _ & _ & _ & Jg & _) & (al' & o1' & o2' & j' & q' & _ & _ & _ & Jg' & _) & _). split; [exists j|exists j']; auto. }
    split; [split; tauto|]. apply (same_vertex_trans _ _ hb); [apply (same_vertex_sym n _ _ _ W Hb)|]; tauto. }
  assert (Main : exists l, oconcat (sector_between s b e v w) (cn_sectors cs2) = Ok l /\ 
    collection n (set_sectors cs2 l) (fun h u g => ((D h u g /\ same_vertex (fT s) hb h) /\ same_vertex (fT (cn_surface cs1)) he h) /\ turns_between n s hb (vden v) he (vden w) h u)).
  2: { destruct Main as (l & El & Cl). rewrite El. cbn [bind]. now apply Fin. }
  apply (collection_parts n cs2 _ (sector_between s b e v w) (turns_between n s hb (vden v) he (vden w)) C2). rewrite Fs.
  intros x I. destruct (co_sectors n cs2 _ C2 x I) as [Hx Px]. rewrite Fs in Px. pose proof (co_nonzero n cs2 _ C2 x I) as Nx. destruct (Sec x I) as [Sv1 Sv2]. pose proof (Inner _ Sv1) as Bx. specialize (Px Bx).
  pose proof (co_edges n cs D C) as Ed. fold s in Ed. destruct (J _ Sv1) as (j & Lj & Ej). destruct (J he) as (k & Lk & Ek); [apply (same_vertex_trans _ _ (sec_source x)); auto; now apply (same_vertex_sym n _ _ _ W He)|].
  destruct (turn_exists (vv s he) (vden w)) as (ow & Tw); auto.
  assert (P0 : (0 < p)%nat) by apply Per. assert (Inj := it_inj n s S0 hb he Hb p Per k Lk Ek).
  assert (Tr : forall u, sector_contains s (sec_source x) u -> exists ov, turn (vv s (sec_source x)) u ov).
  { intros u (a & c & Ta & _). eauto. }
  (* calls of refine *)
  assert (Ref : forall v0 w0, vden v0 <> (0, 0) -> vden w0 <> (0, 0) -> (forall u, sector_contains s (sec_source x) u -> turns_between n s hb (vden v) he (vden w) (sec_source x) u <-> in_sector u (vden v0) (vden w0)) ->
    exists l, refine s x v0 w0 = Ok l /\ (forall y, In y l -> sec_source y = sec_source x /\ nonzero_part y) /\ (fF s (sec_source x) <> sec_source x -> part_ok s x ->
      (forall y, In y l -> part_ok s y) /\ (forall u, sector_contains s (sec_source x) u -> (exists y, In y l /\ in_part y u) <-> in_part x u /\ turns_between n s hb (vden v) he (vden w) (sec_source x) u) /\
      (forall u i j y z, sector_contains s (sec_source x) u -> nth_error l i = Some y -> nth_error l j = Some z -> in_part y u -> in_part z u -> i = j))).
  { intros v0 w0 Hv Hw Eq. destruct (refine_total n s x v0 w0 S0 Ed Hx Nx Hv Hw) as (l & El & Hl). exists l. split; auto. split; auto. intros _ _.
    destruct (C34_refine n s x v0 w0 S0 Hx Bx Px Hv Hw) as (l' & El' & Q1 & Q2 & Q3). rewrite El in El'. injection El' as <-. split; [intros y I'; now apply Q1|]. split; auto. intros u Cu. rewrite (Eq u Cu). now apply Q2. }
  assert (Kp : forall o : bool, (forall u, sector_contains s (sec_source x) u -> turns_between n s hb (vden v) he (vden w) (sec_source x) u <-> o = true) ->
    exists l, Ok (if o then [x] else []) = Ok l /\ (forall y, In y l -> sec_source y = sec_source x /\ nonzero_part y) /\ (fF s (sec_source x) <> sec_source x -> part_ok s x ->
      (forall y, In y l -> part_ok s y) /\ (forall u, sector_contains s (sec_source x) u -> (exists y, In y l /\ in_part y u) <-> in_part x u /\ turns_between n s hb (vden v) he (vden w) (sec_source x) u) /\
      (forall u i j y z, sector_contains s (sec_source x) u -> nth_error l i = Some y -> nth_error l j = Some z -> in_part y u -> in_part z u -> i = j))).
  { intros o Ho. exists (if o then [x] else []). split; auto. split; [intros y J'; destruct o; [destruct J' as [<-|[]]; auto|destruct J']|]. intros _ _. now apply (keep_part s x (turns_between n s hb (vden v) he (vden w) (sec_source x)) o). }
  unfold sector_between. fold hb he. destruct (Nat.eqb_spec hb he) as [Eh|Nh].
  - assert (k = 0%nat) by (apply (Inj k 0%nat); auto; rewrite Ek; auto). destruct (Nat.eqb_spec (sec_source x) hb) as [Ex|Nx'].
    + apply Ref; auto. intros u Cu. destruct (Tr u Cu) as (ov & Tv). rewrite Ex in *. apply (same_start n s S0 hb he v w Hb Inner Cb Ce alpha Co p Per ou Tu k Lk Ek ow Tw u ov); auto.
    + apply Kp. intros u Cu. destruct (Tr u Cu) as (ov & Tv). rewrite ccw_CW. rewrite <- Ej in *.
      apply (same_other n s S0 hb he v w Hb Inner Cb Ce alpha Co p Per ou Tu k Lk Ek ow Tw j u ov); auto. destruct j; [exfalso; apply Nx'; reflexivity|lia].
  - assert (L0 : (0 < k)%nat) by (destruct k; [exfalso; apply Nh; exact Ek|lia]). destruct (Nat.eqb_spec (sec_source x) hb) as [Ex|Nx1].
    + rewrite (nextV_Ok n (fT s) _ W Hx). cbn [bind]. assert (Hv : (nV (fT s) (sec_source x) < n)%nat) by now apply (nV_lt n (fT s) W). rewrite from_he_Ok by (now rewrite (fs_length n s S0)). cbn [bind].
      apply Ref; auto; [apply Ed; auto|]. intros u Cu. destruct (Tr u Cu) as (ov & Tv). rewrite Ex in *. apply (other_start n s S0 hb he v w Hb Inner Cb Ce alpha Co p Per ou Tu k Lk Ek ow Tw u ov); auto.
    + destruct (Nat.eqb_spec (sec_source x) he) as [Ex|Nx2].
      * rewrite from_he_Ok by (now rewrite (fs_length n s S0)). cbn [bind]. pose proof (Ed he He) as Nhe.
        assert (T0 : turn (vv s he) (vv s he) 0) by (pose proof PI_RGT_0; split; [lra|]; exists 1; split; [lra|]; destruct (vv s he); unfold pscale, protate; apply pt_eq; cbn [fst snd]; rewrite cos_0, sin_0; ring).
        assert (Bw : 0 <= ow < PI). { pose proof (offset n s S0 hb Hb Inner alpha Co k (vden w) ow) as Q. rewrite Ek in Q. specialize (Q Tw Ce). pose proof (alpha_bounds n s S0 hb Hb Inner alpha Co k) as Q'. rewrite Ek in Q'. lra. }
        destruct (det_angles (vv s he) Nhe _ _ _ _ T0 Tw) as (D1 & D2 & D3 & D4).
        assert (Cc : ccw_eqb (ccw (vat' s (sec_source x)) w) COLLINEAR = true <-> ow = 0).
        { rewrite Ex. pose proof (ccw_cases (vat' s he) w) as Q. change (vden (vat' s he)) with (vv s he) in Q. destruct (ccw (vat' s he) w); cbn; split; intros E0; try discriminate; auto.
          - subst ow. assert (Z := proj2 D3 eq_refl). lra.
          - destruct (Rtotal_order ow 0) as [|[|]]; [lra|auto|]. assert (Z := proj2 D1 ltac:(lra)). lra.
          - subst ow. assert (Z := proj2 D3 eq_refl). lra. }
        destruct (ccw_eqb (ccw (vat' s (sec_source x)) w) COLLINEAR).
        -- apply (Kp false). intros u Cu. destruct (Tr u Cu) as (ov & Tv). rewrite Ex in *. rewrite (other_end n s S0 hb he v w Hb Inner Cb Ce alpha Co p Per ou Tu k Lk Ek ow Tw u ov L0 Tv Cu).
           rewrite (proj1 Cc eq_refl). destruct Tv. split; [lra|discriminate].
        -- apply Ref; auto; [change (vv s (sec_source x) <> (0, 0)); apply Ed; auto|]. intros u Cu. destruct (Tr u Cu) as (ov & Tv). rewrite Ex in *. change (vden (vat' s he)) with (vv s he).
           rewrite (other_end n s S0 hb he v w Hb Inner Cb Ce alpha Co p Per ou Tu k Lk Ek ow Tw u ov L0 Tv Cu). rewrite (in_sector_angles u (vv s he) (vden w) ov ow); auto; [tauto|].
           destruct (Req_dec ow 0) as [E0|]; [apply Cc in E0; discriminate|lra].
      * assert (Lj0 : (0 < j)%nat) by (destruct j; [exfalso; apply Nx1; symmetry; exact Ej|lia]). rewrite (wf_size n _ W). assert (Me := meets_end_Ok n s S0 hb he Hb p Per k Lk Ek (p - j) (Datatypes.S n) j ltac:(lia) ltac:(lia) ltac:(lia)). rewrite Ej in Me. rewrite Me. cbn [bind]. apply Kp. intros u Cu. destruct (Tr u Cu) as (ov & Tv). rewrite <- Ej in *.
        assert (Njk : j <> k) by (intros ->; apply Nx2; exact Ek).
        rewrite (other_other n s S0 hb he v w Hb Inner Cb Ce alpha Co p Per ou Tu k Lk Ek ow Tw j u ov L0 (conj Lj0 Lj) Njk Tv Cu).
        destruct (Nat.leb_spec j k), (Nat.eqb_spec k 0); cbn; split; intros; try discriminate; auto; lia.
Qed.
Print Assumptions C34_between.
End between.

(** On the surface with an angle of 6 pi, from the half edge 0 to the half edge 15. *)
Definition L_begin : sconn ExactZ := mkSconn L_s 0 1 [1; 0; 0; 0; 0; 0; 0; 0; 0]%Z.
Definition L_end : sconn ExactZ := mkSconn L_s 15 14 [0; 0; 0; 0; 0; 0; 0; -1; 0]%Z.
Example C34_between_ex : collection 18 (make_conns L_s) (fun h v g => (h < 18)%nat /\ connection L_s h v g) /\ sc_valid 18 L_begin /\ sc_valid 18 L_end /\ inner_at L_s 0 /\
  sector_contains L_s 0 (sv 18 L_begin) /\ sector_contains L_s 15 (sv 18 L_end) /\ sv 18 L_begin <> (0, 0) /\ sv 18 L_end <> (0, 0) /\
  (exists l, restricted_report (cn_sector_between (cn_bound (make_conns L_s) 2%Z) L_begin L_end) 999 = Some l /\ length l = 5%nat) /\
  (exists l, restricted_report (cn_sector_between (cn_bound (make_conns L_s) 2%Z) L_end L_begin) 999 = Some l /\ length l = 19%nat).
Proof.
  destruct L_flat as (_ & S & C). assert (Nz : forall h, (h < 18)%nat -> vv L_s h <> (0, 0)).
  { intros h Hh E. pose proof (f_equal fst E) as E1. pose proof (f_equal snd E) as E2. do 18 (destruct h as [|h]; [cbn in E1, E2; lra|]). lia. }
  assert (V1 : sc_valid 18 L_begin) by (split; [exact S|]; cbn; repeat split; auto; lia). assert (V2 : sc_valid 18 L_end) by (split; [exact S|]; cbn; repeat split; auto; lia).
  assert (D1 : sv 18 L_begin = vv L_s 0) by (destruct (sc_vector_Ok 18 L_begin V1) as (v & E & D); change (sc_vector L_begin) with (Ok (zv 1 0)) in E; rewrite <- D; injection E as <-; reflexivity).
  assert (D2 : sv 18 L_end = vv L_s 15) by (destruct (sc_vector_Ok 18 L_end V2) as (v & E & D); change (sc_vector L_end) with (Ok (zv (-1) (-1))) in E; rewrite <- D; injection E as <-; reflexivity).
  rewrite D1, D2. split; [now apply C34_all|]. split; auto. split; auto. split; [apply L_inner; lia|].
  split; [apply (L_contains 0 (zv 1 0)); [lia|apply (Nz 0%nat); lia|reflexivity]|]. split; [apply (L_contains 15 (zv (-1) (-1))); [lia|apply (Nz 15%nat); lia|reflexivity]|].
  split; [apply Nz; lia|]. split; [apply Nz; lia|]. split; (eexists; split; [vm_compute; reflexivity|reflexivity]).
Qed.
