(** * Shifting vertices step by step *)
From Coq Require Import ZArith QArith Qreals Reals List Arith Bool Lia Lra Psatz Permutation.
From Verif Require Import Base HalfEdge HalfEdgeFacts Perm PermSpec PermFacts PermCycles PermLemmas IndexedSet Combinatorial CombinatorialSpec
  CombinatorialFacts CombinatorialFlip CombinatorialHistory CombinatorialOps Tracked ExactReal Vector PlaneSpec Plane VectorFacts Arb ArbFacts Quadratic QuadraticSpec QuadraticFacts
  FlatTri FlatSpec FlatFacts FlatSum FlatLinear FlatOps FlatAngle FlatSector FlatDelaunay Collapse Shift ShiftSpec ShiftFacts.
Import ListNotations.
Local Open Scope R_scope.

Section run.
Context {K : ExactReal}.
Variable o : solver K.
Variable approx : Z -> K -> ball.
Variable ops : Z -> ArbOps.
Variable quot : K -> Z -> K.
Variable n : nat.
Implicit Types (s u : flat K) (d : list (vec K)).

Lemma closed_same s u : closed_surface n s -> (forall e, (e < n)%nat -> fF u e = fF s e) -> closed_surface n u.
Proof. intros C E e H. rewrite E by auto. auto. Qed.
Lemma dd_map (g : nat -> vec K) h : (h < n)%nat -> dd (map g (seq 0 n)) h = vden (g h).
Proof. intros H. unfold dd. now rewrite nth_map_seq. Qed.
Lemma shift_scaled s u d d' c : flat_surface n s -> shift_of n s d -> length d' = n -> (forall e, (e < n)%nat -> fF u e = fF s e) ->
  (forall e, (e < n)%nat -> dd d' e = pscale c (dd d e)) -> shift_of n u d'.
Proof.
  intros S (L & N & Z) L' EF E. split; auto. split; intros e H.
  - assert (Hn := neg_ltn n _ (fs_wf n s S) e H). rewrite !E, N by auto. unfold pscale, pneg; cbn. f_equal; ring.
  - assert (H1 := fF_lt n s e S H). assert (H2 := fF_lt n s _ S H1). rewrite (EF e), (EF (fF s e)), !E by auto. specialize (Z e H).
    destruct (dd d e), (dd d (fF s e)), (dd d (fF s (fF s e))). unfold padd, pscale in *; cbn [fst snd] in *. injection Z as Z1 Z2.
    f_equal; [replace 0 with (c * 0) by ring; rewrite <- Z1|replace 0 with (c * 0) by ring; rewrite <- Z2]; ring.
Qed.

Lemma positive_nonzero s d c : flat_surface n s -> positive_until n s d c -> forall t e, 0 <= t <= c -> (e < n)%nat -> moving s d t e <> (0, 0).
Proof. intros S Pu t e T H Z. assert (X := Pu t e T H). rewrite Z in X. unfold pdet in X; cbn in X. lra. Qed.

(** A surface with the same triangles and moved vertices. *)
Lemma moved_flat s u d : flat_surface n s -> closed_surface n s -> shift_of n s d -> well_formed n (fT u) -> length (fvec u) = n ->
  (forall e, (e < n)%nat -> fF u e = fF s e) -> forall c, (forall e, (e < n)%nat -> vv u e = moving s d c e) -> positive_until n s d c -> 0 <= c -> flat_surface n u.
Proof.
  intros S C Sh W L EF c Ev Pu Hc. constructor; auto.
  - intros e H. rewrite !Ev by (auto; now apply (neg_ltn n _ W)). eapply mv_neg; eauto.
  - intros e H _. assert (H1 := fF_lt n s e S H). assert (H2 := fF_lt n s _ S H1). rewrite (EF e), (EF (fF s e)), !Ev by auto. split; [eapply mv_sum; eauto|].
    apply Pu; auto. lra.
Qed.

Lemma finish_moves s d : flat_surface n s -> closed_surface n s -> shift_of n s d -> positive_until n s d 1 ->
  exists u, finish s d sempty_set = Ok u /\ moved_to n s d 1 u (map (fun _ => vzero) (seq 0 n)).
Proof.
  intros S C Sh Pu. assert (W := fs_wf n s S). unfold finish. destruct (clone_Ok n (fT s) W) as (t1 & -> & W1 & EV1 & EF1). cbn [bind].
  rewrite (omap_map _ (fun h => vadd (nth h (fvec s) vzero) (nth h d vzero))).
  2: { intros h I. apply (half_edges_lt n t1 h W1) in I. rewrite (get_v n s S), (get_d n s d Sh) by auto. reflexivity. }
  cbn [bind]. replace (half_edges t1) with (seq 0 n) by (unfold half_edges; now rewrite (wf_size n t1 W1)).
  set (vs := map _ (seq 0 n)). destruct (length (edges t1)); cbn [collapse_all]; change (sempty sempty_set) with true; cbv iota; cbn [bind];
  (destruct (make_flat_spec n t1 (vget vs) (fun h => vadd (nth h (fvec s) vzero) (nth h d vzero)) W1) as (t2 & W2 & EV2 & EF2 & M);
  [intros e H; unfold vs; rewrite (vget_nth _ _ vzero) by (now rewrite map_length, seq_length); now rewrite nth_map_seq|];
  cbv zeta in M; remember (mkFlat t2 _) as u eqn:Eu;
  assert (EF : forall e, (e < n)%nat -> fF u e = fF s e) by (intros e H; subst u; unfold fF; cbn [fT]; now rewrite (same_nF _ _ _ EF2), (same_nF _ _ _ EF1));
  assert (EV : forall e, (e < n)%nat -> fV u e = fV s e) by (intros e H; subst u; unfold fV; cbn [fT]; now rewrite (same_nV _ _ _ EV2), (same_nV _ _ _ EV1));
  assert (Ev : forall e, (e < n)%nat -> vv u e = moving s d 1 e) by
    (intros e H; subst u; rewrite vv_map by auto; rewrite vden_add; unfold moving, vv, dd; unfold padd, pscale; cbn [fst snd]; f_equal; ring);
  assert (Su : flat_surface n u) by
    (apply (moved_flat s u d S C Sh) with (c := 1); auto; try lra; subst u; cbn [fT fvec]; auto; now rewrite map_length, seq_length);
  exists u; destruct M as [[M _]|[_ M]]; [|exfalso; apply M, Su]; split; auto; split; auto;
  assert (Dz : forall e, (e < n)%nat -> dd (map (fun _ => vzero (K := K)) (seq 0 n)) e = pscale (1 - 1) (dd d e)) by
    (intros e H; rewrite dd_map by auto; unfold vden, vzero; cbn [vx vy]; rewrite den_ofZ; unfold pscale; f_equal; ring);
  split; [apply (shift_scaled s u d _ (1 - 1)); auto; now rewrite map_length, seq_length|]; auto).
Qed.

Lemma corner_positive s d h : flat_surface n s -> closed_surface n s -> shift_of n s d -> positive_until n s d 1 -> (h < n)%nat -> qpositive (corner s d h) = true.
Proof. intros S C Sh Pu H. apply qpositive_spec. intros t T. rewrite (at_corner n s d S C Sh) by auto. now apply Pu. Qed.

Lemma scan_positive s d fuel vs : flat_surface n s -> closed_surface n s -> shift_of n s d -> positive_until n s d 1 -> (forall v, In v vs -> In v (tverts (fT s))) ->
  scan o approx ops fuel s d vs sempty_set None = Ok (sempty_set, None).
Proof.
  intros S C Sh Pu. induction vs as [|v r IH]; intros H; auto. cbn [scan].
  destruct (vertex_orbit n s S v) as (k & -> & Pk & Ik); auto with datatypes. cbn [bind].
  assert (Hk : forall h, In h (orbit_list (fV s) (sbegin v) k) -> (h < n)%nat) by (intros h Q; now apply Ik).
  rewrite (collapsing_none n s d S C Sh) by (auto; intros t e T; now apply (positive_nonzero s d 1)). cbn [bind]. rewrite consecutive_orbit by auto.
  assert (E : forall l, (forall h, In h l -> (h < n)%nat) -> find_flip o approx ops fuel s d sempty_set (map (fun h => (h, fV s h)) l) None = Ok None).
  { induction l as [|h l IHl]; intros Hl; auto. cbn [map find_flip]. assert (Hh : (h < n)%nat) by auto with datatypes. assert (HV := fV_lt n s h S Hh).
    unfold find_flip_step. rewrite !(get_v n s S), !(get_d n s d Sh) by auto. cbn [bind]. fold (corner s d h). rewrite corner_positive by auto. cbn [bind].
    apply IHl. auto with datatypes. }
  rewrite E by auto. cbn [bind]. apply IH. auto with datatypes.
Qed.

Lemma shift_simple s d k : flat_surface n s -> closed_surface n s -> shift_of n s d -> positive_until n s d 1 ->
  exists u, shift_add o approx ops quot (Datatypes.S k) s d = Ok u /\ moved_to n s d 1 u (map (fun _ => vzero) (seq 0 n)).
Proof.
  intros S C Sh Pu. cbn [shift_add]. rewrite scan_positive by auto. cbn [bind]. now apply finish_moves.
Qed.

(** The shift after a flip. *)
Lemma update_remaining s s' d e : flat_surface n s -> closed_surface n s -> shift_of n s d -> (e < n)%nat -> fflip s e = (s', Ok tt) ->
  exists d', update_after_flip d (fT s') e = Ok d' /\ flipped_to n s d e s' d'.
Proof.
  intros S C (L & N & Z) He E. destruct (fflip_spec n s e s' S He E) as (CF & S' & Ft & Vo & Ve). assert (W' := fs_wf n s' S').
  destruct (flip_facts n s e s' S He E) as (a & b & c & f & Ea & Eb & Ee & Ec & Ef & En & F1 & F2 & F3 & F4 & F5 & F6 & ND & Ha & Hb & Hc & Hf & Hn & O & _).
  unfold update_after_flip. rewrite (next_Ok n) by auto. cbn [bind]. change (nF (fT s') e) with (fF s' e). rewrite F5.
  rewrite (vget_nth _ _ vzero) by (rewrite L; now apply (neg_ltn n _ W')). cbn [bind].
  rewrite (prev_Ok n) by auto. cbn [bind].
  assert (Pe : pF (fT s') e = c) by (rewrite <- F4; apply (pF_nF n _ W'); auto). rewrite Pe.
  rewrite (vget_nth _ _ vzero) by (rewrite L; now apply (neg_ltn n _ W')). cbn [bind].
  destruct (odd_set_Ok n s e S He d (vadd (nth (neg b) d vzero) (nth (neg c) d vzero)) L) as (d' & Eo & L' & Q1 & Q2 & Q3).
  exists d'. split; auto.
  assert (De : dd d' e = pneg (padd (dd d b) (dd d c))).
  { unfold dd at 1. rewrite Q1, vden_add. change (padd (dd d (neg b)) (dd d (neg c)) = pneg (padd (dd d b) (dd d c))). rewrite !N by auto. unfold padd, pneg; cbn. f_equal; ring. }
  assert (Dn : dd d' (neg e) = padd (dd d b) (dd d c)).
  { unfold dd at 1. rewrite Q2, vden_neg, vden_add. change (pneg (padd (dd d (neg b)) (dd d (neg c))) = padd (dd d b) (dd d c)). rewrite !N by auto. unfold padd, pneg; cbn. f_equal; ring. }
  assert (Do : forall i, i <> e -> i <> neg e -> dd d' i = dd d i) by (intros i I1 I2; unfold dd; now rewrite Q3).
  pose proof (nodup6 _ _ _ _ _ _ ND) as ((D1 & D2 & D3 & D4 & D5) & (D7 & D8 & D9 & D10) & (D11 & D12 & D13) & (D14 & D15) & D16).
  assert (Zs := Z e He). assert (Zt := Z (neg e) Hn). rewrite Ea, Eb in Zs. rewrite Ec, Ef in Zt. rewrite (N e He) in Zt.
  assert (Ga : dd d' a = dd d a) by (apply Do; auto). assert (Gb : dd d' b = dd d b) by (apply Do; auto).
  assert (Gc : dd d' c = dd d c) by (apply Do; auto). assert (Gf : dd d' f = dd d f) by (apply Do; auto).
  unfold flipped_to. rewrite Ea, Eb, Ec in *. split; auto. split; auto. split.
  - split; auto. split; intros i Hi.
    + destruct (Nat.eq_dec i e) as [->|X]; [rewrite Dn, De; symmetry; apply pneg_pneg|]. destruct (Nat.eq_dec i (neg e)) as [->|Y]; [now rewrite neg_neg, Dn, De|].
      rewrite !Do; auto; intros J; [apply Y; now rewrite <- J, neg_neg|apply X; now apply neg_inj].
    + assert (Hi1 := fF_lt n s' i S' Hi). assert (Hi2 := fF_lt n s' _ S' Hi1). destruct (in_dec Nat.eq_dec i [e; a; b; neg e; c; f]) as [I|I].
      * destruct (dd d e) as [xe ye], (dd d a) as [xa ya], (dd d b) as [xb yb], (dd d c) as [xc yc], (dd d f) as [xf yf].
        unfold padd, pneg in Zs, Zt, De, Dn; cbn [fst snd] in Zs, Zt, De, Dn. injection Zs as Z1 Z2. injection Zt as Z3 Z4.
        destruct I as [<-|[<-|[<-|[<-|[<-|[<-|[]]]]]]]; rewrite ?F1, ?F2, ?F3, ?F4, ?F5, ?F6, ?De, ?Dn, ?Ga, ?Gb, ?Gc, ?Gf;
          rewrite ?F1, ?F2, ?F3, ?F4, ?F5, ?F6, ?De, ?Dn, ?Ga, ?Gb, ?Gc, ?Gf; unfold padd; cbn [fst snd]; f_equal; lra.
      * assert (X : forall j, (j < n)%nat -> ~ In j [e; a; b; neg e; c; f] -> fF s j = fF s' j /\ dd d' j = dd d j).
        { intros j Hj J. destruct (O j Hj J) as [-> _]. split; auto. apply Do; intros ->; apply J; cbn; auto. }
        assert (St : forall j, (j < n)%nat -> ~ In j [e; a; b; neg e; c; f] -> ~ In (fF s j) [e; a; b; neg e; c; f]).
        { intros j Hj J Q. apply J. rewrite <- (fF3 n s j S Hj). destruct Q as [<-|[<-|[<-|[<-|[<-|[<-|[]]]]]]]; rewrite ?Ea, ?Eb, ?Ee, ?Ec, ?Ef, ?En; rewrite ?Ea, ?Eb, ?Ee, ?Ec, ?Ef, ?En; cbn; tauto. }
        assert (Hj1 := fF_lt n s i S Hi). destruct (X i Hi I) as [X1 X2]. destruct (X _ Hj1 (St i Hi I)) as [X3 X4].
        assert (Hj2 := fF_lt n s _ S Hj1). destruct (X _ Hj2 (St _ Hj1 (St i Hi I))) as [_ X5].
        rewrite <- X1, <- X3, X2, X4, X5. apply Z; auto.
  - split.
    + unfold flipped_faces. unfold fF in Ea, Eb, Ec, Ef, F1, F2, F3, F4, F5, F6. rewrite Ea, Eb, Ec, Ef. repeat (split; [assumption|]).
      intros i Hi I. apply (O i Hi I).
    + split; [exact Ve|]. split; [exact De|]. intros i Hi I1 I2. split; auto. unfold vv. now rewrite Vo.
Qed.

Lemma deforms_trans s d s1 d1 : deforms n s d s1 d1 -> forall s2 d2, deforms n s1 d1 s2 d2 -> deforms n s d s2 d2.
Proof. intros A. induction 1; auto; [eapply deforms_move; eauto|eapply deforms_flip; eauto]. Qed.

Lemma earlier_safe fuel t b : enclosed t b -> forall q, safe (fun q => / IZR (Z.pos q) < t) (earlier_time fuel b q).
Proof.
  intros E. induction fuel as [|k IH]; intros q; [exact I|]. cbn [earlier_time].
  destruct (Quadratic.arb_lt (Some (mkBall (1 # q) 0)) b) as [[|]|] eqn:L; auto.
  cbn. destruct (QuadraticFacts.arb_lt_sound (/ IZR (Z.pos q)) t (Some (mkBall (1 # q) 0)) b true) as [Q _]; auto.
  unfold enclosed, within, lo, hi; cbn [mid rad]. unfold Qminus. rewrite !Q2R_plus, Q2R_opp. unfold Q2R; cbn [Qnum Qden]. lra.
Qed.

Variable P : Quadratic.quad K -> Prop.
Hypothesis So : sound o.
Hypothesis Rel : reliable o P.
Hypothesis Ap : approximates approx.
Hypothesis Di : divides quot.

Definition fine s d : Prop := forall s' d', deforms n s d s' d' -> none_vanishes n s' d' /\ forall h, (h < n)%nat -> P (corner s' d' h).
Definition finished s d u : Prop := exists d', deforms n s d u d' /\ done n d'.

Lemma shift_run fuel : forall s d, flat_surface n s -> closed_surface n s -> shift_of n s d -> fine s d ->
  safe (finished s d) (shift_add o approx ops quot fuel s d).
Proof.
  induction fuel as [|k IH]; intros s d S C Sh Fi; [exact I|]. destruct (Fi s d (deforms_start n s d)) as [NV HP]. cbn [shift_add].
  eapply safe_bind; [apply (scan_all o approx ops n s d S C Sh P So Rel Ap NV HP)|]. intros [coll f]. cbn [fst snd]. intros (-> & F). destruct f as [[hes p]|].
  2: { assert (Pu : positive_until n s d 1).
       { intros t e T He. apply Rnot_le_lt. intros Q. destruct (critical_exists n s d S C Sh e t He T Q) as (x & _ & Cx).
         destruct (some_hits n s d S C Sh e x NV He Cx) as (g & Hg & _ & G). now apply (F g). }
       destruct (finish_moves s d S C Sh Pu) as (u & -> & M). cbn. eexists. split; [eapply deforms_move; [apply deforms_start| |exact Pu|exact M]; lra|].
       destruct M as (_ & _ & M). intros h Hh. destruct (M h Hh) as (_ & _ & _ & ->). unfold pscale. f_equal; ring. }
  destruct F as ((g & Hg & -> & G) & Hhes & Min). destruct G as (t & Ct & Ht).
  eapply (safe_bind (fun r => r <> None /\ forall b, r = Some b -> enclosed t b)).
  { apply safe_and; [apply (root_critical o So k (corner s d g) arb_precision_fast t Ct)|]. intros r Er b ->. exact (proj1 Rel k _ _ b t (HP g Hg) Er Ct). }
  intros r (R1 & R2). destruct r as [b|]; [|now contradiction R1]. specialize (R2 b eq_refl).
  eapply safe_bind; [apply (earlier_safe k t b R2 2)|]. intros q Hq. cbv beta in Hq.
  set (c := / IZR (Z.pos q)) in *. assert (Pq : 0 < IZR (Z.pos q)) by (apply IZR_lt; lia). assert (C0 : 0 < c) by (now apply Rinv_0_lt_compat).
  assert (T := proj1 Ct).
  assert (Eseq : half_edges (fT s) = seq 0 n) by (unfold half_edges; now rewrite (wf_size n _ (fs_wf n s S))). rewrite Eseq.
  rewrite (omap_map _ (fun he => mkVec (quot (vx (nth he d vzero)) (Z.pos q)) (quot (vy (nth he d vzero)) (Z.pos q)))).
  2: { intros h I. apply in_seq in I. rewrite (get_d n s d Sh) by lia. reflexivity. }
  cbn [bind]. set (d1 := map _ (seq 0 n)).
  assert (E1 : forall h, (h < n)%nat -> dd d1 h = pscale c (dd d h)).
  { intros h H. unfold d1. rewrite dd_map by auto. unfold dd, vden, pscale; cbn [vx vy fst snd].
    assert (X : forall x, den (quot x (Z.pos q)) = c * den x).
    { intros x. rewrite <- (Di x (Z.pos q)) by discriminate. unfold c. field. lra. }
    now rewrite !X. }
  assert (L1 : length d1 = n) by (unfold d1; now rewrite map_length, seq_length).
  assert (Sh1 : shift_of n s d1) by (apply (shift_scaled s s d d1 c); auto).
  assert (Mv : forall x h, (h < n)%nat -> moving s d1 x h = moving s d (x * c) h).
  { intros x h H. unfold moving. rewrite E1 by auto. f_equal. unfold pscale; cbn. f_equal; ring. }
  assert (Puc : positive_until n s d c).
  { intros x e X He. apply Rnot_le_lt. intros Q. destruct (critical_exists n s d S C Sh e x He) as (y & Y & Cy); [lra|exact Q|].
    destruct (some_hits n s d S C Sh e y NV He Cy) as (g' & Hg' & Cg' & G'). assert (t <= y) by (eapply Min; eauto). lra. }
  assert (Pu1 : positive_until n s d1 1).
  { intros x e X He. rewrite !Mv by (auto; now apply (fF_lt n s)). apply Puc; auto. split; [apply Rmult_le_pos; lra|].
    replace c with (1 * c) at 2 by ring. apply Rmult_le_compat_r; lra. }
  destruct k as [|k]; [exact I|]. destruct (shift_simple s d1 k S C Sh1 Pu1) as (s1 & -> & M1 & _ & M). cbn [bind].
  destruct (fclone_Ok n s1 M1) as (s2 & -> & S2 & F2 & V2). cbn [bind].
  assert (E2seq : half_edges (fT s2) = seq 0 n) by (unfold half_edges; now rewrite (wf_size n _ (fs_wf n s2 S2))). rewrite E2seq.
  rewrite (omap_map _ (fun he => vsub (nth he d vzero) (nth he d1 vzero))).
  2: { intros h I. apply in_seq in I. rewrite (get_d n s d Sh), (get_d n s d1 Sh1) by lia. reflexivity. }
  cbn [bind]. set (d2 := map _ (seq 0 n)).
  assert (E2 : forall h, (h < n)%nat -> dd d2 h = pscale (1 - c) (dd d h)).
  { intros h H. unfold d2. rewrite dd_map by auto. rewrite vden_sub. change (padd (dd d h) (pneg (dd d1 h)) = pscale (1 - c) (dd d h)).
    rewrite E1 by auto. unfold padd, pneg, pscale; cbn. f_equal; ring. }
  assert (EF : forall e, (e < n)%nat -> fF s2 e = fF s e) by (intros e He; rewrite (proj1 (F2 e He)); apply (M e He)).
  assert (L2 : length d2 = n) by (unfold d2; now rewrite map_length, seq_length).
  assert (Sh2 : shift_of n s2 d2) by (apply (shift_scaled s s2 d d2 (1 - c)); auto).
  assert (C2 : closed_surface n s2) by (eapply closed_same; eauto).
  assert (D2 : deforms n s d s2 d2).
  { eapply deforms_move; [apply deforms_start| |exact Puc|]; [lra|]. split; auto. split; auto. intros e He. split; auto.
    destruct (M e He) as (_ & M3 & M4 & _). split; [unfold fV; rewrite (proj2 (F2 e He)); exact M3|]. split; auto. rewrite V2, M4, Mv by auto. f_equal. ring. }
  clearbody d2. clear - IH S2 C2 Sh2 D2 Fi Hhes.
  assert (Go : forall s3 d3, flat_surface n s3 -> closed_surface n s3 -> shift_of n s3 d3 -> deforms n s d s3 d3 ->
    safe (finished s d) (shift_add o approx ops quot (Datatypes.S k) s3 d3)).
  { intros s3 d3 A1 A2 A3 A4. eapply safe_weaken; [apply IH; auto|].
    - intros s' d' Q. apply Fi. eapply deforms_trans; eauto.
    - intros u (d' & Q1 & Q2). exists d'. split; auto. eapply deforms_trans; eauto. }
  induction hes as [|h r IHr]; cbn [flip_first]; [now apply Go|].
  assert (Hh : (h < n)%nat) by auto with datatypes. destruct (convex_strict n s2 h S2 Hh) as (b & -> & B). cbn [bind].
  destruct b; [|apply IHr; auto with datatypes]. destruct (fflip s2 h) as [s3 x] eqn:E.
  assert (X : x = Ok tt).
  { destruct (can_flip_dec n s2 h S2 Hh) as [Q|Q].
    - destruct (fflip_Ok n s2 h S2 Hh Q) as (s' & E' & _). congruence.
    - exfalso. apply Q. apply (can_flip_iff n s2 h S2 Hh). split; [|now apply B]. apply (nonboundary_flippable n s2 h S2 Hh); apply C2; auto. now apply (neg_ltn n _ (fs_wf n s2 S2)). }
  subst x. destruct (update_remaining s2 s3 d2 h S2 C2 Sh2 Hh E) as (d3 & -> & Fl). cbn [bind].
  pose proof Fl as (_ & S3 & Sh3 & _). apply Go; auto; [now apply (closed_flip n s2 h s3)|]. eapply deforms_flip; eauto.
Qed.
End run.
