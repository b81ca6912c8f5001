(** * C74: saddle connections from a direction; C75: straight paths in retriangulations *)
From Coq Require Import ZArith QArith Reals List Arith Bool Lia Lra.
From Verif Require Import Base HalfEdge HalfEdgeFacts Perm PermSpec PermFacts PermCycles PermLemmas IndexedSet IndexedSetSpec IndexedSetFacts Combinatorial CombinatorialSpec CombinatorialFacts
  CombinatorialHistory CombinatorialOps CombinatorialProps ExactReal Vector PlaneSpec Plane VectorFacts VectorProps FlatTri FlatSpec FlatFacts FlatSum FlatAngle FlatLinear FlatSector FlatProps FlatAngleProps
  Chain ChainSpec Saddle SaddleSpec SaddleFacts SaddleTurn SaddleProps Quadratic Search SearchSpec SearchMoves SearchPlane SearchAll SearchProps SectorSpec SectorFacts SectorProps Path PathProps
  PointProps ShiftProps Retriangulate RetriangulateFacts RetriangulateProps Connect ConnectSpec ConnectFacts.
From Verif Require CollapseAngle.
Import ListNotations.
Local Open Scope R_scope.

(** ** C74 *)
(** The search for a vector reports the saddle connection in its direction, unless that saddle connection is too long. *)
Theorem C74_in_sector : forall (K : ExactReal) n (s : flat K) h (v : vec K), flat_surface n s -> (forall h, (h < n)%nat -> vv s h <> (0, 0)) ->
  (h < n)%nat -> fF s h <> h -> vden v <> (0, 0) ->
  exists k o, (forall f, (k <= f)%nat -> sc_in_sector f s h v = o) /\
  (forall x, o = Ok x -> sc_valid n x /\ sc_surface x = s /\ sc_source x = h /\ connection s h (sv n x) (sc_target x) /\ same_direction (vden v) (sv n x) /\
    pdot (sv n x) (sv n x) < pdot (vden v) (vden v) + 1) /\
  (forall y g, connection s h y g -> same_direction (vden v) y -> pdot y y <= pdot (vden v) (vden v) -> exists x, o = Ok x /\ sv n x = y /\ sc_target x = g) /\
  ((exists x, o = Ok x) \/ o = Throw).
Proof.
  intros K n s h v S0 Nz Hh N Nv. destruct (in_sector_run n s S0 Nz h v Hh N Nv) as (k & o & Ho & H). destruct (bupper_bound v) as (B1 & B2). exists k, o. split; auto. split; [|split].
  - intros x ->. destruct H as (H1 & H2 & H3 & H4 & H5 & H6). do 5 (split; auto). lra.
  - intros y g Cy Sy Ly. destruct o as [x| | |]; try contradiction.
    + exists x. split; auto. destruct H as (_ & _ & _ & H4 & H5 & _). apply (connection_once s h y g); auto. destruct Sy as (r & Hr & ->), H5 as (q & Hq & ->). exists (q / r). split; [apply Rdiv_lt_0_compat; lra|].
      destruct (vden v) as [a b]; unfold pscale; cbn [fst snd]. f_equal; field; lra.
    + specialize (H y g Cy Sy). lra.
  - destruct o as [x| | |]; try contradiction; eauto.
Qed.
Print Assumptions C74_in_sector.

(** In particular, the saddle connection with this vector is found when there is one. *)
Theorem C74_found : forall (K : ExactReal) n (s : flat K) h (v : vec K) g, flat_surface n s -> (forall h, (h < n)%nat -> vv s h <> (0, 0)) ->
  (h < n)%nat -> connection s h (vden v) g ->
  exists k x, (forall f, (k <= f)%nat -> sc_in_sector f s h v = Ok x) /\ sc_valid n x /\ sc_surface x = s /\ sc_source x = h /\ sc_target x = g /\ sv n x = vden v.
Proof.
  intros K n s h v g S0 Nz Hh C. destruct (connection_sector n s S0 h _ g Hh C) as (Nv & _).
  destruct (C74_in_sector K n s h v S0 Nz Hh (proj1 C) Nv) as (k & o & Ho & A & B & _). destruct (B (vden v) g C) as (x & -> & Ex & Eg).
  - exists 1. split; [lra|]. destruct (vden v); unfold pscale; cbn [fst snd]; f_equal; ring.
  - lra.
  - destruct (A x eq_refl) as (A1 & A2 & A3 & _). exists k, x. auto 10.
Qed.
Print Assumptions C74_found.

(** The other functions first look for the sector, see C25, and then proceed in the same way. *)
Theorem C74_in_plane : forall (K : ExactReal) n (s : flat K) h (v : vec K) f, flat_surface n s -> (h < n)%nat -> inner_at s h -> vden v <> (0, 0) -> (n + 1 < f)%nat ->
  (same_direction (pneg (vv s h)) (vden v) -> sc_in_plane f s h v = Throw) /\
  (~ same_direction (pneg (vv s h)) (vden v) -> exists e, (0 <= pdet (vv s h) (vden v) -> first_ccw s h (vden v) e) /\ (pdet (vv s h) (vden v) < 0 -> first_cw s h (vden v) e) /\
    sc_in_plane f s h v = sc_in_sector f s e v).
Proof.
  intros K n s h v f S0 Hh I Nv Hf. destruct (C25_sector_plane K n s h v f S0 Hh I Nv Hf) as (A & B). split; intros Sd; unfold sc_in_plane.
  - destruct (A Sd) as (_ & ->). reflexivity.
  - destruct (B Sd) as (_ & e & -> & F1 & F2). exists e. auto.
Qed.
Print Assumptions C74_in_plane.

(** [clockwise]; the full statement, without the last hypothesis, does not hold, see C25. *)
Theorem C74_clockwise_partial : forall (K : ExactReal) n (x : sconn K) (v : vec K) f, sc_valid n x -> inner_at (sc_surface x) (sc_source x) -> sv n x <> (0, 0) -> vden v <> (0, 0) -> (n + 1 < f)%nat ->
  sector_contains (sc_surface x) (sc_source x) (sv n x) ->
  ~ (sector_contains (sc_surface x) (sc_source x) (vden v) /\ ~ same_direction (vv (sc_surface x) (sc_source x)) (vden v) /\ (0 < pdet (sv n x) (vden v) \/ same_direction (sv n x) (vden v))) ->
  exists e, reaches_cw n (sc_surface x) (sc_source x) (sv n x) (vden v) true e /\ sc_clockwise f x v = sc_in_sector f (sc_surface x) e v.
Proof.
  intros K n x v f X I Nx Nv Hf C Nn. destruct X as (S0 & Hs & X'). assert (X : sc_valid n x) by (split; auto). destruct (sc_vector_Ok n x X) as (w & Ew & Dw). rewrite <- Dw in *.
  destruct (C25_sector_from_clockwise_partial K n (sc_surface x) (sc_source x) w v f true S0 Hs I Nx Nv Hf C) as (e & E & R); [intros (Q1 & Q2 & [Q3|(Q3 & _)]); apply Nn; auto|].
  exists e. split; auto. unfold sc_clockwise. rewrite Ew. cbn [bind]. now rewrite E.
Qed.
Print Assumptions C74_clockwise_partial.

(** The saddle connections that are given by a chain. *)
Theorem C74_chain : forall (K : ExactReal) n (s : flat K) source target c f, flat_surface n s -> (source < n)%nat -> (target < n)%nat -> inner_at s source -> inner_at s target ->
  length c = (n / 2)%nat -> cvector n s c <> (0, 0) -> (n + 1 < f)%nat ->
  exists h g, sc_counterclockwise f s source target c = Ok (mkSconn s h g c) /\ sc_valid n (mkSconn s h g c) /\ sv n (mkSconn s h g c) = cvector n s c /\
    first_ccw s source (cvector n s c) h /\ first_ccw s target (pneg (cvector n s c)) g.
Proof.
  intros K n s source target c f S0 Hs Ht Is It Lc Nc Hf. assert (X : sc_valid n (mkSconn s source target c)) by (split; [exact S0|]; cbn; auto).
  destruct (sc_vector_Ok n _ X) as (w & Ew & Dw). change (sv n (mkSconn s source target c)) with (cvector n s c) in Dw. unfold sc_vector in Ew. cbn [sc_surface sc_chain] in Ew. rewrite <- Dw in *.
  unfold sc_counterclockwise. rewrite Ew. cbn [bind].
  destruct (C25_sector_counterclockwise K n s source w f false S0 Hs Is Nc Hf) as (h & -> & T1). cbn [bind].
  assert (Nn : vden (vneg w) <> (0, 0)) by (rewrite vden_neg; intros Q; apply Nc; rewrite <- (pneg_pneg (vden w)), Q; unfold pneg; cbn; f_equal; lra).
  destruct (C25_sector_counterclockwise K n s target (vneg w) f false S0 Ht It Nn Hf) as (g & -> & T2). cbn [bind]. rewrite vden_neg in T2.
  assert (Fh : forall a d e, turns_ccw s a d false e -> first_ccw s a d e) by (intros b d e (_ & T); apply T; intros (_ & Q); discriminate).
  apply Fh in T1, T2.
  assert (Hh : (h < n)%nat) by (destruct T1 as (k & <- & _); now apply (it_lt n s S0)). assert (Hg : (g < n)%nat) by (destruct T2 as (k & <- & _); now apply (it_lt n s S0)).
  exists h, g. split; auto. split; [split; [exact S0|]; cbn; auto|]. split; auto.
Qed.
Print Assumptions C74_chain.

(** The same in the half planes of two half edges; a vector opposite to the half edge is in no half plane, see C25. *)
Theorem C74_chain_plane : forall (K : ExactReal) n (s : flat K) source target c f, flat_surface n s -> (source < n)%nat -> (target < n)%nat -> inner_at s source -> inner_at s target ->
  length c = (n / 2)%nat -> cvector n s c <> (0, 0) -> (n + 1 < f)%nat ->
  (same_direction (pneg (vv s source)) (cvector n s c) \/ same_direction (vv s target) (cvector n s c) -> sc_in_plane_chain f s source target c = Throw) /\
  (~ same_direction (pneg (vv s source)) (cvector n s c) -> ~ same_direction (vv s target) (cvector n s c) ->
   exists h g, sc_in_plane_chain f s source target c = Ok (mkSconn s h g c) /\
    (0 <= pdet (vv s source) (cvector n s c) -> first_ccw s source (cvector n s c) h) /\ (pdet (vv s source) (cvector n s c) < 0 -> first_cw s source (cvector n s c) h) /\
    (pdet (vv s target) (cvector n s c) <= 0 -> first_ccw s target (pneg (cvector n s c)) g) /\ (0 < pdet (vv s target) (cvector n s c) -> first_cw s target (pneg (cvector n s c)) g)).
Proof.
  intros K n s source target c f S0 Hs Ht Is It Lc Nc Hf. assert (X : sc_valid n (mkSconn s source target c)) by (split; [exact S0|]; cbn; auto).
  destruct (sc_vector_Ok n _ X) as (w & Ew & Dw). change (sv n (mkSconn s source target c)) with (cvector n s c) in Dw. unfold sc_vector in Ew. cbn [sc_surface sc_chain] in Ew. rewrite <- Dw in *.
  unfold sc_in_plane_chain. rewrite Ew. cbn [bind].
  assert (Nn : vden (vneg w) <> (0, 0)) by (rewrite vden_neg; intros Q; apply Nc; rewrite <- (pneg_pneg (vden w)), Q; unfold pneg; cbn; f_equal; lra).
  destruct (C25_sector_plane K n s source w f S0 Hs Is Nc Hf) as (A1 & B1). destruct (C25_sector_plane K n s target (vneg w) f S0 Ht It Nn Hf) as (A2 & B2). rewrite vden_neg in *.
  assert (Opp : same_direction (vv s target) (vden w) <-> same_direction (pneg (vv s target)) (pneg (vden w))).
  { destruct (vden w) as [a b], (vv s target) as [x y]. unfold same_direction, pneg, pscale. cbn [fst snd]. split; intros (r & Hr & E); exists r; (split; [exact Hr|]); injection E as E1 E2; f_equal; lra. }
  assert (Dt : pdet (vv s target) (pneg (vden w)) = - pdet (vv s target) (vden w)) by (destruct (vden w), (vv s target); unfold pdet, pneg; cbn [fst snd]; ring).
  rewrite Dt in B2. split.
  - intros Q. assert (Ns : pneg (vv s source) <> (0, 0)).
    { assert (N0 : fF s source <> source) by (apply Is; now exists 0%nat). assert (Nv : vv s source <> (0, 0)) by apply (det_nonzero _ _ (corner_det n s source S0 Hs N0)). intros E. apply Nv. rewrite <- (pneg_pneg (vv s source)), E. unfold pneg. cbn. f_equal; lra. }
    assert (Dec : same_direction (pneg (vv s source)) (vden w) \/ ~ same_direction (pneg (vv s source)) (vden w)).
    { pose proof (same_direction_signs _ _ Ns Nc) as Sg. destruct (Req_dec (pdet (pneg (vv s source)) (vden w)) 0) as [D|D], (Rlt_dec 0 (pdot (pneg (vv s source)) (vden w))) as [L|L]; tauto. }
    destruct Dec as [Sd|Sd]; [now rewrite (proj2 (A1 Sd))|].
    destruct (B1 Sd) as (_ & e & -> & _). cbn [bind]. destruct Q as [Q|Q]; [contradiction|]. rewrite Opp in Q. now rewrite (proj2 (A2 Q)).
  - intros Q1 Q2. rewrite Opp in Q2. destruct (B1 Q1) as (_ & e & -> & F1 & F2). destruct (B2 Q2) as (_ & g & -> & G1 & G2). cbn [bind].
    exists e, g. split; auto. split; auto. split; auto. split; intros L; [apply G1|apply G2]; lra.
Qed.
Print Assumptions C74_chain_plane.

(** ** C75 *)
Section straight.
Context {K : ExactReal} (n : nat) (s : flat K).
Hypothesis S0 : flat_surface n s.
Hypothesis Cl : closed_surface n s.

Lemma nonzero_edges h : (h < n)%nat -> vv s h <> (0, 0).
Proof. intros Hh. apply (det_nonzero _ _ (corner_det n s h S0 Hh (Cl h Hh))). Qed.
Lemma inner_all h : (h < n)%nat -> inner_at s h.
Proof. intros Hh x (k & <-). apply Cl. eapply (iter_lt n (fV s)); eauto. now apply bijV. Qed.
Lemma sector_sign h d : (h < n)%nat -> d <> (0, 0) -> sector_contains s h d -> 0 < pdet (vv s h) d \/ same_direction (vv s h) d.
Proof.
  intros Hh Nd C. assert (D := corner_det n s h S0 Hh (Cl h Hh)). assert (Nh := nonzero_edges h Hh). apply (contains_hits n) in C; auto.
  assert (Ch : FlatAngle.hits (vv s h) (vv s h) (vv s (fV s h)) = true).
  { apply (contains_hits n); auto. apply (connection_sector n s S0 h (vv s h) (neg h) Hh). split; auto. }
  destruct (Rlt_le_dec 0 (pdet (vv s h) d)) as [|L]; auto. right. apply (same_sector_same (vv s h) (vv s (fV s h))); auto.
  unfold FlatAngle.hits in C. destruct (Rle_dec 0 (pdet (vv s h) d)); [lra|discriminate].
Qed.
Lemma first_sector h d fuel e : (h < n)%nat -> vden d <> (0, 0) -> sector_contains s h (vden d) -> (n + 1 < fuel)%nat ->
  (do start <- from_he s h; sector_from fuel s h start COUNTERCLOCKWISE d false) = Ok e -> e = h.
Proof.
  intros Hh Nd C F E. rewrite from_he_Ok in E by now rewrite (fs_length n s S0). cbn [bind] in E. assert (Nh := nonzero_edges h Hh).
  destruct (C25_sector_from_counterclockwise K n s h (vat' s h) d fuel false S0 Hh (inner_all h Hh) Nh Nd F) as (e' & E' & R & _).
  - apply (connection_sector n s S0 h (vv s h) (neg h) Hh). split; auto.
  - assert (e' = e) by congruence. subst e'. apply R. split; auto. destruct (sector_sign h (vden d) Hh Nd C); auto.
Qed.
Lemma some_sector h d fuel : (h < n)%nat -> vden d <> (0, 0) -> (n + 1 < fuel)%nat ->
  exists e, (do start <- from_he s h; sector_from fuel s h start COUNTERCLOCKWISE d false) = Ok e /\ same_vertex (fT s) h e /\ sector_contains s e (vden d).
Proof.
  intros Hh Nd F. rewrite from_he_Ok by now rewrite (fs_length n s S0). cbn [bind]. assert (Nh := nonzero_edges h Hh).
  destruct (C25_sector_from_counterclockwise K n s h (vat' s h) d fuel false S0 Hh (inner_all h Hh) Nh Nd F) as (e & E & R1 & R2).
  - apply (connection_sector n s S0 h (vv s h) (neg h) Hh). split; auto.
  - exists e. split; auto. destruct (Bool.bool_dec (FlatAngle.hits (vden d) (vv s h) (vv s (fV s h))) true) as [X|X].
    + apply (contains_hits n) in X; auto. assert (e = h) by (apply R1; split; auto; destruct (sector_sign h (vden d) Hh Nd X); auto). subst e. split; auto. exists 0%nat. auto.
    + destruct R2 as (k & Ek & Ck & _); [intros (Q & _); apply X; apply (contains_hits n); auto|]. split; auto. exists (k + 1)%nat. rewrite <- Ek, Nat.add_1_r. apply iter_S'.
Qed.
(** At a marked point there is only one sector in each direction. *)
Lemma one_sector g h e d : (g < n)%nat -> marked s g -> d <> (0, 0) -> same_vertex (fT s) g h -> same_vertex (fT s) g e -> sector_contains s h d -> sector_contains s e d -> h = e.
Proof.
  intros Hg (x & Ex & Ax) Nd Sh Se Ch Ce. assert (W := fs_wf n s S0). destruct (vertex_source_Ok n (fT s) g W Hg) as (x' & Ex' & Ix & Cx). assert (x' = x) by congruence. subst x'.
  assert (Iv : inner_vertex s x) by (intros z Q; apply Cl; exact (vertex_lt n s _ z S0 Ix Q)).
  destruct (C25_cover K n s x d S0 Ix Iv Nd) as (k & l & Ak & Nd' & Lk & Hl). assert (k = 1%nat) by congruence. subst k. destruct l as [|a [|b l]]; try discriminate.
  assert (Ih : In h [a]). { apply Hl. split; auto. apply members_In. assert (L : (h < n)%nat) by (destruct Sh as (j & <-); now apply (it_lt n s S0)). split; auto. now apply Cx. }
  assert (Ie : In e [a]). { apply Hl. split; auto. apply members_In. assert (L : (e < n)%nat) by (destruct Se as (j & <-); now apply (it_lt n s S0)). split; auto. now apply Cx. }
  destruct Ih as [<-|[]], Ie as [<-|[]]. reflexivity.
Qed.

(** Vectors in the direction [d]. *)
Lemma runs_shares d h l : runs_along s d h l -> exists t, 0 < t /\ reach l = pscale t d /\ forall x, In x l -> exists r, 0 < r <= t /\ snd (fst x) = pscale r d.
Proof.
  induction 1 as [h v g C (r & Hr & ->)|h v g h' l C (r & Hr & ->) M Sv Sc R (t & Ht & E & IH)].
  - exists r. split; auto. unfold reach. cbn [map psum fst snd]. split; [destruct d; unfold padd, pscale; cbn [fst snd]; f_equal; ring|]. intros x [<-|[]]. exists r. cbn. split; [lra|auto].
  - exists (r + t). split; [lra|]. unfold reach in *. cbn [map psum fst snd]. rewrite E. split; [destruct d; unfold padd, pscale; cbn [fst snd]; f_equal; ring|].
    intros x [<-|I]; [exists r; cbn; split; [lra|auto]|]. destruct (IH x I) as (q & Hq & Eq). exists q. split; [lra|auto].
Qed.

Lemma follow_run d : vden d <> (0, 0) -> forall h l, runs_along s (vden d) h l -> (h < n)%nat -> forall t, 0 <= t -> padd (pscale t (vden d)) (reach l) = vden d ->
  exists k p, map (fun x => (sc_source x, sv n x, sc_target x)) p = l /\ (forall x, In x p -> sc_valid n x /\ sc_surface x = s) /\
  forall f h0 sofar image, (k <= f)%nat -> (h0 < n)%nat -> same_vertex (fT s) h0 h -> vden sofar = pscale t (vden d) ->
  (h0 = h \/ marked s h0) ->
  follow f s h0 d sofar image = Ok (image ++ p).
Proof.
  intros Nd.
  assert (In1 : forall h v g, (h < n)%nat -> connection s h v g -> same_direction (vden d) v -> pdot v v <= pdot (vden d) (vden d) ->
    exists k x, sc_source x = h /\ sv n x = v /\ sc_target x = g /\ sc_valid n x /\ sc_surface x = s /\ sector_contains s h (vden d) /\
    forall f h0, (k <= f)%nat -> (h0 < n)%nat -> same_vertex (fT s) h0 h -> (h0 = h \/ marked s h0) ->
      (do start <- from_he s h0; do sector <- sector_from f s h0 start COUNTERCLOCKWISE d false; sc_in_sector f s sector d) = Ok x).
  { intros h v g Hh C Sd Lv. destruct (connection_sector n s S0 h v g Hh C) as (Nv & Cv).
    assert (Cd : sector_contains s h (vden d)).
    { apply (contains_hits n) in Cv; auto. apply (contains_hits n); auto. destruct Sd as (r & Hr & Ey). subst v. unfold FlatAngle.hits in *. rewrite !det_scale in Cv.
      destruct (Rle_dec 0 (pdet (vv s h) (vden d))) as [A|A]; [|exfalso; destruct (Rle_dec 0 (r * pdet (vv s h) (vden d))); [nra|discriminate]].
      destruct (Rlt_dec (pdet (vv s (fV s h)) (vden d)) 0) as [A'|A']; auto. destruct (Rlt_dec (r * pdet (vv s (fV s h)) (vden d)) 0); [nra|]. destruct (Rle_dec 0 (r * pdet (vv s h) (vden d))); discriminate. }
    destruct (C74_in_sector K n s h d S0 nonzero_edges Hh (Cl h Hh) Nd) as (k & o & Ho & A & B & _). destruct (B v g C Sd Lv) as (x & -> & Ex & Eg). destruct (A x eq_refl) as (A1 & A2 & A3 & _).
    exists (k + n + 2)%nat, x. split; auto. split; auto. split; auto. split; auto. split; auto. split; auto.
    intros f h0 Hf H0 Sv Hm. destruct (some_sector h0 d f H0 Nd) as (e & Ee & Se & Ce); [lia|].
    assert (e = h). { destruct Hm as [->|Hm]; [apply (first_sector h d f); auto; lia|]. symmetry. now apply (one_sector h0 h e (vden d)). }
    subst e. destruct (from_he s h0) as [st| | |]; try discriminate. cbn [bind] in *. rewrite Ee. cbn [bind]. apply Ho. lia. }
  assert (Sh : forall t r v, 0 <= t -> 0 < r -> t + r <= 1 -> v = pscale r (vden d) -> pdot v v <= pdot (vden d) (vden d)).
  { intros t r v Ht Hr L ->. assert (0 <= pdot (vden d) (vden d)) by (unfold pdot; nra). replace (pdot (pscale r (vden d)) (pscale r (vden d))) with (r * r * pdot (vden d) (vden d)) by (unfold pdot, pscale; cbn; ring). assert (r * r <= 1) by nra. nra. }
  assert (Un : forall a b, pscale a (vden d) = pscale b (vden d) -> a = b).
  { intros a b E. destruct (vden d) as [x y]. unfold pscale in E. cbn [fst snd] in E. injection E as E1 E2. destruct (Req_dec x 0) as [->|Nx]; [destruct (Req_dec y 0) as [->|Ny]; [congruence|]|]; [apply (Rmult_eq_reg_r y)|apply (Rmult_eq_reg_r x)]; auto. }
  assert (One : pscale 1 (vden d) = vden d) by (destruct (vden d); unfold pscale; cbn [fst snd]; f_equal; ring).
  assert (Un1 : forall a, pscale a (vden d) = vden d <-> a = 1) by (intros a; split; [intros Q; apply Un; congruence|intros ->; auto]).
  assert (Add : forall a b, padd (pscale a (vden d)) (pscale b (vden d)) = pscale (a + b) (vden d)) by (intros a b; destruct (vden d); unfold pscale, padd; cbn [fst snd]; f_equal; ring).
  induction 1 as [h v g C Sd|h v g h' l C Sd M Sv Sc R IH]; intros Hh t Ht E.
  - assert (Sd' := Sd). destruct Sd' as (r & Hr & Ev). unfold reach in E. cbn [map psum fst snd] in E.
    assert (E' : padd (pscale t (vden d)) v = vden d) by (rewrite <- E at 2; destruct (pscale t (vden d)), v; unfold padd; cbn [fst snd]; f_equal; ring).
    rewrite Ev, Add in E'. apply Un1 in E'.
    destruct (In1 h v g Hh C Sd) as (k & x & X1 & X2 & X3 & X4 & X5 & X6 & X7); [apply (Sh t r); auto; lra|].
    exists (k + 1)%nat, [x]. cbn [map]. rewrite X1, X2, X3. split; auto. split; [intros z [<-|[]]; auto|].
    intros f h0 sofar image Hf H0 S1 Es Hm. destruct f as [|f]; [lia|]. cbn [follow]. specialize (X7 (Datatypes.S f) h0 ltac:(lia) H0 S1 Hm).
    destruct (from_he s h0) as [st| | |]; try discriminate. cbn [bind] in *. destruct (sector_from (Datatypes.S f) s h0 st COUNTERCLOCKWISE d false) as [sec| | |]; try discriminate. cbn [bind] in *. rewrite X7. cbn [bind].
    destruct (sc_vector_Ok n x X4) as (w & Ew & Dw). rewrite Ew. cbn [bind].
    assert (Ve : veqb (vadd sofar w) d = true) by (apply veqb_spec; rewrite vden_add, Es, Dw, X2, Ev, Add; apply Un1; lra). now rewrite Ve.
  - assert (Sd' := Sd). destruct Sd' as (r & Hr & Ev). destruct (runs_shares _ _ _ R) as (q & Hq & Eq & _). unfold reach in *. cbn [map psum fst snd] in E. rewrite Eq, Ev, !Add in E. apply Un1 in E.
    assert (Hg : (g < n)%nat) by exact (connection_lt n s S0 h v g C Hh).
    assert (Hh' : (h' < n)%nat) by (destruct Sv as (j & <-); now apply (it_lt n s S0)).
    destruct (In1 h v g Hh C Sd) as (k & x & X1 & X2 & X3 & X4 & X5 & X6 & X7); [apply (Sh t r); auto; lra|].
    destruct (IH Hh' (t + r)) as (k' & p & Ep & Vp & Hp); [lra|rewrite Eq, Add; apply Un1; lra|].
    exists (k + k' + 1)%nat, (x :: p). cbn [map]. rewrite X1, X2, X3, Ep. split; auto. split; [intros z [<-|I]; auto|].
    intros f h0 sofar image Hf H0 S1 Es Hm. destruct f as [|f]; [lia|]. cbn [follow]. specialize (X7 (Datatypes.S f) h0 ltac:(lia) H0 S1 Hm).
    destruct (from_he s h0) as [st| | |]; try discriminate. cbn [bind] in *. destruct (sector_from (Datatypes.S f) s h0 st COUNTERCLOCKWISE d false) as [sec| | |]; try discriminate. cbn [bind] in *. rewrite X7. cbn [bind].
    destruct (sc_vector_Ok n x X4) as (w & Ew & Dw). rewrite Ew. cbn [bind].
    assert (Vw : vden (vadd sofar w) = pscale (t + r) (vden d)) by (rewrite vden_add, Es, Dw, X2, Ev, Add; reflexivity).
    assert (Ve : veqb (vadd sofar w) d = false). { apply not_true_is_false. intros Q. apply veqb_spec in Q. rewrite Vw in Q. apply Un1 in Q. lra. }
    rewrite Ve. rewrite X3.
    destruct (step_next n s S0 g Hg) as [En Ln]. rewrite En. cbn [bind].
    rewrite (Hp f (fV s g) (vadd sofar w) (image ++ [x])); auto; [rewrite <- app_assoc; reflexivity|lia| |].
    + apply (same_vertex_trans (fT s) _ g); auto. apply (same_vertex_sym n _ _ _ (fs_wf n s S0) Hg). now exists 1%nat.
    + right. destruct M as (y & Ey & Ay). exists y. split; auto. destruct (vertex_source_Ok n (fT s) g (fs_wf n s S0) Hg) as (y1 & E1 & I1 & C1). destruct (vertex_source_Ok n (fT s) (fV s g) (fs_wf n s S0) Ln) as (y2 & E2 & I2 & C2).
      assert (y1 = y2); [|congruence]. apply (CollapseAngle.vertex_unique n s y1 y2 (fV s g)); auto; [apply C1; split; auto; now exists 1%nat|apply C2; split; auto; now exists 0%nat].
Qed.
End straight.

(** The loop follows a straight path from one marked point to the next up to the end of the vector. *)
Theorem C75_straight : forall (K : ExactReal) n (s : flat K) (v : vec K) h l, flat_surface n s -> closed_surface n s -> vden v <> (0, 0) -> (h < n)%nat ->
  runs_along s (vden v) h l -> reach l = vden v ->
  exists k p, (forall f, (k <= f)%nat -> follow f s h v vzero [] = Ok p) /\ map (fun x => (sc_source x, sv n x, sc_target x)) p = l /\
    forall x, In x p -> sc_valid n x /\ sc_surface x = s.
Proof.
  intros K n s v h l S0 Cl Nv Hh R E. destruct (follow_run n s S0 Cl v Nv h l R Hh 0 (Rle_refl 0)) as (k & p & Ep & Vp & Hp).
  - rewrite E. destruct (vden v); unfold padd, pscale; cbn [fst snd]; f_equal; ring.
  - exists k, p. split; auto. intros f Hf. apply (Hp f h vzero []); auto; [now exists 0%nat|]. rewrite vden_zero. destruct (vden v); unfold pscale; cbn [fst snd]; f_equal; ring.
Qed.
Print Assumptions C75_straight.

(** Hence the image of a path [v] that starts in the sector at [g] is the path that starts at the same angle in the codomain. *)
Theorem C75_segment : forall (K : ExactReal) n m (x y : sconn K) g (v : vec K) a vertex vertex' total back target t g' l k0, sc_valid n x -> sc_valid m y -> (g < n)%nat -> closed_surface m (sc_surface y) ->
  vden v <> (0, 0) -> inner_at (sc_surface x) (sc_source x) ->
  sector_contains (sc_surface x) (sc_source x) (sv n x) -> sector_contains (sc_surface y) (sc_source y) (sv m y) -> sector_contains (sc_surface x) g (vden v) ->
  same_direction (sv n x) (sv m y) -> total_turn n (sc_surface x) (sc_source x) (sv n x) g (vden v) a ->
  vertex_source (fT (sc_surface x)) (sc_source x) = Ok vertex -> angle (sc_surface x) vertex = Ok total ->
  vertex_source (fT (sc_surface y)) (sc_source y) = Ok vertex' -> angle (sc_surface y) vertex' = Ok total ->
  (forall f, (k0 <= f)%nat -> gr_source f back target (vneg v) = Ok (Some t)) ->
  (g' < m)%nat -> sector_contains (sc_surface y) g' (vden v) -> total_turn m (sc_surface y) (sc_source y) (sv m y) g' (vden v) a ->
  runs_along (sc_surface y) (vden v) g' l -> reach l = vden v ->
  exists k p, (forall f, (k <= f)%nat -> gr_segment f (sc_surface y) (Some (x, y)) back g target v = Ok (Some p)) /\
    map (fun z => (sc_source z, sv m z, sc_target z)) p = l /\ forall z, In z p -> sc_valid m z /\ sc_surface z = sc_surface y.
Proof.
  intros K n m x y g v a vertex vertex' total back target t g' l k0 X Y Hg Cl Nv In1 Cx Cy Cg Sd T Ev Et Ev' Et' Bk Hg' Cg' T' R E.
  assert (Y' := Y). destruct Y' as (S0 & Hs & _).
  destruct (C75_straight K m (sc_surface y) v g' l S0 Cl Nv Hg' R E) as (k & p & Hp & Ep & Vp).
  exists (k + k0 + m + 2)%nat, p. split; auto. intros f Hf. unfold gr_segment.
  destruct (C73_source K n m x y g v a vertex vertex' total X Y Hg In1) as (h & Eh & Hh & Ch & Th); auto; [now apply (inner_all m _ S0 Cl)|]. rewrite Eh by lia. cbn [bind].
  assert (h = g') by (apply (C73_unique K m (sc_surface y) (sc_source y) (sv m y) h g' (vden v) a); auto; now apply (inner_all m _ S0 Cl)). subst h.
  rewrite Bk by lia. cbn [bind]. rewrite Hp by lia. reflexivity.
Qed.
Print Assumptions C75_segment.

Definition flip_s : flat ExactZ := Eval vm_compute in fst (fflip torus_s 0).
Lemma flip_run : fflips torus_s [0%nat] = (flip_s, Ok tt).
Proof. vm_compute. reflexivity. Qed.
Lemma flip_flat : flat_surface 6 flip_s /\ closed_surface 6 flip_s.
Proof.
  split; [eapply fflips_surface; [apply torus_flat| |apply flip_run]; intros e [<-|[]]; lia|].
  intros e He. do 6 (destruct e as [|e]; [vm_compute; discriminate|]). lia.
Qed.
Definition on_torus : sconn ExactZ := mkSconn torus_s 2 3 [0; 1; 0]%Z.
Definition on_flip : sconn ExactZ := mkSconn flip_s 2 3 [0; 1; 0]%Z.
Ltac faces := repeat match goal with |- context [fF ?s ?h] => let k := eval vm_compute in (fF s h) in change (fF s h) with k end.
Ltac connects := apply hits_inv; faces; split; [vm_compute; discriminate|]; split; [split; unfold pdet, padd, vv; cbn; lra|];
  first [left; split; [unfold padd, vv; cbn; f_equal; lra|reflexivity] | right; left; connects | right; right; connects].
Lemma flip_connection : connection flip_s 3 (3, 1) 2.
Proof. split; [vm_compute; discriminate|]. right. connects. Qed.
Lemma computed_contains {K : ExactReal} n (s : flat K) h d : flat_surface n s -> closed_surface n s -> (h < n)%nat -> vden d <> (0, 0) -> in_sector_at s h d = Ok true -> sector_contains s h (vden d).
Proof. intros S C Hh Nd E. destruct (C25_in_sector K n s h d S Hh (C h Hh) Nd) as (b & Eb & B). apply B. congruence. Qed.
Lemma computed_vector {K : ExactReal} n (x : sconn K) v : sc_valid n x -> sc_vector x = Ok v -> sv n x = vden v.
Proof. intros X E. destruct (sc_vector_Ok n x X) as (w & Ew & Dw). congruence. Qed.
Lemma vden_zv a b : vden (zv a b) = (IZR a, IZR b).
Proof. reflexivity. Qed.
Ltac nonzero := rewrite ?vden_zv; let Q := fresh in intros Q; injection Q; intros; lra.

Example C74_ex : flat_surface 6 flip_s /\ (forall h, (h < 6)%nat -> vv flip_s h <> (0, 0)) /\ fF flip_s 3 <> 3%nat /\ connection flip_s 3 (vden (zv 3 1)) 2 /\
  sc_in_sector 50 flip_s 3 (zv 3 1) = Ok (mkSconn flip_s 3 2 [0; -2; -3]%Z) /\ sc_in_sector 50 flip_s 3 (zv 6 2) = Ok (mkSconn flip_s 3 2 [0; -2; -3]%Z) /\
  sc_in_sector 50 torus_s 0 (zv 1 0) = Ok (mkSconn torus_s 0 1 [1; 0; 0]%Z) /\ sc_in_sector 50 torus_s 0 (zv 0 1) = Throw /\
  sc_in_plane 50 flip_s 0 (zv 3 1) = Ok (mkSconn flip_s 3 2 [0; -2; -3]%Z) /\ sc_clockwise 50 on_flip (zv 3 1) = Ok (mkSconn flip_s 3 2 [0; -2; -3]%Z) /\
  sc_counterclockwise 50 flip_s 0 0 [0; -2; -3]%Z = Ok (mkSconn flip_s 3 2 [0; -2; -3]%Z) /\
  sc_in_plane_chain 50 flip_s 0 1 [0; -2; -3]%Z = Ok (mkSconn flip_s 3 2 [0; -2; -3]%Z) /\ sc_in_plane_chain 50 flip_s 4 4 [0; 0; 1]%Z = Throw.
Proof.
  destruct flip_flat as (S & C). split; auto. split; [intros h; now apply nonzero_edges|]. split; [vm_compute; discriminate|]. split; [exact flip_connection|]. repeat split; vm_compute; reflexivity.
Qed.

(** According to its documentation, the result is "the saddle connection [...] that is described by the vector".  But when there is no such saddle connection, a shorter one in the same
    direction is returned; since the search is bounded by the integer above the square of the length, also longer ones can be returned. *)
Theorem C74_vector_refuted :
  (exists (s : flat ExactZ) h (v : vec ExactZ) f x, flat_surface 6 s /\ closed_surface 6 s /\ (h < 6)%nat /\ sector_contains s h (vden v) /\
    sc_in_sector f s h v = Ok x /\ pdot (sv 6 x) (sv 6 x) < pdot (vden v) (vden v)) /\
  (exists (s : flat ExactQ) h (v : vec ExactQ) f x, flat_surface 12 s /\ closed_surface 12 s /\ (h < 12)%nat /\ sector_contains s h (vden v) /\
    sc_in_sector f s h v = Ok x /\ pdot (vden v) (vden v) < pdot (sv 12 x) (sv 12 x)).
Proof.
  split.
  - destruct torus_flat as (_ & S & C). exists torus_s, 0%nat, (zv 2 0), 50%nat, (mkSconn torus_s 0 1 [1; 0; 0]%Z). split; auto. split; auto. split; [lia|].
    split; [apply (computed_contains 6); auto; try lia; try nonzero; vm_compute; reflexivity|]. split; [vm_compute; reflexivity|].
    rewrite (computed_vector 6 _ (zv 1 0)); [unfold pdot; cbn; lra| |vm_compute; reflexivity]. split; [exact S|]. cbn; repeat split; auto; lia.
  - destruct point_flat as (S & C). set (v := qv (399 # 100) 0). assert (Nv : vden v <> (0, 0)) by (intros Q; apply (f_equal fst) in Q; unfold v, qv, vden in Q; cbn in Q; lra).
    exists point_s, 0%nat, v, 100%nat, (mkSconn point_s 0 1 [1; 0; 0; 0; 0; 0]%Z). split; auto. split; auto. split; [lia|].
    split; [apply (computed_contains 12); auto; try lia; vm_compute; reflexivity|]. split; [vm_compute; reflexivity|].
    rewrite (computed_vector 12 _ (qv 4 0)); [unfold pdot, v, qv; cbn; lra| |vm_compute; reflexivity]. split; [exact S|]. cbn; repeat split; auto; lia.
Qed.
Print Assumptions C74_vector_refuted.

(** The vector (6, 2) on a torus runs along the saddle connection (3, 1) twice; in the codomain it starts in the sector at another half edge. *)
Example C75_ex : sc_valid 6 on_torus /\ sc_valid 6 on_flip /\ closed_surface 6 flip_s /\ vden (zv 6 2) <> (0, 0) /\ inner_at torus_s 2 /\
  sector_contains torus_s 2 (sv 6 on_torus) /\ sector_contains flip_s 2 (sv 6 on_flip) /\ sector_contains torus_s 0 (vden (zv 6 2)) /\ same_direction (sv 6 on_torus) (sv 6 on_flip) /\
  vertex_source (fT torus_s) 2 = Ok (repeat true 6) /\ angle torus_s (repeat true 6) = Ok 1%nat /\ vertex_source (fT flip_s) 2 = Ok (repeat true 6) /\ angle flip_s (repeat true 6) = Ok 1%nat /\
  (exists t, forall f, (8 <= f)%nat -> gr_source f (Some (on_torus, on_flip)) 1 (vneg (zv 6 2)) = Ok (Some t)) /\
  sector_contains flip_s 3 (vden (zv 6 2)) /\
  (exists a, total_turn 6 torus_s 2 (sv 6 on_torus) 0 (vden (zv 6 2)) a /\ total_turn 6 flip_s 2 (sv 6 on_flip) 3 (vden (zv 6 2)) a) /\
  runs_along flip_s (vden (zv 6 2)) 3 [(3%nat, (3, 1), 2%nat); (3%nat, (3, 1), 2%nat)] /\ reach [(3%nat, (3, 1), 2%nat); (3%nat, (3, 1), 2%nat)] = vden (zv 6 2) /\
  (do o <- gr_segment 50 flip_s (Some (on_torus, on_flip)) (Some (on_torus, on_flip)) 0 1 (zv 6 2); Ok (option_map report o)) =
    Ok (Some [(3, 2, [0; -2; -3]%Z); (3, 2, [0; -2; -3]%Z)]%nat).
Proof.
  destruct torus_flat as (_ & S & C). destruct flip_flat as (S' & C').
  assert (X : sc_valid 6 on_torus) by (split; [exact S|]; cbn; repeat split; auto; lia).
  assert (Y : sc_valid 6 on_flip) by (split; [exact S'|]; cbn; repeat split; auto; lia).
  assert (V : sv 6 on_torus = vden (zv 0 1)) by (apply computed_vector; auto; vm_compute; reflexivity).
  assert (V' : sv 6 on_flip = vden (zv 0 1)) by (apply computed_vector; auto; vm_compute; reflexivity).
  assert (N1 : vden (zv 0 1) <> (0, 0)) by nonzero. assert (N2 : vden (zv 6 2) <> (0, 0)) by nonzero. assert (N3 : vden (vneg (zv 6 2)) <> (0, 0)) by (change (vneg (zv 6 2)) with (zv (-6) (-2)); nonzero).
  assert (C1 : sector_contains torus_s 2 (vden (zv 0 1))) by (apply (computed_contains 6); auto; try lia; vm_compute; reflexivity).
  assert (C2 : sector_contains flip_s 2 (vden (zv 0 1))) by (apply (computed_contains 6); auto; try lia; vm_compute; reflexivity).
  assert (C3 : sector_contains torus_s 0 (vden (zv 6 2))) by (apply (computed_contains 6); auto; try lia; vm_compute; reflexivity).
  assert (C4 : sector_contains flip_s 3 (vden (zv 6 2))) by (apply (computed_contains 6); auto; try lia; vm_compute; reflexivity).
  assert (C5 : sector_contains torus_s 1 (vden (vneg (zv 6 2)))) by (apply (computed_contains 6); auto; try lia; vm_compute; reflexivity).
  assert (I : inner_at torus_s 2) by (apply (inner_all 6); auto; try lia). assert (I' : inner_at flip_s 2) by (apply (inner_all 6); auto; try lia).
  assert (Sd : same_direction (sv 6 on_torus) (sv 6 on_flip)) by (rewrite V, V'; exists 1; split; [lra|]; destruct (vden (zv 0 1)); unfold pscale; cbn [fst snd]; f_equal; ring).
  assert (A1 : vertex_source (fT torus_s) 2 = Ok (repeat true 6)) by (vm_compute; reflexivity). assert (A2 : angle torus_s (repeat true 6) = Ok 1%nat) by (vm_compute; reflexivity).
  assert (B1 : vertex_source (fT flip_s) 2 = Ok (repeat true 6)) by (vm_compute; reflexivity). assert (B2 : angle flip_s (repeat true 6) = Ok 1%nat) by (vm_compute; reflexivity).
  destruct (total_turn_exists 6 torus_s S 2 0 (vden (zv 0 1)) (vden (zv 6 2))) as (a & T); auto; try lia. { exists 4%nat. reflexivity. }
  destruct (total_turn_exists 6 torus_s S 2 1 (vden (zv 0 1)) (vden (vneg (zv 6 2)))) as (b & U); auto; try lia. { exists 1%nat. reflexivity. }
  destruct (C73_source _ 6 6 on_torus on_flip 0 (zv 6 2) a (repeat true 6) (repeat true 6) 1) as (g' & G1 & G2 & G3 & G4); auto; try (rewrite ?V, ?V'; auto; fail); try lia.
  destruct (C73_source _ 6 6 on_torus on_flip 1 (vneg (zv 6 2)) b (repeat true 6) (repeat true 6) 1) as (h' & H1 & _); auto; try (rewrite ?V, ?V'; auto; fail); try lia.
  assert (E : gr_source 9 (Some (on_torus, on_flip)) 0 (zv 6 2) = Ok (Some 3%nat)) by (vm_compute; reflexivity). rewrite G1 in E by lia. assert (g' = 3%nat) by congruence. subst g'.
  assert (Q1 : exists t, forall f, (8 <= f)%nat -> gr_source f (Some (on_torus, on_flip)) 1 (vneg (zv 6 2)) = Ok (Some t)) by (exists h'; intros f Hf; apply H1; lia).
  assert (Q2 : exists a, total_turn 6 torus_s 2 (vden (zv 0 1)) 0 (vden (zv 6 2)) a /\ total_turn 6 flip_s 2 (vden (zv 0 1)) 3 (vden (zv 6 2)) a).
  { exists a. split; auto. rewrite <- V'. exact G4. }
  assert (D : same_direction (vden (zv 6 2)) (3, 1)) by (exists (1 / 2); split; [lra|]; rewrite vden_zv; unfold pscale; cbn [fst snd]; f_equal; lra).
  assert (Q3 : runs_along flip_s (vden (zv 6 2)) 3 [(3%nat, (3, 1), 2%nat); (3%nat, (3, 1), 2%nat)]).
  { apply (runs_more _ _ 3 _ 2 3); auto; [exact flip_connection|exists (repeat true 6); split; auto| |].
    - exists 3%nat. vm_compute. reflexivity.
    - apply runs_last; auto. exact flip_connection. }
  assert (Q4 : reach [(3%nat, (3, 1), 2%nat); (3%nat, (3, 1), 2%nat)] = vden (zv 6 2)) by (rewrite vden_zv; unfold reach; cbn [map psum fst snd]; unfold padd; cbn [fst snd]; f_equal; lra).
  assert (Q5 : (do o <- gr_segment 50 flip_s (Some (on_torus, on_flip)) (Some (on_torus, on_flip)) 0 1 (zv 6 2); Ok (option_map report o)) =
    Ok (Some [(3, 2, [0; -2; -3]%Z); (3, 2, [0; -2; -3]%Z)]%nat)) by (vm_compute; reflexivity).
  rewrite V, V' in *. repeat (first [assumption | split; [assumption|]]).
Qed.
