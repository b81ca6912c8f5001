(** * Theorems on restrictions of saddle connections *)
From Coq Require Import ZArith Reals List Arith Bool Lia Lra Psatz.
From Verif Require Import Base HalfEdge HalfEdgeFacts Perm PermSpec PermFacts PermCycles IndexedSet Combinatorial CombinatorialSpec
  CombinatorialFacts CombinatorialHistory CombinatorialOps CombinatorialProps ExactReal Vector PlaneSpec Plane VectorFacts VectorProps
  FlatTri FlatSpec FlatFacts FlatSum FlatAngle FlatProps Chain ChainSpec ChainFacts Saddle SaddleSpec SaddleFacts SaddleTurn
  Search SearchSpec SearchPlane SearchProps SectorSpec SectorFacts.
Import ListNotations.
Local Open Scope R_scope.

(** ** Pairs in lists *)
Section pairs.
Context {A : Type} (P : A -> A -> Prop).
Lemma pairs_app l1 l2 : ForallOrdPairs P l1 -> ForallOrdPairs P l2 -> (forall x y, In x l1 -> In y l2 -> P x y) -> ForallOrdPairs P (l1 ++ l2).
Proof.
  induction 1 as [|a l H F IH]; intros F2 C; cbn [app]; auto. constructor; [|apply IH; auto; intros; apply C; auto; now right].
  apply Forall_app. split; auto. apply Forall_forall. intros y I. apply C; auto. now left.
Qed.
Lemma pairs_filter f l : ForallOrdPairs P l -> ForallOrdPairs P (filter f l).
Proof.
  induction 1 as [|a l H F IH]; cbn [filter]; [constructor|]. destruct (f a); auto. constructor; auto. apply Forall_forall. intros y I. apply filter_In in I. rewrite Forall_forall in H. now apply H.
Qed.
Lemma pairs_nth l : (forall i j x y, (i < j)%nat -> nth_error l i = Some x -> nth_error l j = Some y -> P x y) -> ForallOrdPairs P l.
Proof.
  induction l as [|a l IH]; intros H; constructor.
  - apply Forall_forall. intros y I. apply In_nth_error in I. destruct I as [j E]. apply (H 0%nat (Datatypes.S j)); auto. lia.
  - apply IH. intros i j x y L E1 E2. apply (H (Datatypes.S i) (Datatypes.S j)); auto. lia.
Qed.
End pairs.
Lemma pairs_impl {A} (P Q : A -> A -> Prop) l : (forall x y, P x y -> Q x y) -> ForallOrdPairs P l -> ForallOrdPairs Q l.
Proof. intros H F. induction F; constructor; auto. eapply Forall_impl; [|eassumption]. auto. Qed.

(** ** Refining a part of a sector *)
Theorem C34_refine {K : ExactReal} n (s : flat K) x b e : flat_surface n s -> (sec_source x < n)%nat -> fF s (sec_source x) <> sec_source x -> part_ok s x ->
  vden b <> (0, 0) -> vden e <> (0, 0) -> exists l, refine s x b e = Ok l /\ restricted s x (vden b) (vden e) l.
Proof.
  intros S0 Hx Nx Px Hb He. pose proof (corner_det n s _ S0 Hx Nx) as D. destruct (det_nonzero _ _ D) as [N1 N2]. destruct (turn_exists _ _ N1 N2) as (o & To). now apply (refine_core n s S0 x Hx Nx o To).
Qed.
Print Assumptions C34_refine.

Section collections.
Context {K : ExactReal}.

Lemma refine_total n (s : flat K) x b e : flat_surface n s -> (forall h, (h < n)%nat -> vv s h <> (0, 0)) -> (sec_source x < n)%nat -> nonzero_part x -> vden b <> (0, 0) -> vden e <> (0, 0) ->
  exists l, refine s x b e = Ok l /\ forall y, In y l -> sec_source y = sec_source x /\ nonzero_part y.
Proof.
  intros S0 Nz Hx Nx Hb He. assert (Hv : (fV s (sec_source x) < n)%nat) by now apply (nV_lt n (fT s) (fs_wf n s S0)).
  assert (X : exists F S, match sec_sector x with Some p => Ok p | None => do a <- from_he s (sec_source x); do n <- nextAtVertex (fT s) (sec_source x); do b <- from_he s n; Ok (a, b) end = Ok (F, S) /\
    vden F <> (0, 0) /\ vden S <> (0, 0)).
  { unfold nonzero_part in Nx. destruct (sec_sector x) as [[F S]|]; [exists F, S; tauto|]. rewrite from_he_Ok by (now rewrite (fs_length n s S0)). cbn [bind]. rewrite (nextV_Ok n (fT s) _ (fs_wf n s S0) Hx). cbn [bind].
    rewrite from_he_Ok by (now rewrite (fs_length n s S0)). cbn [bind]. eexists _, _. split; [reflexivity|]. split; now apply Nz. }
  destruct X as (F & S & E & HF & HS). unfold refine. rewrite E. cbn [bind].
  destruct (inSector_is b F S Hb HF HS) as (ib & -> & _). destruct (inSector_is e F S He HF HS) as (ie & -> & _). destruct (inSector_is F b e HF Hb He) as (jf & -> & _). cbn [bind].
  destruct ib; [destruct (ccw_eqb (ccw b e) CLOCKWISE); [destruct (ccw_eqb (ccw F e) COUNTERCLOCKWISE)|destruct ie]|destruct (ie && _); [|destruct jf]];
    (eexists; split; [reflexivity|]; intros y I; repeat (destruct I as [<-|I]); try destruct I; unfold nonzero_part; cbn [sec_source sec_sector]; auto).
Qed.

Lemma connection_corner n (s : flat K) h v g : flat_surface n s -> (h < n)%nat -> connection s h v g -> in_sector v (vv s h) (vv s (fV s h)).
Proof.
  intros S0 Hh C. pose proof (connection_nonzero n s S0 h v g Hh C) as P. destruct C as (Nb & H). pose proof (corner_det n s h S0 Hh Nb) as Dt. destruct (det_nonzero _ _ Dt) as [N1 N2].
  assert (Nv : v <> (0, 0)) by (intros ->; unfold pdot in P; cbn in P; lra). apply in_sector_signs; auto. left. destruct H as [[-> _]|H].
  - split; auto. split; auto. unfold pdet; lra.
  - apply hits_crosses in H. destruct H as [H1 H2]. split; auto. split; [lra|]. pose proof (fs_flat n s S0 h Hh Nb) as (Z & _). pose proof (vv_fV n s h S0 Hh Nb) as E.
    rewrite E. apply sum0 in Z. rewrite Z. rewrite (pneg_pneg). auto.
Qed.

(** ** All the connections *)
Theorem C34_all n (s : flat K) : flat_surface n s -> (forall h, (h < n)%nat -> vv s h <> (0, 0)) -> collection n (make_conns s) (fun h v g => (h < n)%nat /\ connection s h v g).
Proof.
  intros S0 Nz. pose proof (fs_wf n s S0) as W. assert (He : half_edges (fT s) = seq 0 n) by (unfold half_edges; now rewrite (wf_size n _ W)).
  assert (Sc : cn_sectors (make_conns s) = map (fun h => mkSsector h None) (seq 0 n)) by (unfold make_conns; cbn [cn_sectors]; now rewrite He).
  assert (In' : forall x, In x (cn_sectors (make_conns s)) -> exists h, x = mkSsector h None /\ (h < n)%nat) by (intros x I; rewrite Sc in I; apply in_map_iff in I; destruct I as (h & <- & I); apply in_seq in I; exists h; split; [auto|lia]).
  split; cbn [cn_surface cn_lower cn_radius make_conns]; auto; try lia.
  - intros x I. destruct (In' x I) as (h & -> & L). split; auto. intros _. exact Logic.I.
  - intros x I. destruct (In' x I) as (h & -> & L). exact Logic.I.
  - rewrite Sc. generalize (seq_NoDup n 0). generalize (seq 0 n). clear. induction l as [|a l IH]; intros Nd; cbn [map]; [constructor|]. inversion_clear Nd as [|? ? Na Nl]. constructor; auto.
    apply Forall_forall. intros y I. apply in_map_iff in I. destruct I as (b & <- & I). intros v g g' E _ _. cbn in E. subst b. auto.
  - intros h v g. split.
    + intros (x & I & <- & C & _). destruct (In' x I) as (h & -> & L). cbn. auto.
    + intros (Hh & C). exists (mkSsector h None). split; [rewrite Sc; apply (in_map (fun h => mkSsector h None)), in_seq; lia|]. split; auto. split; auto. split; [exact Logic.I|]. split; [|exact Logic.I]. now apply (connection_nonzero n s S0 h v g).
Qed.

(** What the search reports. *)
Theorem C34_search n (cs : conns K) D r : collection n cs D -> cn_radius cs = Some r ->
  exists k l, (forall f, (k <= f)%nat -> search cs f = Ok l) /\
    NoDup (map (fun y => (sc_source y, sv n y)) l) /\ (forall y, In y l -> sc_valid n y /\ sc_surface y = cn_surface cs) /\
    forall h v g, D h v g <-> exists y, In y l /\ sc_source y = h /\ sv n y = v /\ sc_target y = g.
Proof.
  intros C Er. pose proof (co_radius n cs D C) as R0. rewrite Er in R0. destruct (C56_sectors n cs r (co_surface n cs D C) Er R0 (co_lower n cs D C) (co_sectors n cs D C)) as (k & ls & H & F).
  exists k, (concat ls). split; auto. split; [|split].
  - pose proof (co_apart n cs D C) as Ap. clear H. clear - F Ap. induction F as [|x l xs ls Hx F IH]; [constructor|]. cbn [concat]. rewrite map_app. inversion_clear Ap as [|? ? A1 A2]. apply nodup_app; auto.
    + destruct Hx as (N & _). clear - N. induction l as [|a l IH]; [constructor|]. cbn [map] in *. inversion_clear N as [|? ? Na Nl]. constructor; auto. intros I. apply Na. apply in_map_iff in I. destruct I as (y & E & I). injection E as _ E. apply in_map_iff. eauto.
    + intros z I J. apply in_map_iff in I, J. destruct I as (y & <- & Iy), J as (y' & E & Iy'). injection E as E1 E2. destruct (in_concat2 _ _ _ F y' Iy') as (x' & l' & Ix' & (_ & B' & W') & Il').
      destruct Hx as (_ & B & W). rewrite Forall_forall in A1. destruct (B y Iy) as (_ & _ & Sy). destruct (B' y' Il') as (_ & _ & Sy').
      pose proof (proj2 (W (sv n y) (sc_target y)) (ex_intro _ y (conj Iy (conj eq_refl eq_refl)))) as Wy. pose proof (proj2 (W' (sv n y') (sc_target y')) (ex_intro _ y' (conj Il' (conj eq_refl eq_refl)))) as Wy'.
      assert (Ex : sec_source x = sec_source x') by congruence. rewrite E2 in Wy'. exact (A1 x' Ix' (sv n y) _ _ Ex Wy Wy').
  - intros y I. destruct (in_concat2 _ _ _ F y I) as (x & l & _ & (_ & B & _) & Il). split; now apply B.
  - intros h v g. rewrite <- (co_found n cs D C h v g). split.
    + intros (x & Ix & <- & Wx). destruct (concat_in2 _ _ _ F x Ix) as (l & (_ & B & W) & Sub). destruct (proj1 (W v g) Wx) as (y & Iy & Ey & Ty). exists y. split; auto. split; [now apply B|auto].
    + intros (y & I & <- & <- & <-). destruct (in_concat2 _ _ _ F y I) as (x & l & Ix & (_ & B & W) & Il). exists x. split; auto. split; [symmetry; now apply B|]. apply W. eauto.
Qed.

(** ** Lengths *)
Theorem C34_bound n (cs : conns K) D r : collection n cs D -> (0 <= r)%Z -> collection n (cn_bound cs r) (fun h v g => D h v g /\ pdot v v <= IZR r).
Proof.
  intros C Hr. assert (Wd : forall x v g, wanted (cn_bound cs r) x v g <-> wanted cs x v g /\ pdot v v <= IZR r).
  { intros x v g. unfold wanted, cn_bound; cbn [cn_surface cn_lower cn_radius]. destruct (cn_radius cs) as [q|]; [|tauto]. unfold bltb. destruct (Z.ltb_spec r q) as [L|L]; [apply IZR_lt in L|apply IZR_le in L]; split.
    - intros (A1 & A2 & A3 & A4). split; auto. split; auto. split; auto. split; auto. lra.
    - intros ((A1 & A2 & A3 & A4) & A5). auto.
    - intros (A1 & A2 & A3 & A4). split; [auto|lra].
    - tauto. }
  destruct C as [S0 Nz Sk Nn Lo Ra Ap Fo]. split; auto.
  - unfold cn_bound; cbn [cn_radius]. destruct (cn_radius cs) as [q|]; auto. destruct (bltb r q); auto.
  - eapply pairs_impl; [|exact Ap]. intros x y A v g g' E X Y. apply Wd in X, Y. now apply (A v g g' E).
  - intros h v g. rewrite <- Fo. unfold found. cbn [cn_sectors cn_bound]. split.
    + intros (x & I & E & X). apply Wd in X. split; [exists x; tauto|tauto].
    + intros ((x & I & E & X) & L). exists x. split; auto. split; auto. apply Wd. auto.
Qed.
Theorem C34_lower_bound n (cs : conns K) D r : collection n cs D -> collection n (cn_lower_bound cs r) (fun h v g => D h v g /\ IZR r < pdot v v).
Proof.
  intros C. assert (Wd : forall x v g, wanted (cn_lower_bound cs r) x v g <-> wanted cs x v g /\ IZR r < pdot v v).
  { intros x v g. unfold wanted, cn_lower_bound; cbn [cn_surface cn_lower cn_radius]. unfold bltb. destruct (Z.ltb_spec (cn_lower cs) r) as [L|L]; [apply IZR_lt in L|apply IZR_le in L]; split.
    - intros (A1 & A2 & A3 & A4). split; auto. split; auto. split; auto. split; auto. lra.
    - tauto.
    - intros (A1 & A2 & A3 & A4). split; [auto|lra].
    - tauto. }
  destruct C as [S0 Nz Sk Nn Lo Ra Ap Fo]. split; auto.
  - unfold cn_lower_bound; cbn [cn_lower]. unfold bltb. destruct (Z.ltb_spec (cn_lower cs) r); lia.
  - eapply pairs_impl; [|exact Ap]. intros x y A v g g' E X Y. apply Wd in X, Y. now apply (A v g g' E).
  - intros h v g. rewrite <- Fo. unfold found. cbn [cn_sectors cn_lower_bound]. split.
    + intros (x & I & E & X). apply Wd in X. split; [exists x; tauto|tauto].
    + intros ((x & I & E & X) & L). exists x. split; auto. split; auto. apply Wd. auto.
Qed.

(** ** Sectors *)
Lemma collection_filter n (cs : conns K) D f P : collection n cs D -> (forall x, In x (cn_sectors cs) -> f x = true <-> P (sec_source x)) ->
  collection n (set_sectors cs (filter f (cn_sectors cs))) (fun h v g => D h v g /\ P h).
Proof.
  intros [S0 Nz Sk Nn Lo Ra Ap Fo] Hf. split; auto; unfold set_sectors; cbn [cn_sectors cn_surface].
  - intros x I. apply filter_In in I. now apply Sk.
  - intros x I. apply filter_In in I. now apply Nn.
  - now apply pairs_filter.
  - intros h v g. rewrite <- Fo. unfold found. cbn [cn_sectors]. split.
    + intros (x & I & <- & X). apply filter_In in I. destruct I as [I Ef]. split; [exists x; auto|]. now apply (Hf x I).
    + intros ((x & I & <- & X) & Q). exists x. split; auto. apply filter_In. split; auto. now apply (Hf x I).
Qed.
Theorem C34_sector_at n (cs : conns K) D h0 : collection n cs D -> collection n (cn_sector_at cs h0) (fun h v g => D h v g /\ h = h0).
Proof. intros C. apply (collection_filter n cs D _ (fun h => h = h0)); auto. intros x _. apply Nat.eqb_eq. Qed.
Lemma ofilter_Ok {A} (p : A -> outcome bool) f : forall l, (forall x, In x l -> p x = Ok (f x)) -> ofilter p l = Ok (filter f l).
Proof.
  induction l as [|a l IH]; intros H; auto. cbn [ofilter filter]. rewrite H by now left. cbn [bind]. rewrite IH by (intros; apply H; now right). reflexivity.
Qed.
Theorem C34_source n (cs : conns K) D h0 vx : collection n cs D -> (h0 < n)%nat -> vertex_source (fT (cn_surface cs)) h0 = Ok vx ->
  exists cs', cn_source cs vx = Ok cs' /\ cn_surface cs' = cn_surface cs /\ cn_radius cs' = cn_radius cs /\ collection n cs' (fun h v g => D h v g /\ same_vertex (fT (cn_surface cs)) h0 h).
Proof.
  intros C H0 Ev. pose proof (fs_wf n _ (co_surface n cs D C)) as W.
  set (f := fun x : ssector K => match vertex_source (fT (cn_surface cs)) (sec_source x) with Ok w => vertex_eqb w vx | _ => false end).
  exists (set_sectors cs (filter f (cn_sectors cs))). split; [|split; [|split]]; auto.
  - unfold cn_source. rewrite (ofilter_Ok _ f); auto. intros x I. unfold f. destruct (vertex_source_Ok n _ (sec_source x) W) as (w & E & _); [now apply (co_sectors n cs D C)|]. now rewrite E.
  - apply collection_filter; auto. intros x I. unfold f. assert (Hx : (sec_source x < n)%nat) by now apply (co_sectors n cs D C). destruct (vertex_source_Ok n _ (sec_source x) W Hx) as (w & E & _). rewrite E.
    rewrite (vertex_eqb_spec n _ _ _ _ _ W Hx H0 E Ev). split; intros Sv; [now apply (same_vertex_sym n _ _ _ W Hx)|now apply (same_vertex_sym n _ _ _ W H0)].
Qed.

(** Replacing each part by parts of it. *)
Lemma collection_parts n (cs : conns K) D (f : ssector K -> outcome (list (ssector K))) (P : nat -> pt -> Prop) : collection n cs D ->
  (forall x, In x (cn_sectors cs) -> exists l, f x = Ok l /\ (forall y, In y l -> sec_source y = sec_source x /\ nonzero_part y) /\
    (fF (cn_surface cs) (sec_source x) <> sec_source x -> part_ok (cn_surface cs) x ->
      (forall y, In y l -> part_ok (cn_surface cs) y) /\
      (forall v, sector_contains (cn_surface cs) (sec_source x) v -> (exists y, In y l /\ in_part y v) <-> in_part x v /\ P (sec_source x) v) /\
      (forall v i j y z, sector_contains (cn_surface cs) (sec_source x) v -> nth_error l i = Some y -> nth_error l j = Some z -> in_part y v -> in_part z v -> i = j))) ->
  exists l, oconcat f (cn_sectors cs) = Ok l /\ collection n (set_sectors cs l) (fun h v g => D h v g /\ P h v).
Proof.
  intros C Hf. set (s := cn_surface cs) in *.
  assert (G : forall xs, (forall x, In x xs -> In x (cn_sectors cs)) -> ForallOrdPairs (apart cs) xs -> exists l, oconcat f xs = Ok l /\
    sectors_ok n s l /\ (forall x, In x l -> nonzero_part x) /\ ForallOrdPairs (apart cs) l /\
    (forall y, In y l -> exists x, In x xs /\ sec_source x = sec_source y /\ forall v g, wanted cs y v g -> wanted cs x v g) /\
    forall h v g, (exists y, In y l /\ sec_source y = h /\ wanted cs y v g) <-> (exists x, In x xs /\ sec_source x = h /\ wanted cs x v g) /\ P h v).
  { induction xs as [|x xs IH]; intros Sub Ap.
    - exists []. split; auto. split; [intros y []|]. split; [intros y []|]. split; [constructor|]. split; [intros y []|]. intros h v g. split; [intros (y & [] & _)|intros ((y & [] & _) & _)].
    - inversion_clear Ap as [|? ? A1 A2]. destruct IH as (l & El & L1 & L2 & L3 & L4 & L5); [intros; apply Sub; now right|auto|].
      assert (Ix : In x (cn_sectors cs)) by (apply Sub; now left). destruct (Hf x Ix) as (l0 & E0 & B1 & B2). exists (l0 ++ l). cbn [oconcat]. rewrite E0. cbn [bind]. rewrite El. cbn [bind]. split; auto.
      destruct (co_sectors n cs D C x Ix) as [Hx Px]. pose proof (co_surface n cs D C) as S0.
      assert (Wn : forall y v g, wanted cs y v g -> fF s (sec_source y) <> sec_source y) by (intros y v g (Cn & _); apply Cn).
      assert (Wc : forall v g, connection s (sec_source x) v g -> sector_contains s (sec_source x) v) by (intros v g Cn; now apply (connection_corner n s (sec_source x) v g)).
      assert (Fr : forall y v g, In y l0 -> wanted cs y v g -> wanted cs x v g /\ P (sec_source x) v).
      { intros y v g Iy Wy. destruct (B1 y Iy) as [Sy _]. pose proof (Wn y v g Wy) as Nb. rewrite Sy in Nb. destruct (B2 Nb (Px Nb)) as (_ & B3 & _). destruct Wy as (Cn & Ip & Le). rewrite Sy in Cn.
        destruct (proj1 (B3 v (Wc v g Cn))) as [X1 X2]; [exists y; auto|]. split; auto. split; auto. }
      split; [|split; [|split; [|split]]].
      + intros y I. apply in_app_iff in I. destruct I as [I|I]; [|now apply L1]. destruct (B1 y I) as [Sy _]. rewrite Sy. split; auto. intros Nb. now apply B2; auto.
      + intros y I. apply in_app_iff in I. destruct I as [I|I]; [now apply B1|now apply L2].
      + apply pairs_app; auto.
        * apply pairs_nth. intros i j y z Lij Ey Ez v g g' Es Wy Wz. pose proof (nth_error_In _ _ Ey) as Iy. destruct (B1 y Iy) as [Sy _]. pose proof (Wn y v g Wy) as Nb. rewrite Sy in Nb.
          destruct (B2 Nb (Px Nb)) as (_ & _ & B4). destruct Wy as (Cn & Ip & _), Wz as (_ & Iq & _). rewrite Sy in Cn. pose proof (B4 v i j y z (Wc v g Cn) Ey Ez Ip Iq). lia.
        * intros y z Iy Iz v g g' Es Wy Wz. destruct (Fr y v g Iy Wy) as [Wx _]. destruct (L4 z Iz) as (x' & Ix' & Sx' & Wx'). rewrite Forall_forall in A1. apply (A1 x' Ix' v g g'); auto. destruct (B1 y Iy) as [Sy _]. congruence.
      + intros y I. apply in_app_iff in I. destruct I as [I|I].
        * exists x. split; [now left|]. destruct (B1 y I) as [Sy _]. split; auto. intros v g Wy. now apply (Fr y v g I).
        * destruct (L4 y I) as (x' & Ix' & X). exists x'. split; [now right|auto].
      + intros h v g. split.
        * intros (y & I & <- & Wy). apply in_app_iff in I. destruct I as [I|I].
          -- destruct (Fr y v g I Wy) as [X1 X2]. destruct (B1 y I) as [Sy _]. rewrite Sy. split; auto. exists x. split; [now left|auto].
          -- destruct (proj1 (L5 (sec_source y) v g)) as ((x' & I' & X) & Q); [exists y; auto|]. split; auto. exists x'. split; [now right|auto].
        * intros ((x' & [<-|I'] & <- & Wx) & Q).
          -- pose proof (Wn x v g Wx) as Nb. destruct (B2 Nb (Px Nb)) as (_ & B3 & _). destruct Wx as (Cn & Ip & Le). destruct (proj2 (B3 v (Wc v g Cn)) (conj Ip Q)) as (y & Iy & Iq). exists y.
             destruct (B1 y Iy) as [Sy _]. split; [apply in_app_iff; auto|]. split; auto. unfold wanted. rewrite Sy. auto.
          -- destruct (proj2 (L5 (sec_source x') v g)) as (y & Iy & Sy & Wy); [split; auto; exists x'; auto|]. exists y. split; [apply in_app_iff; auto|auto]. }
  destruct (G (cn_sectors cs)) as (l & El & L1 & L2 & L3 & _ & L5); auto; [apply C|]. exists l. split; auto. destruct C as [S0 Nz Sk Nn Lo Ra Ap Fo]. split; auto.
  intros h v g. rewrite <- Fo. apply L5.
Qed.

Theorem C34_sector n (cs : conns K) D b e : collection n cs D -> vden b <> (0, 0) -> vden e <> (0, 0) ->
  exists cs', cn_sector_vectors cs b e = Ok cs' /\ cn_surface cs' = cn_surface cs /\ cn_radius cs' = cn_radius cs /\ collection n cs' (fun h v g => D h v g /\ in_sector v (vden b) (vden e)).
Proof.
  intros C Hb He. destruct (collection_parts n cs D (fun x => refine (cn_surface cs) x b e) (fun _ v => in_sector v (vden b) (vden e)) C) as (l & El & Cl).
  - intros x I. destruct (co_sectors n cs D C x I) as [Hx Px]. pose proof (co_surface n cs D C) as S0.
    destruct (refine_total n (cn_surface cs) x b e S0 (co_edges n cs D C) Hx (co_nonzero n cs D C x I) Hb He) as (l & El & Hl). exists l. split; auto. split; auto.
    intros Nb Pk. destruct (C34_refine n (cn_surface cs) x b e S0 Hx Nb Pk Hb He) as (l' & El' & R1 & R2 & R3). rewrite El in El'. injection El' as <-. split; [intros y J; now apply R1|auto].
  - exists (set_sectors cs l). split; [unfold cn_sector_vectors; now rewrite El|]. auto.
Qed.
End collections.
Print Assumptions C34_all.
Print Assumptions C34_search.
Print Assumptions C34_bound.
Print Assumptions C34_lower_bound.
Print Assumptions C34_sector_at.
Print Assumptions C34_source.
Print Assumptions C34_sector.

(** On the torus: a part from which two parts remain, and a search between two bounds in a sector. *)
Definition restricted_report {K : ExactReal} (o : outcome (conns K)) (f : nat) : option (list (nat * nat * list Z)) :=
  match o with Ok cs => match search cs f with Ok l => Some (report l) | _ => None end | _ => None end.
Example C34_ex : flat_surface 6 torus_s /\ (forall h, (h < 6)%nat -> vv torus_s h <> (0, 0)) /\ fF torus_s 0 <> 0%nat /\ part_ok torus_s (mkSsector 0 None) /\
  (exists x y, refine torus_s (mkSsector 0 None) (zv 3 2) (zv 3 1) = Ok [x; y]) /\ refine torus_s (mkSsector 0 None) (zv (-1) 0) (zv 1 0) = Ok [] /\
  collection 6 (make_conns torus_s) (fun h v g => (h < 6)%nat /\ connection torus_s h v g) /\ vden (zv 3 1) <> (0, 0) /\ vden (zv 1 3) <> (0, 0) /\
  restricted_report (cn_sector_vectors (cn_lower_bound (cn_bound (make_conns torus_s) 13%Z) 2%Z) (zv 3 1) (zv 1 3)) 999 =
    Some [(0, 1, [1; 0; -1]%Z); (0, 1, [2; 0; -1]%Z); (0, 1, [3; 2; 0]%Z); (5, 4, [0; 1; -1]%Z); (5, 4, [0; 1; -2]%Z)]%nat /\
  restricted_report (Ok (cn_sector_at (cn_lower_bound (cn_bound (make_conns torus_s) 13%Z) 4%Z) 0)) 999 = Some [(0, 1, [1; 0; -1]%Z); (0, 1, [2; 0; -1]%Z); (0, 1, [4; 3; 1]%Z)]%nat.
Proof.
  pose proof (proj1 (proj2 torus_flat)) as S0. assert (Nz : forall h, (h < 6)%nat -> vv torus_s h <> (0, 0)).
  { intros h Hh E. pose proof (f_equal fst E) as E1. pose proof (f_equal snd E) as E2. do 6 (destruct h as [|h]; [cbn in E1, E2; lra|]). lia. }
  split; auto. split; auto. split; [discriminate|]. split; [exact I|]. split; [eexists _, _; reflexivity|]. split; [reflexivity|]. split; [now apply C34_all|].
  split; [intros E; apply (f_equal fst) in E; cbn in E; lra|]. split; [intros E; apply (f_equal fst) in E; cbn in E; lra|]. split; vm_compute; reflexivity.
Qed.
