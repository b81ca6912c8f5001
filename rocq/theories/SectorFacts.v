(** * Restricting sectors *)
From Coq Require Import ZArith Reals List Arith Bool Lia Lra Psatz.
From Verif Require Import Base HalfEdge HalfEdgeFacts Perm PermSpec PermFacts IndexedSet Combinatorial CombinatorialSpec
  CombinatorialFacts CombinatorialHistory CombinatorialOps ExactReal Vector PlaneSpec Plane VectorFacts
  FlatTri FlatSpec FlatFacts FlatSum FlatAngle Chain ChainSpec ChainFacts Saddle SaddleSpec SaddleFacts Search SearchSpec SearchPlane SectorSpec.
Import ListNotations.
Local Open Scope R_scope.

(** The cyclic order of angles between 0 and 2 pi. *)
Definition between (p a q : R) : Prop := (p <= a /\ a < q) \/ (q < p /\ (p <= a \/ a < q)) \/ (p = q /\ a = p).

Section angles.
Variables (u : pt) (Hu : u <> (0, 0)).

Lemma turn_gap b v p a : turn u b p -> turn u v a -> v <> (0, 0) -> turn b v (a - p + (if Rlt_dec a p then 2 * PI else 0)).
Proof.
  intros Tb Tv Hv. assert (Hb : b <> (0, 0)) by (apply (turn_nonzero u b p); auto). destruct (turn_exists b v Hb Hv) as (c & Tc).
  now rewrite <- (turn_step u b v a p c Hu Tv Tb Tc).
Qed.
Lemma in_sector_between v b e a p q : v <> (0, 0) -> turn u v a -> turn u b p -> turn u e q -> (in_sector v b e <-> between p a q).
Proof.
  intros Hv Tv Tb Te. assert (Hb : b <> (0, 0)) by (apply (turn_nonzero u b p); auto). assert (He : e <> (0, 0)) by (apply (turn_nonzero u e q); auto).
  pose proof (turn_gap b v p a Tb Tv Hv) as X. pose proof (turn_gap b e p q Tb Te He) as Y.
  destruct Tv as ((A0 & A1) & _), Tb as ((P0 & P1) & _), Te as ((Q0 & Q1) & _). unfold between. split.
  - intros (x & y & X' & Y' & H). rewrite (turn_unique b v _ _ Hb X' X), (turn_unique b e _ _ Hb Y' Y) in H. clear X X' Y Y'.
    destruct (Rlt_dec a p), (Rlt_dec q p); lra.
  - intros H. eexists _, _. split; [exact X|]. split; [exact Y|]. clear X Y. destruct (Rlt_dec a p), (Rlt_dec q p); lra.
Qed.
(** The orientation of two directions. *)
Lemma det_angles b e p q : turn u b p -> turn u e q ->
  (0 < pdet b e <-> 0 < q - p < PI \/ q - p < - PI) /\ (pdet b e < 0 <-> PI < q - p \/ - PI < q - p < 0) /\
  (pdet b e = 0 /\ 0 < pdot b e <-> p = q) /\ (pdet b e = 0 /\ pdot b e < 0 <-> q - p = PI \/ q - p = - PI).
Proof.
  intros Tb Te. assert (He : e <> (0, 0)) by (apply (turn_nonzero u e q); auto). assert (Hb : b <> (0, 0)) by (apply (turn_nonzero u b p); auto).
  pose proof (turn_gap b e p q Tb Te He) as Y. destruct Tb as ((P0 & P1) & _), Te as ((Q0 & Q1) & _). set (c := q - p + (if Rlt_dec q p then 2 * PI else 0)) in *.
  assert (Ec : (p <= q /\ c = q - p) \/ (q < p /\ c = q - p + 2 * PI)) by (unfold c; destruct (Rlt_dec q p); lra). clearbody c.
  destruct (turn_dot b e c Y) as (r & Hr & Ed & Es). destruct Y as (Bc & _). apply pdot_pos in Hb. assert (Q : 0 < r * pdot b b) by nra. set (k := r * pdot b b) in *.
  clearbody k. clear Hr r He. pose proof PI_RGT_0. rewrite Ed, Es. clear Ed Es Hb.
  pose proof (sin_pos_iff c Bc) as S1. pose proof (sin_neg_iff c Bc) as S2. pose proof (sin_zero_iff c Bc) as S3.
  destruct (pos_scale k (sin c) Q) as (K1 & _ & K2 & K3). destruct (pos_scale k (cos c) Q) as (K4 & _ & K5 & _). rewrite K1, K2, K3, K4, K5, S1, S2, S3. clear K1 K2 K3 K4 K5 S1 S2 S3.
  split; [lra|]. split; [lra|]. split; split.
  - intros [[->| ->] C]; [lra|rewrite cos_PI in C; lra].
  - intros ->. assert (c = 0) by lra. subst c. rewrite cos_0. lra.
  - intros [[->| ->] C]; [rewrite cos_0 in C; lra|lra].
  - intros E. assert (c = PI) by lra. subst c. rewrite cos_PI. lra.
Qed.
End angles.

Section refine.
Context {K : ExactReal}.

Lemma ccw_CW (v w : vec K) : ccw_eqb (ccw v w) CLOCKWISE = true <-> pdet (vden v) (vden w) < 0.
Proof. pose proof (ccw_cases v w). destruct (ccw v w); cbn; split; intros; try discriminate; auto; lra. Qed.
Lemma ccw_CCW (v w : vec K) : ccw_eqb (ccw v w) COUNTERCLOCKWISE = true <-> 0 < pdet (vden v) (vden w).
Proof. pose proof (ccw_cases v w). destruct (ccw v w); cbn; split; intros; try discriminate; auto; lra. Qed.
Lemma ccw_same (v w : vec K) : ccw_eqb (ccw v w) COLLINEAR && orientation_eqb (orientation v w) SAME = true <-> pdet (vden v) (vden w) = 0 /\ 0 < pdot (vden v) (vden w).
Proof. pose proof (ccw_cases v w). pose proof (orientation_cases v w). destruct (ccw v w), (orientation v w); cbn; split; intros; try discriminate; auto; lra. Qed.
Lemma inSector_is (v b e : vec K) : vden v <> (0, 0) -> vden b <> (0, 0) -> vden e <> (0, 0) -> exists r, inSector v b e = Ok r /\ (r = true <-> in_sector (vden v) (vden b) (vden e)).
Proof. intros Hv Hb He. destruct (inSector_Ok v b e Hv Hb He) as (r & E & H). exists r. split; auto. now rewrite H, <- in_sector_signs. Qed.

(** Angles of the part: [o] of the corner, [f] and [g] of the part. *)
Lemma part_angles (u w F S : pt) o : u <> (0, 0) -> turn u w o -> 0 < o < PI -> F <> (0, 0) -> S <> (0, 0) ->
  0 <= pdet u F -> 0 < pdet F w -> 0 <= pdet u S -> 0 <= pdet S w -> 0 <= pdet F S ->
  exists f g, turn u F f /\ turn u S g /\ f < o /\ f <= g <= o.
Proof.
  intros Hu Tw Bo HF HS D1 D2 D3 D4 D5. destruct (turn_exists u F Hu HF) as (f & Tf). destruct (turn_exists u S Hu HS) as (g & Tg).
  exists f, g. split; auto. split; auto. pose proof PI_RGT_0. assert (T0 : turn u u 0) by (split; [lra|]; exists 1; split; [lra|]; destruct u; unfold pscale, protate; apply pt_eq; cbn [fst snd]; rewrite cos_0, sin_0; ring).
  destruct (det_angles u Hu _ _ _ _ T0 Tf) as (_ & A1 & A2 & A3). destruct (det_angles u Hu _ _ _ _ Tf Tw) as (B1 & _). destruct (det_angles u Hu _ _ _ _ T0 Tg) as (_ & C1 & _).
  destruct (det_angles u Hu _ _ _ _ Tg Tw) as (_ & E1 & _). destruct (det_angles u Hu _ _ _ _ Tf Tg) as (_ & G1 & _).
  destruct Tf as ((f0 & f1) & _), Tg as ((g0 & g1) & _), Tw as ((w0 & w1) & _).
  apply B1 in D2. assert (N : forall x P, (x < 0 <-> P) -> 0 <= x -> ~ P) by (intros x P I L HP; apply I in HP; lra).
  apply (N _ _ A1) in D1. apply (N _ _ C1) in D3. apply (N _ _ E1) in D4. apply (N _ _ G1) in D5. clear - D1 D2 D3 D4 D5 f0 f1 g0 g1 w0 w1 Bo H.
  assert (f < o) by lra. split; auto. assert (g <= o) by (destruct (Rle_lt_dec g o); auto; lra). split; auto. destruct (Rle_lt_dec f g); auto. lra.
Qed.
(** And back. *)
Lemma angles_part (u w F S : pt) o f g : u <> (0, 0) -> turn u w o -> 0 < o < PI -> turn u F f -> turn u S g -> f < o -> f <= g <= o ->
  0 <= pdet u F /\ 0 < pdet F w /\ 0 <= pdet u S /\ 0 <= pdet S w /\ 0 <= pdet F S /\ S <> (0, 0).
Proof.
  intros Hu Tw Bo Tf Tg L1 L2. pose proof PI_RGT_0. assert (T0 : turn u u 0) by (split; [lra|]; exists 1; split; [lra|]; destruct u; unfold pscale, protate; apply pt_eq; cbn [fst snd]; rewrite cos_0, sin_0; ring).
  assert (HS : S <> (0, 0)) by (apply (turn_nonzero u S g); auto).
  destruct (det_angles u Hu _ _ _ _ T0 Tf) as (_ & A1 & _). destruct (det_angles u Hu _ _ _ _ Tf Tw) as (B1 & _). destruct (det_angles u Hu _ _ _ _ T0 Tg) as (_ & C1 & _).
  destruct (det_angles u Hu _ _ _ _ Tg Tw) as (_ & E1 & _). destruct (det_angles u Hu _ _ _ _ Tf Tg) as (_ & G1 & _).
  destruct Tf as ((f0 & f1) & _), Tg as ((g0 & g1) & _).
  assert (N : forall x P, (x < 0 <-> P) -> ~ P -> 0 <= x) by (intros x P I L; apply Rnot_lt_le; intros C; apply L, I, C).
  split; [apply (N _ _ A1); lra|]. split; [apply B1; lra|]. split; [apply (N _ _ C1); lra|]. split; [apply (N _ _ E1); lra|]. split; [apply (N _ _ G1); lra|auto].
Qed.

Variables (n : nat) (s : flat K).
Hypothesis S0 : flat_surface n s.
Variable x : ssector K.
Local Notation src := (sec_source x).
Local Notation u := (vv s src).
Local Notation w := (vv s (fV s src)).
Hypothesis Hx : (src < n)%nat.
Hypothesis Nx : fF s src <> src.
Variable o : R.
Hypothesis To : turn u w o.

Lemma corner_o : u <> (0, 0) /\ 0 < o < PI.
Proof.
  pose proof (corner_det n s src S0 Hx Nx) as D. destruct (det_nonzero _ _ D). split; auto. now apply (turn_pos u w).
Qed.
(** The directions of [y] in terms of angles. *)
Definition has (y : ssector K) (f g : R) : Prop :=
  sec_source y = src /\ part_ok s y /\ forall v a, turn u v a -> a < o -> in_part y v <-> between f a g.
Lemma has_part b e f g : turn u (vden b) f -> turn u (vden e) g -> f < o -> f <= g <= o -> has (mkSsector src (Some (b, e))) f g.
Proof.
  intros Tb Te L1 L2. destruct corner_o as [Hu Bo]. split; auto. split.
  - unfold part_ok; cbn [sec_sector sec_source]. now apply (angles_part u w _ _ o f g).
  - intros v a Tv La. unfold in_part; cbn [sec_sector]. apply (in_sector_between u); auto. now apply (turn_nonzero u v a).
Qed.
Lemma in_corner v : in_sector v u w -> exists a, turn u v a /\ a < o.
Proof.
  destruct corner_o as [Hu Bo]. intros (a & c & Ta & Tc & H). exists a. split; auto. rewrite (turn_unique u w _ _ Hu Tc To) in H. lra.
Qed.
Lemma restricted_one f g b e p q y f' g' : has x f g -> turn u b p -> turn u e q -> has y f' g' ->
  (forall a, 0 <= a < o -> between f' a g' <-> between f a g /\ between p a q) -> restricted s x b e [y].
Proof.
  intros (_ & _ & Xf) Tp Tq (Y1 & Y2 & Yf) H. destruct corner_o as [Hu Bo]. split; [|split].
  - intros z [<-|[]]. auto.
  - intros v Iv. destruct (in_corner v Iv) as (a & Ta & La). rewrite (Xf v a Ta La), (in_sector_between u Hu v b e a p q); auto; [|now apply (turn_nonzero u v a)].
    rewrite <- H by (destruct Ta; lra). split; [intros (z & [<-|[]] & Z); now apply (Yf v a Ta La)|]. intros Z. exists y. split; [now left|now apply (Yf v a Ta La)].
  - intros v i j y1 z Iv E1 E2 _ _. destruct i as [|[|]], j as [|[|]]; cbn in *; congruence.
Qed.
Lemma restricted_none f g b e p q : has x f g -> turn u b p -> turn u e q ->
  (forall a, 0 <= a < o -> ~ (between f a g /\ between p a q)) -> restricted s x b e [].
Proof.
  intros (_ & _ & Xf) Tp Tq H. destruct corner_o as [Hu Bo]. split; [|split].
  - intros z [].
  - intros v Iv. destruct (in_corner v Iv) as (a & Ta & La). rewrite (Xf v a Ta La), (in_sector_between u Hu v b e a p q); auto; [|now apply (turn_nonzero u v a)].
    split; [intros (z & [] & Z)|]. intros Z. exfalso. apply (H a); auto. destruct Ta; lra.
  - intros v i j y1 z Iv E1 E2 _ _. now destruct i.
Qed.
Lemma restricted_two f g b e p q y f' g' z f'' g'' : has x f g -> turn u b p -> turn u e q -> has y f' g' -> has z f'' g'' ->
  (forall a, 0 <= a < o -> between f' a g' \/ between f'' a g'' <-> between f a g /\ between p a q) ->
  (forall a, 0 <= a < o -> ~ (between f' a g' /\ between f'' a g'')) -> restricted s x b e [y; z].
Proof.
  intros (_ & _ & Xf) Tp Tq (Y1 & Y2 & Yf) (Z1 & Z2 & Zf) H H2. destruct corner_o as [Hu Bo]. split; [|split].
  - intros z0 [<-|[<-|[]]]; auto.
  - intros v Iv. destruct (in_corner v Iv) as (a & Ta & La). rewrite (Xf v a Ta La), (in_sector_between u Hu v b e a p q); auto; [|now apply (turn_nonzero u v a)].
    rewrite <- H by (destruct Ta; lra). split.
    + intros (z0 & [<-|[<-|[]]] & Z); [left; now apply (Yf v a Ta La)|right; now apply (Zf v a Ta La)].
    + intros [Z|Z]; [exists y|exists z]; (split; [cbn; auto|]); [now apply (Yf v a Ta La)|now apply (Zf v a Ta La)].
  - intros v i j y1 z1 Iv E1 E2 P1 P2. destruct (in_corner v Iv) as (a & Ta & La). assert (La' : 0 <= a < o) by (destruct Ta; lra). specialize (H2 a La'). clear H.
    destruct i as [|[|i]], j as [|[|j]]; cbn in E1, E2; auto; try (destruct i; discriminate); try (destruct j; discriminate); exfalso; apply H2; injection E1 as <-; injection E2 as <-; split;
      try (now apply (Yf v a Ta La)); now apply (Zf v a Ta La).
Qed.

Ltac arith := repeat match goal with
  | H : turn _ _ _ |- _ => clear H | H : _ <> (0, 0) |- _ => clear H | H : has _ _ _ |- _ => clear H | H : _ <-> _ |- _ => clear H
  | H : _ = Ok _ |- _ => clear H | H : part_ok _ _ |- _ => clear H end; clear Hx Nx; unfold between in *; intros a Ba; lra.
Lemma refine_core b e : part_ok s x -> vden b <> (0, 0) -> vden e <> (0, 0) -> exists l, refine s x b e = Ok l /\ restricted s x (vden b) (vden e) l.
Proof.
  intros Px Hb He. destruct corner_o as [Hu Bo]. pose proof PI_RGT_0 as Pp. assert (T0 : turn u u 0) by (split; [lra|]; exists 1; split; [lra|]; destruct u; unfold pscale, protate; apply pt_eq; cbn [fst snd]; rewrite cos_0, sin_0; ring).
  assert (X : exists F S f g, match sec_sector x with Some p => Ok p | None => do a <- from_he s src; do n <- nextAtVertex (fT s) src; do b <- from_he s n; Ok (a, b) end = Ok (F, S) /\
    has x f g /\ turn u (vden F) f /\ turn u (vden S) g /\ f < o /\ f <= g <= o).
  { destruct (sec_sector x) as [[F S]|] eqn:Es.
    - pose proof Px as Px'. unfold part_ok in Px'. rewrite Es in Px'. cbv zeta in Px'. destruct Px' as (D1 & D2 & D3 & D4 & D5 & HS).
      assert (HF : vden F <> (0, 0)) by (apply (pdet_nonzero_l _ w); lra). destruct (part_angles u w _ _ o Hu To Bo HF HS D1 D2 D3 D4 D5) as (f & g & Tf & Tg & L1 & L2).
      exists F, S, f, g. split; auto. split; [|auto]. destruct (has_part F S f g Tf Tg L1 L2) as (_ & _ & H). split; auto. split; auto. intros v a Ta La. rewrite <- (H v a Ta La). unfold in_part. now rewrite Es.
    - exists (vat' s src), (vat' s (fV s src)), 0, o. rewrite from_he_Ok by (now rewrite (fs_length n s S0)). cbn [bind]. rewrite (nextV_Ok n (fT s) _ (fs_wf n s S0) Hx). cbn [bind].
      rewrite from_he_Ok by (rewrite (fs_length n s S0); apply (nV_lt n (fT s) (fs_wf n s S0) src Hx)). cbn [bind]. split; auto. split; [|split; [exact T0|split; [exact To|lra]]].
      split; auto. split; auto. intros v a Ta La. unfold in_part. rewrite Es. destruct Ta. split; auto. intros _. left. lra. }
  destruct X as (F & S & f & g & E & Hh & Tf & Tg & L1 & L2). unfold refine. rewrite E. cbn [bind]. clear E.
  assert (HF : vden F <> (0, 0)) by (now apply (turn_nonzero u _ f)). assert (HS : vden S <> (0, 0)) by (now apply (turn_nonzero u _ g)).
  destruct (turn_exists u (vden b) Hu Hb) as (p & Tp). destruct (turn_exists u (vden e) Hu He) as (q & Tq).
  destruct (inSector_is b F S Hb HF HS) as (ib & -> & Ib). destruct (inSector_is e F S He HF HS) as (ie & Ei & Ie). destruct (inSector_is F b e HF Hb He) as (jf & Ej & If).
  rewrite (in_sector_between u Hu _ _ _ p f g Hb Tp Tf Tg) in Ib. rewrite (in_sector_between u Hu _ _ _ q f g He Tq Tf Tg) in Ie. rewrite (in_sector_between u Hu _ _ _ f p q HF Tf Tp Tq) in If.
  pose proof (ccw_CW b e) as Cbe. pose proof (ccw_CCW F e) as CFe. pose proof (ccw_same e F) as CeF.
  destruct (det_angles u Hu _ _ _ _ Tp Tq) as (_ & A1 & _). destruct (det_angles u Hu _ _ _ _ Tf Tq) as (A2 & _). destruct (det_angles u Hu _ _ _ _ Tq Tf) as (_ & _ & A3 & _).
  rewrite A1 in Cbe. rewrite A2 in CFe. rewrite A3 in CeF. clear A1 A2 A3. cbn [bind].
  assert (Bp : 0 <= p < 2 * PI) by apply Tp. assert (Bq : 0 <= q < 2 * PI) by apply Tq. assert (Bf : 0 <= f) by apply Tf.
  destruct ib.
  - pose proof (proj1 Ib eq_refl) as Ib'. clear Ib. assert (Bp' : f <= p <= g /\ p < o) by (unfold between in Ib'; lra).
    destruct (ccw_eqb (ccw b e) CLOCKWISE).
    + pose proof (proj1 Cbe eq_refl) as Cbe'. clear Cbe. destruct (ccw_eqb (ccw F e) COUNTERCLOCKWISE).
      * pose proof (proj1 CFe eq_refl) as CFe'. clear CFe. eexists. split; [reflexivity|].
        eapply (restricted_two f g _ _ p q); eauto; [apply (has_part b S p g); auto; lra|apply (has_part F e f q); auto; lra| |]; arith.
      * assert (CFe' : ~ (0 < q - f < PI \/ q - f < - PI)) by (intros C; apply CFe in C; discriminate). clear CFe. eexists. split; [reflexivity|].
        eapply (restricted_one f g _ _ p q); eauto; [apply (has_part b S p g); auto; lra|]; arith.
    + assert (Cbe' : ~ (PI < q - p \/ - PI < q - p < 0)) by (intros C; apply Cbe in C; discriminate). clear Cbe. rewrite Ei. cbn [bind]. destruct ie; (eexists; split; [reflexivity|]).
      * pose proof (proj1 Ie eq_refl) as Ie'. eapply (restricted_one f g _ _ p q); eauto; [apply (has_part b e p q); auto; unfold between in *; lra|]; arith.
      * assert (Ie' : ~ between f q g) by (intros C; apply Ie in C; discriminate). eapply (restricted_one f g _ _ p q); eauto; [apply (has_part b S p g); auto; lra|]; arith.
  - assert (Ib' : ~ between f p g) by (intros C; apply Ib in C; discriminate). clear Ib. rewrite Ei. cbn [bind].
    destruct (ccw_eqb (ccw e F) COLLINEAR && orientation_eqb (orientation e F) SAME).
    + pose proof (proj1 CeF eq_refl) as ->. rewrite andb_false_r. rewrite Ej. cbn [bind]. destruct jf; (eexists; split; [reflexivity|]).
      * pose proof (proj1 If eq_refl) as If'. eapply (restricted_one f g _ _ p f); eauto; arith.
      * assert (If' : ~ between p f f) by (intros C; apply If in C; discriminate). eapply (restricted_none f g _ _ p f); eauto; arith.
    + assert (CeF' : q <> f) by (intros C; apply CeF in C; discriminate). rewrite andb_true_r. destruct ie.
      * pose proof (proj1 Ie eq_refl) as Ie'. eexists; split; [reflexivity|].
        eapply (restricted_one f g _ _ p q); eauto; [apply (has_part F e f q); auto; unfold between in *; lra|]; arith.
      * assert (Ie' : ~ between f q g) by (intros C; apply Ie in C; discriminate). rewrite Ej. cbn [bind]. destruct jf; (eexists; split; [reflexivity|]).
        -- pose proof (proj1 If eq_refl) as If'. eapply (restricted_one f g _ _ p q); eauto; arith.
        -- assert (If' : ~ between p f q) by (intros C; apply If in C; discriminate). eapply (restricted_none f g _ _ p q); eauto; arith.
Qed.
End refine.
