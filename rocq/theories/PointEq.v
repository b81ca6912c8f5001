(** * Equality of points *)
From Coq Require Import ZArith Reals List Arith Bool Lia Lra Psatz Relations.
From Verif Require Import Base HalfEdge HalfEdgeFacts Perm PermSpec PermFacts PermCycles PermLemmas
  IndexedSet IndexedSetSpec IndexedSetFacts Combinatorial CombinatorialSpec CombinatorialFacts CombinatorialFlip
  CombinatorialHistory CombinatorialOps ExactReal Vector PlaneSpec Plane VectorFacts FlatTri FlatSpec FlatFacts FlatDelaunay
  Point PointSpec PointFacts PointOps.
Import ListNotations.
Local Open Scope nat_scope.

Section points.
Context {K : ExactReal}.
Variables (n : nat) (s : flat K).
Hypothesis S0 : flat_surface n s.
Hypothesis Cl : closed_surface n s.
Implicit Types (p q : point K) (h f : nat).
Let W : well_formed n (fT s) := fs_wf n s S0.
Notation F := (fF s).
Notation sp := (same_point n s).
Local Notation F_lt := (F_lt n s S0).
Local Notation FFF := (FFF n s S0).
Local Notation neg_lt := (neg_lt n s S0).
Local Notation F_ne := (F_ne n s Cl).
Local Notation FF_ne := (FF_ne n s S0 Cl).
Local Notation FF_F := (FF_F n s S0 Cl).
Local Notation F_neg := (F_neg n s S0 Cl).
Local Notation next_ok := (next_ok n s S0).
Local Notation prev_ok := (prev_ok n s S0).
Local Notation face_ok := (face_ok n s S0).
Local Notation source_ok := (source_ok n s S0).
Local Notation spread := (spread s).
Local Notation alike := (alike n s).
Local Notation touches := (touches s).

(** The coordinates with respect to a side of the face, with respect to the face. *)
Lemma rotated_side f side a b c : f < n -> (side = f \/ side = F f \/ side = F (F f)) ->
  weights (den a, den b, den c) ->
  exists w, rotated s (mkPoint side a b c) f = Ok w /\ weights (tden w) /\ sp (f, tden w) (side, (den a, den b, den c)).
Proof.
  intros H X Q. assert (H1 := F_lt _ H). assert (H2 := F_lt _ H1).
  assert (Hs : side < n) by (destruct X as [->|[->| ->]]; auto).
  assert (Y : f = side \/ f = F (F side) \/ f = F side).
  { destruct X as [->|[->| ->]]; [left; auto|right; left|right; right]; now rewrite FFF. }
  destruct Y as [->|[->| ->]].
  - exists (a, b, c). split; [apply (rotated_0 s (mkPoint side a b c))|]. split; [exact Q|apply sp_refl].
  - exists (c, a, b). split; [apply (rotated_2 n s S0 Cl (mkPoint side a b c)); auto|]. cbn [tden]. split; [unfold weights in *; lra|].
    apply sp_sym. now apply (sp_rot2 n s S0).
  - exists (b, c, a). split; [apply (rotated_1 n s S0 Cl (mkPoint side a b c)); auto|]. cbn [tden]. split; [unfold weights in *; lra|].
    apply sp_sym. now apply (sp_rot n s).
Qed.

Definition in_face f side : Prop := side = f \/ side = F f \/ side = F (F f).

Lemma coordinates_edge_ok p f sides : normal n p -> f < n -> (forall x, In x sides -> in_face f x) ->
  exists o, coordinates_edge s p f sides = Ok o /\
    match o with
    | Some w => weights (tden w) /\ sp (f, tden w) (location p)
    | None => forall x, In x sides -> ~ (pface p = neg x /\ den (pc p) = 0%R)
    end.
Proof.
  intros N Hf. pose proof N as (H & A & B & C & D). assert (H1 := F_lt _ H). assert (H2 := F_lt _ H1).
  induction sides as [|side r IH]; intros I; cbn [coordinates_edge].
  - exists None. split; auto.
  - assert (Is : in_face f side) by (apply I; now left).
    assert (Hs : side < n) by (destruct Is as [->|[->| ->]]; auto using F_lt).
    destruct (Nat.eqb_spec (pface p) (neg side)) as [E|E]; [destruct (nz (pc p)) eqn:Ec|].
    + cbn [andb negb]. apply nz_spec in Ec. rewrite prev_ok by auto. cbn [bind].
      rewrite andb_false_r.
      destruct IH as (o & E1 & R). { intros x Hx. apply I. now right. }
      exists o. split; auto. destruct o; auto. intros x [<-|Hx]; [tauto|]. now apply R.
    + apply nz_false in Ec. cbn [andb negb].
      destruct (rotated_side f side (pb p) (pa p) (pc p) Hf Is) as (w & Ew & Qw & Sw). { unfold weights; lra. }
      rewrite Ew. cbn [bind]. exists (Some w). split; auto. split; auto.
      eapply sp_trans; [exact Sw|]. apply sp_sym. unfold location. rewrite E, Ec.
      assert (G := sp_glue n s (pface p) (den (pa p)) (den (pb p)) H). rewrite E, neg_neg in G. apply G. unfold weights; lra.
    + cbn [andb negb]. rewrite prev_ok by auto. cbn [bind].
      destruct (Nat.eqb_spec (F (F (pface p))) (neg side)) as [E2|E2]; [|cbn [andb]].
      * cbn [andb]. destruct (nz (pb p)) eqn:Eb; [|destruct (nz (pc p)) eqn:Ec]; cbn [andb negb].
        -- destruct IH as (o & E1 & R). { intros x Hx. apply I. now right. }
           exists o. split; auto. destruct o; auto. intros x [<-|Hx]; [tauto|]. now apply R.
        -- destruct IH as (o & E1 & R). { intros x Hx. apply I. now right. }
           exists o. split; auto. destruct o; auto. intros x [<-|Hx]; [tauto|]. now apply R.
        -- apply nz_false in Eb, Ec.
           destruct (rotated_side f side (pa p) (pb p) (pc p) Hf Is) as (w & Ew & Qw & Sw). { unfold weights; lra. }
           rewrite Ew. cbn [bind]. exists (Some w). split; auto. split; auto.
           eapply sp_trans; [exact Sw|]. unfold location. rewrite Eb, Ec. apply sp_sym.
           apply (sp_vertex n s S0 Cl); [auto|lra|]. exists 1. cbn [Nat.iter nat_rect].
           rewrite (nV_link' n _ W) by (auto; now apply Cl). change (nF (fT s)) with F. rewrite E2. apply neg_neg.
      * destruct IH as (o & E1 & R). { intros x Hx. apply I. now right. }
        exists o. split; auto. destruct o; auto. intros x [<-|Hx]; [tauto|]. now apply R.
Qed.

Lemma coordinates_vertex_ok p v f sides : normal n p -> f < n -> den (pb p) = 0%R -> den (pc p) = 0%R -> vertex_source (fT s) (pface p) = Ok v ->
  (forall x, In x sides -> in_face f x) -> (exists x, In x sides /\ same_vertex (fT s) (pface p) x) ->
  exists w, coordinates_vertex s v f sides = Ok w /\ weights (tden w) /\ sp (f, tden w) (location p).
Proof.
  intros N Hf Eb Ec V. pose proof N as (H & A & _). induction sides as [|side r IH]; intros I X; cbn [coordinates_vertex].
  - destruct X as (x & [] & _).
  - assert (Is : in_face f side) by (apply I; now left).
    assert (Hs : side < n) by (destruct Is as [->|[->| ->]]; auto using F_lt).
    destruct (source_ok _ Hs) as (v1 & E1 & _). rewrite E1. cbn [bind].
    pose proof (same_source n s S0 _ _ _ _ H Hs V E1) as Q. destruct (vertex_eqb v v1).
    + destruct (rotated_side f side (rofZ 1) (rofZ 0) (rofZ 0) Hf Is) as (w & Ew & Qw & Sw). { unfold weights. rewrite !den_ofZ. lra. }
      exists w. split; auto. split; auto. eapply sp_trans; [exact Sw|]. rewrite !den_ofZ. apply sp_sym. unfold location. rewrite Eb, Ec.
      eapply sp_trans; [apply (sp_vertex n s S0 Cl); [exact H|exact A|now apply Q]|].
      apply sp_prop; auto; unfold weights; lra.
    + apply IH. { intros x Hx. apply I. now right. }
      destruct X as (x & [<-|Hx] & Sx); [|eauto]. apply Q in Sx. discriminate.
Qed.

Lemma coordinates_ok p f : normal n p -> f < n -> touches p f ->
  exists w, coordinates s p f = Ok w /\ weights (tden w) /\ sp (f, tden w) (location p).
Proof.
  intros N Hf T. pose proof N as (H & A & B & C & D). unfold coordinates.
  destruct (in_ok n s S0 Cl p f N Hf) as (b & E & Q). rewrite E. cbn [bind]. apply Q in T as Tb. rewrite Tb. cbn [negb].
  rewrite face_ok by auto. cbn [bind].
  destruct (existsb (Nat.eqb (pface p)) [f; F f; F (F f)]) eqn:X.
  - apply existsb_face in X. destruct p as [h a b' c]. apply (rotated_side f h a b' c Hf X). apply (normal_weights n (mkPoint h a b' c) N).
  - assert (X' : ~ (pface p = f \/ pface p = F f \/ pface p = F (F f))) by (rewrite <- existsb_face, X; discriminate). clear X.
    assert (I : forall x, In x [f; F f; F (F f)] -> in_face f x). { intros x [<-|[<-|[<-|[]]]]; unfold in_face; auto. }
    destruct (coordinates_edge_ok p f _ N Hf I) as (o & Eo & R). rewrite Eo. cbn [bind].
    destruct o as [w|]; [exists w; tauto|].
    destruct T as [T|[(Eb & T)|(Pb & Ec & T)]]; [tauto| |].
    + destruct (vertex_cases n s S0 p N) as [(_ & Ec & v & Ev & V)|(Pb & _)]; [|lra]. rewrite Ev. cbn [bind].
      apply (coordinates_vertex_ok p v f); auto. cbn [In]. destruct T as [T|[T|T]]; eauto 6.
    + exfalso. destruct T as [T|[T|T]]; eapply (fun x => R x); try (split; [exact T|exact Ec]); cbn [In]; auto.
Qed.

(** A representation in another face. *)
Lemma spread_normal p : normal n p -> (0 < spread (location p) (pface p))%R.
Proof.
  intros (H & A & B & C & D). unfold location, PointFacts.spread.
  assert (Za : zero (den (pa p)) = false) by (apply zero_false; lra). rewrite Za.
  destruct (zero (den (pb p))) eqn:Zb; [apply zero_true in Zb|apply zero_false in Zb];
  (destruct (zero (den (pc p))) eqn:Zc; [apply zero_true in Zc|apply zero_false in Zc]);
  rewrite ?Nat.eqb_refl; try lra; apply Rdiv_lt_0_compat; lra.
Qed.
Lemma touches_rep p f w : normal n p -> f < n -> weights w -> alike (f, w) (location p) -> touches p f.
Proof.
  intros N Hf Q [Kd Sp]. pose proof N as (H & A & B & C & D). specialize (Sp (pface p) H).
  assert (P := spread_normal p N). rewrite <- Sp in P. clear Sp.
  assert (H1 := F_lt _ Hf). assert (H2 := F_lt _ H1).
  assert (SV : forall x, x < n -> vrep s (pface p) = vrep s x -> same_vertex (fT s) (pface p) x) by (intros x Hx X; apply (vrep_spec n s S0) in X; auto).
  destruct w as [[a b] c]. unfold kind, location, PointFacts.spread in *.
  assert (Za : zero (den (pa p)) = false) by (apply zero_false; lra). rewrite Za in Kd.
  unfold PointOps.touches.
  destruct (zero (den (pb p))) eqn:Zb; [apply zero_true in Zb|apply zero_false in Zb];
  (destruct (zero (den (pc p))) eqn:Zc; [apply zero_true in Zc|apply zero_false in Zc]);
  destruct (zero a) eqn:Ea, (zero b) eqn:Eb, (zero c) eqn:Ec; cbn in Kd; try discriminate Kd; try lra;
  repeat match type of P with
  | (0 < if ?x =? ?y then _ else _)%R => destruct (Nat.eqb_spec x y)
  end; try lra; auto 8.
  all: assert (0 < den (pb p))%R by lra; tauto.
Qed.
Lemma touches_iff p f : normal n p -> f < n -> (touches p f <-> exists w, weights w /\ sp (f, w) (location p)).
Proof.
  intros N Hf. split.
  - intros T. destruct (coordinates_ok p f N Hf T) as (w & _ & Q & R). eauto.
  - intros (w & Q & R). apply (touches_rep p f w N Hf Q). now apply (alike_same n s S0 Cl).
Qed.

(** Weights in the same face are determined up to scaling. *)
Lemma same_face h a b c a' b' c' : h < n -> weights (a, b, c) -> weights (a', b', c') -> (0 < a)%R -> (0 < b)%R ->
  ((0 < c)%R \/ c = 0%R) -> alike (h, (a, b, c)) (h, (a', b', c')) ->
  ((a + b + c) * a' = (a' + b' + c') * a)%R /\ ((a + b + c) * b' = (a' + b' + c') * b)%R /\ ((a + b + c) * c' = (a' + b' + c') * c)%R.
Proof.
  intros H Q Q' A B C [Kd Sp]. assert (H1 := F_lt _ H). assert (H2 := F_lt _ H1). assert (Hn := neg_lt _ H).
  pose proof (Sp _ H) as S1. pose proof (Sp _ H1) as S2. pose proof (Sp _ H2) as S3. pose proof (Sp _ Hn) as S4. clear Sp.
  unfold kind, PointFacts.spread in *.
  assert (Za : zero a = false) by (apply zero_false; lra). assert (Zb : zero b = false) by (apply zero_false; lra).
  rewrite Za, Zb in *. pose proof (F_ne h H) as N1. pose proof (FF_ne h H) as N2. pose proof (FF_F h H) as N3. pose proof (F_neg h H) as [N4 N5]. pose proof (neg_ne h) as N6.
  assert (T : (0 < a + b + c)%R) by apply Q. assert (T' : (0 < a' + b' + c')%R) by apply Q'.
  assert (Cr : forall x x', (x / (a + b + c) = x' / (a' + b' + c') -> (a + b + c) * x' = (a' + b' + c') * x)%R).
  { intros x x' E. apply (f_equal (fun z => z * ((a + b + c) * (a' + b' + c')))%R) in E. field_simplify in E; lra. }
  assert (Pp : forall x, (0 < x -> 0 < x / (a + b + c))%R) by (intros; now apply Rdiv_lt_0_compat).
  pose proof (Pp a A) as Pa. pose proof (Pp b B) as Pb.
  assert (N7 : h <> neg (F h)). { intros E. apply N4. apply neg_inj. now rewrite neg_neg. }
  assert (N8 : h <> neg (F (F h))). { intros E. apply N5. apply neg_inj. now rewrite neg_neg. }
  destruct C as [C|C].
  - assert (Zc : zero c = false) by (apply zero_false; lra). rewrite Zc in *.
    destruct (zero a') eqn:Ea, (zero b') eqn:Eb, (zero c') eqn:Ec; cbn in Kd; try discriminate Kd.
    rewrite !Nat.eqb_refl in *.
    destruct (Nat.eqb_spec (F h) h); [congruence|]. destruct (Nat.eqb_spec (F (F h)) h); [congruence|]. destruct (Nat.eqb_spec (F (F h)) (F h)); [congruence|].
    auto.
  - assert (Zc : zero c = true) by (apply zero_true; lra). rewrite Zc in *.
    destruct (zero a') eqn:Ea, (zero b') eqn:Eb, (zero c') eqn:Ec; cbn in Kd; try discriminate Kd; rewrite !Nat.eqb_refl in *.
    + destruct (Nat.eqb_spec h (F h)); [congruence|]. destruct (Nat.eqb_spec h (neg (F h))); [congruence|]. lra.
    + destruct (Nat.eqb_spec h (F (F h))); [congruence|]. destruct (Nat.eqb_spec h (neg (F (F h)))); [congruence|]. lra.
    + apply zero_true in Ec. destruct (Nat.eqb_spec (neg h) h); [congruence|]. subst c c'. split; auto. split; auto. ring.
Qed.

Lemma point_eqb_ok p q : normal n p -> normal n q ->
  exists b, point_eqb s p q = Ok b /\ (b = true <-> sp (location p) (location q)).
Proof.
  intros N N'. pose proof N as (H & A & B & C & D). pose proof N' as (H' & A' & B' & C' & D'). unfold point_eqb.
  destruct (in_ok n s S0 Cl q (pface p) N' H) as (i & Ei & Qi). rewrite Ei. cbn [bind].
  assert (T : sp (location p) (location q) -> touches q (pface p)).
  { intros X. apply touches_iff; auto. exists (den (pa p), den (pb p), den (pc p)). split; [apply (normal_weights n p N)|exact X]. }
  destruct i; cbn [negb].
  2:{ exists false. split; auto. split; [discriminate|]. intros X. apply T, Qi in X. discriminate. }
  assert (T' : touches q (pface p)) by now apply Qi. clear Ei Qi T.
  destruct (vertex_cases n s S0 p N) as [(Eb & Ec & v & Ev & V)|(Pb & Ev)]; rewrite Ev; cbn [bind].
  - destruct (vertex_cases n s S0 q N') as [(Eb' & Ec' & v' & Ev' & V')|(Pb' & Ev')]; rewrite Ev'; cbn [bind]; eexists; (split; [reflexivity|]).
    + rewrite (same_source n s S0 _ _ _ _ H H' V V'). unfold location. rewrite Eb, Ec, Eb', Ec'. split.
      * intros X. eapply sp_trans; [apply (sp_vertex n s S0 Cl); [exact H|exact A|exact X]|]. apply sp_prop; auto; unfold weights; lra.
      * intros X. apply (alike_same n s S0 Cl) in X. destruct X as [_ X]. specialize (X _ H). unfold PointFacts.spread in X.
        assert (Za : zero (den (pa p)) = false) by (apply zero_false; lra). assert (Za' : zero (den (pa q)) = false) by (apply zero_false; lra).
        assert (Z : zero 0 = true) by now apply zero_true. rewrite Za, Za', Z, Nat.eqb_refl in X.
        destruct (Nat.eqb_spec (vrep s (pface p)) (vrep s (pface q))) as [Y|Y]; [|lra]. now apply (vrep_spec n s S0) in Y.
    + split; [discriminate|]. intros X. apply (alike_same n s S0 Cl) in X. destruct X as [X _]. unfold kind, location in X.
      assert (Za : zero (den (pa p)) = false) by (apply zero_false; lra). assert (Za' : zero (den (pa q)) = false) by (apply zero_false; lra).
      assert (Zb' : zero (den (pb q)) = false) by (apply zero_false; lra).
      assert (Z : zero 0 = true) by now apply zero_true. rewrite Za, Za', Zb', Eb, Ec, Z in X. destruct (zero (den (pc q))); discriminate.
  - destruct (coordinates_ok q (pface p) N' H T') as ([[a b] c] & Ew & Qw & Sw). rewrite Ew. cbn [bind]. cbn [tden] in Qw, Sw.
    eexists. split; [reflexivity|]. rewrite !andb_true_iff, !reqb_spec, !den_mul, !den_add. split.
    + intros ((X1 & X2) & X3). eapply sp_trans; [|exact Sw]. apply sp_prop; auto. apply (normal_weights n p N).
    + intros X. assert (Y : sp (location p) (pface p, (den a, den b, den c))) by (eapply sp_trans; [exact X|now apply sp_sym]).
      apply (alike_same n s S0 Cl) in Y.
      destruct (same_face _ _ _ _ _ _ _ H (normal_weights n p N) Qw A Pb) with (2 := Y) as (Y1 & Y2 & Y3); [|tauto].
      destruct (Req_EM_T (den (pc p)) 0); [right|left]; lra.
Qed.
(** ** Vertices and edges *)
Lemma vertex_same h h' a a' : h < n -> h' < n -> (0 < a)%R -> (0 < a')%R ->
  (sp (h, (a, 0, 0)%R) (h', (a', 0, 0)%R) <-> same_vertex (fT s) h h').
Proof.
  intros H H' A A'. assert (Za : zero a = false) by (apply zero_false; lra). assert (Za' : zero a' = false) by (apply zero_false; lra).
  assert (Z0 : zero 0 = true) by (now apply zero_true). split; intros Q.
  - apply (alike_same n s S0 Cl) in Q. destruct Q as [_ Q]. specialize (Q h H). unfold PointFacts.spread in Q.
    rewrite Za, Za', Z0, Nat.eqb_refl in Q. destruct (Nat.eqb_spec (vrep s h) (vrep s h')) as [Y|Y]; [|lra]. now apply (vrep_spec n s S0) in Y.
  - eapply sp_trans; [now apply (sp_vertex n s S0 Cl h h' a)|]. assert (H2 := same_vertex_lt n (fT s) h h' (fs_wf n s S0) H Q).
    apply sp_prop; auto; unfold weights; lra.
Qed.
Lemma on_iff p side : normal n p -> side < n -> exists b, point_on s p (edge_of side) = Ok b /\
  (b = true <-> exists u v, weights (u, v, 0%R) /\ sp (side, (u, v, 0%R)) (location p)).
Proof.
  intros N Hs. destruct (on_ok n s S0 p side N Hs) as (b & E & B). exists b. split; auto. rewrite B. clear b E B.
  assert (Hn := neg_lt _ Hs). pose proof N as (H & A & Pb & Pc & D). split.
  - intros [[Zb V]|(Zb & Zc & V)].
    + assert (Zc : den (pc p) = 0%R) by (destruct (Req_dec (den (pc p)) 0); auto; lra).
      destruct V as [V|V].
      * exists (den (pa p)), 0%R. split; [unfold weights; lra|]. unfold location. rewrite Zb, Zc. apply sp_sym. now apply vertex_same.
      * exists 0%R, (den (pa p)). split; [unfold weights; lra|]. unfold location. rewrite Zb, Zc.
        eapply sp_trans; [apply sp_glue; auto; unfold weights; lra|]. apply sp_sym. now apply vertex_same.
    + destruct V as [V|V].
      * exists (den (pa p)), (den (pb p)). split; [unfold weights; lra|]. unfold location. rewrite Zc, V. apply sp_refl.
      * exists (den (pb p)), (den (pa p)). split; [unfold weights; lra|]. unfold location. rewrite Zc, V. apply sp_glue; auto; unfold weights; lra.
  - intros (u & v & Q & R). apply (alike_same n s S0 Cl) in R. destruct R as [Kd Sp]. specialize (Sp (pface p) H).
    assert (P := spread_normal p N). rewrite <- Sp in P. clear Sp.
    unfold kind, location, PointFacts.spread in *. assert (Z0 : zero 0 = true) by (now apply zero_true).
    assert (Za : zero (den (pa p)) = false) by (apply zero_false; lra). rewrite Za, Z0 in *.
    destruct (zero u) eqn:Eu, (zero v) eqn:Ev; cbn in Kd; try lra.
    + left. destruct (zero (den (pb p))) eqn:Zb; [|discriminate Kd]. apply zero_true in Zb. split; auto.
      destruct (Nat.eqb_spec (vrep s (pface p)) (vrep s (F side))) as [Y|Y]; [|lra]. rewrite (vrep_F n s S0) in Y by auto.
      apply (vrep_spec n s S0) in Y; auto.
    + left. destruct (zero (den (pb p))) eqn:Zb; [|discriminate Kd]. apply zero_true in Zb. split; auto.
      destruct (Nat.eqb_spec (vrep s (pface p)) (vrep s side)) as [Y|Y]; [|lra]. apply (vrep_spec n s S0) in Y; auto.
    + right. destruct (zero (den (pb p))) eqn:Zb; destruct (zero (den (pc p))) eqn:Zc; try discriminate Kd.
      { apply zero_true in Zb. apply zero_false in Zc. lra. }
      apply zero_true in Zc. apply zero_false in Zb. split; [lra|]. split; auto.
      destruct (Nat.eqb_spec (pface p) side); auto. destruct (Nat.eqb_spec (pface p) (neg side)); auto. lra.
Qed.
(** [vertex]. *)
Lemma vertex_iff p : normal n p -> exists o, point_vertex s p = Ok o /\
  forall h, h < n -> (sp (h, (1, 0, 0)%R) (location p) <-> exists v, o = Some v /\ scontains v h = true).
Proof.
  intros N. pose proof N as (H & A & Pb & Pc & D). destruct (vertex_cases n s S0 p N) as [(Zb & Zc & v & E & V)|(Zb & E)].
  - exists (Some v). split; auto. intros h Hh. unfold location. rewrite Zb, Zc. rewrite vertex_same by (auto; lra).
    destruct (source_ok _ H) as (v' & E' & C). rewrite V in E'. injection E' as <-.
    split.
    + intros Q. exists v. split; auto. apply C. split; auto. now apply (same_vertex_sym n _ _ _ (fs_wf n s S0)).
    + intros (? & [= <-] & Q). apply C in Q. apply (same_vertex_sym n _ _ _ (fs_wf n s S0)); tauto.
  - exists None. split; auto. intros h Hh. split; [|intros (v & [=] & _)]. intros Q. exfalso.
    apply (alike_same n s S0 Cl) in Q. destruct Q as [Q _]. unfold kind, location in Q.
    assert (zero 1 = false) as Z1 by (apply zero_false; lra). assert (zero 0 = true) as Z0 by (now apply zero_true).
    assert (zero (den (pa p)) = false) as Za by (apply zero_false; lra). assert (zero (den (pb p)) = false) as Zb' by (apply zero_false; lra).
    rewrite Z1, Z0, Za, Zb' in Q. destruct (zero (den (pc p))); discriminate.
Qed.
End points.
