(** * Facts about lengths of interval exchange transformations *)
From Coq Require Import ZArith Reals List Arith Bool Lia Lra Psatz.
From Verif Require Import Base HalfEdge HalfEdgeFacts Perm PermSpec PermFacts PermCycles PermLemmas Combinatorial CombinatorialSpec CombinatorialFacts CombinatorialHistory CombinatorialOps ExactReal Vector PlaneSpec Plane VectorFacts
  FlatTri FlatSpec ChainSpec ChainFacts FlatFacts FlatSum FlatAngle FlatSector SectorFacts Saddle SaddleSpec SaddleFacts DeformSpec DeformFacts Tracked Vertical VerticalSpec VerticalFacts
  Lengths LengthsSubtract LengthsSpec.
Import ListNotations.
Local Open Scope nat_scope.

Lemma cramer a b d v : (pdet a b * pdet d v = pdet d b * pdet a v + pdet a d * pdet b v)%R.
Proof. unfold pdet. ring. Qed.
Lemma hits_signs d u w : hits d u w = true <-> (0 <= pdet u d /\ pdet w d < 0)%R.
Proof. unfold hits. destruct (Rle_dec 0 (pdet u d)), (Rlt_dec (pdet w d) 0); split; intros; try discriminate; auto; lra. Qed.
Lemma half_plane (v d w : pt) (e : nat -> pt) a b : (forall i, 0 < pdet (e i) (e (S i)))%R -> (0 <= pdet (e 0%nat) v)%R -> (forall i, 0 < i <= a -> (pdet (e i) v < 0)%R) ->
  hits w (e a) (e (S a)) = true -> (pdet w v < 0)%R -> (pdet d v < 0)%R -> (forall j, j < b -> hits d (e j) (e (S j)) = false) -> forall i, 0 < i <= b -> (pdet (e i) v < 0)%R.
Proof.
  intros D E0 A Hw W Dv N. assert (E1 : (pdet (e 1%nat) v < 0)%R).
  { destruct a as [|a]; [|apply A; lia]. apply hits_signs in Hw as [W1 W2]. destruct (Rlt_le_dec (pdet (e 1%nat) v) 0) as [|P]; auto. exfalso.
    assert (C := cramer (e 0) (e 1) w v). specialize (D 0). assert (pdet w (e 1%nat) = - pdet (e 1%nat) w)%R by (unfold pdet; ring). nra. }
  assert (Q : forall i, S i <= b -> (pdet (e (S i)) v < 0)%R /\ (0 <= pdet (e (S i)) d)%R).
  { induction i as [|i IH]; intros L.
    - split; auto. destruct (Rlt_le_dec (pdet (e 1) d) 0) as [P|]; auto. exfalso. assert (H := N 0 ltac:(lia)). enough (hits d (e 0) (e 1) = true) by congruence. apply hits_signs. split; auto.
      assert (C := cramer (e 0) (e 1) d v). specialize (D 0). assert (pdet d (e 1%nat) = - pdet (e 1%nat) d)%R by (unfold pdet; ring).
      destruct (Rle_lt_dec 0 (pdet (e 0) d)); auto. exfalso. nra.
    - destruct IH as [I1 I2]; [lia|]. assert (I3 : (0 <= pdet (e (S (S i))) d)%R).
      { destruct (Rlt_le_dec (pdet (e (S (S i))) d) 0) as [P|]; auto. exfalso. assert (H := N (S i) ltac:(lia)). enough (hits d (e (S i)) (e (S (S i))) = true) by congruence. apply hits_signs. auto. }
      split; auto. destruct (Rlt_le_dec (pdet (e (S (S i))) v) 0) as [|P]; auto. exfalso.
      assert (C := cramer (e (S i)) (e (S (S i))) d v). specialize (D (S i)). assert (pdet d (e (S (S i))) = - pdet (e (S (S i))) d)%R by (unfold pdet; ring). nra. }
  intros [|i] L; [lia|]. apply Q. lia.
Qed.

Lemma right_of (v : pt) : v <> (0, 0)%R -> (snd v, - fst v)%R <> (0, 0)%R /\ (0 < pdet (snd v, - fst v)%R v)%R.
Proof.
  destruct v as [x y]. unfold pdet. cbn [fst snd]. intros N. split.
  - intros Q. apply N. injection Q. intros. f_equal; lra.
  - destruct (Req_dec x 0) as [->|]; [|nra]. destruct (Req_dec y 0) as [->|]; [contradiction|nra].
Qed.

Section facts.
Context {K : ExactReal}.
Variables (n : nat) (s : flat K) (V : vec K).
Hypothesis CS : closed_flat n s.
Notation v := (vden V).
Notation r := (rightwards s v).

Lemma corner_pos h : h < n -> (0 < pdet (vv s h) (vv s (fV s h)))%R.
Proof. intros H. apply (corner_det n); auto; [apply CS|]. apply (closed_inner_at n s h CS H h). exists 0. reflexivity. Qed.
Lemma fV_iter_lt h k : h < n -> Nat.iter k (fV s) h < n.
Proof. intros H. apply (iter_lt n (fV s) (pV (fT s))); auto. apply (bijV n), CS. Qed.

(** Some half edge points to the right, when we turn clockwise. *)
Lemma some_right h : h < n -> v <> (0, 0)%R -> exists k, k <= S n /\ (0 < r (Nat.iter k (pV (fT s)) h))%R.
Proof.
  intros Hh Nv. set (d := (snd v, - fst v)%R).
  destruct (right_of v Nv) as [Nd Dv]. fold d in Nd, Dv.
  assert (P : forall e, e < n -> hits d (vv s e) (vv s (fV s e)) = true -> (0 < r e \/ 0 < r (fV s e))%R).
  { intros e He H. apply hits_signs in H as [H1 H2]. assert (C := corner_pos e He). assert (X := cramer (vv s e) (vv s (fV s e)) d v). assert (pdet d (vv s (fV s e)) = - pdet (vv s (fV s e)) d)%R by (unfold pdet; ring).
    unfold rightwards. destruct (Rlt_le_dec 0 (pdet (vv s e) v)); auto. destruct (Rlt_le_dec 0 (pdet (vv s (fV s e)) v)); auto. exfalso. nra. }
  destruct (some_hit_back n s (pV (fT s) h) d) as (k & Lk & Q); auto; [apply CS|apply (pV_lt n); auto; apply CS|apply (closed_inner_at n); auto; apply (pV_lt n); auto; apply CS|].
  cbv zeta in Q. assert (Hp := step_prev n s (proj1 CS) h Hh). rewrite <- iter_S' in Q. set (e := Nat.iter (S k) (pV (fT s)) h) in *.
  assert (He : e < n) by (apply (pV_iter_lt n); auto; apply CS). destruct (P e He Q) as [R1|R1].
  - exists (S k). split; auto. lia.
  - exists k. split; [lia|]. replace (Nat.iter k (pV (fT s)) h) with (fV s e); auto. unfold e. rewrite iter_S. apply (fV_pV n); [apply CS|]. apply (pV_iter_lt n); auto; apply CS.
Qed.

Lemma turn_back_ok (P : CCW -> bool) (Q : R -> Prop) k : (forall h x, h < n -> ccw_at v s h x -> (P x = true <-> Q (r h))) ->
  forall fuel m h, valid n s V m -> h < n -> k < fuel -> ~ Q (r (Nat.iter k (pV (fT s)) h)) ->
  exists j m', j <= k /\ turn_back fuel s m P h = Ok (Nat.iter j (pV (fT s)) h, m') /\ valid n s V m' /\ ~ Q (r (Nat.iter j (pV (fT s)) h)) /\ forall i, i < j -> Q (r (Nat.iter i (pV (fT s)) h)).
Proof.
  intros HP. induction k as [|k IH]; intros [|fuel] m h I Hh Lf NQ; try lia; cbn [turn_back]; destruct (ccw_ok n s V m I h Hh) as (x & m' & -> & A & I'); cbn [bind].
  - cbn in NQ. destruct (P x) eqn:E; [apply (HP h x Hh A) in E; contradiction|]. exists 0, m'. split; auto. split; auto. split; auto. split; auto. intros i Hi. lia.
  - destruct (P x) eqn:E.
    + destruct (step_prev n s (proj1 CS) h Hh) as [-> Hp]. cbn [bind]. rewrite iter_S' in NQ. destruct (IH fuel m' _ I' Hp ltac:(lia) NQ) as (j & m'' & Lj & R1 & R2 & R3 & R4). exists (S j), m''.
      split; [lia|]. rewrite iter_S'. split; auto. split; auto. split; auto. intros [|i] Hi; [cbn; now apply (HP h x Hh A)|]. rewrite iter_S'. apply R4. lia.
    + exists 0, m'. split; [lia|]. split; auto. split; auto. cbn. split; [|lia]. intros X. apply (HP h x Hh A) in X. congruence.
Qed.
Lemma turn_to_ok (d : vec K) k : forall fuel h, h < n -> k < fuel -> (let e := Nat.iter k (fV s) h in hits (vden d) (vv s e) (vv s (fV s e)) = true) ->
  exists j, j <= k /\ turn_to fuel s d h = Ok (Nat.iter j (fV s) h) /\ (let e := Nat.iter j (fV s) h in hits (vden d) (vv s e) (vv s (fV s e)) = true) /\
    forall i, i < j -> let e := Nat.iter i (fV s) h in hits (vden d) (vv s e) (vv s (fV s e)) = false.
Proof.
  cbv zeta. induction k as [|k IH]; intros [|fuel] h Hh Lf H; try lia; cbn [turn_to]; rewrite (in_sector_at_Ok n) by (auto; apply CS); cbn [bind].
  - cbn in H. rewrite H. exists 0. split; auto. split; auto. split; auto. intros i Hi. lia.
  - destruct (hits (vden d) (vv s h) (vv s (fV s h))) eqn:E.
    + exists 0. split; [lia|]. split; auto. split; auto. intros i Hi. lia.
    + destruct (step_next n s (proj1 CS) h Hh) as [-> Hp]. cbn [bind]. rewrite iter_S' in H. destruct (IH fuel _ Hp ltac:(lia) H) as (j & Lj & R1 & R2 & R3). exists (S j).
      split; [lia|]. rewrite iter_S'. split; auto. split; auto. intros [|i] Hi; [auto|]. rewrite iter_S'. apply R3. lia.
Qed.

(** ** Walks *)
Notation conn := (@sconn K).
Lemma cvector_scale z c : cvector n s (map (Z.mul z) c) = pscale (IZR z) (cvector n s c).
Proof.
  unfold cvector, chain_vector. rewrite <- psum_scale. apply psum_ext. intros i _. replace (nth i (map (Z.mul z) c) 0%Z) with (z * nth i c 0)%Z.
  - rewrite mult_IZR. unfold pscale. cbn [fst snd]. f_equal; ring.
  - change 0%Z with (z * 0)%Z at 2 || replace 0%Z with (z * 0)%Z at 2 by lia. now rewrite map_nth.
Qed.
Lemma last_cons {A} (a : A) l d : last (a :: l) d = last l a.
Proof. revert a d. induction l as [|b l IH]; intros a d; auto. change (last (a :: b :: l) d) with (last (b :: l) d). now rewrite IH, <- (IH b a). Qed.
Lemma path_end_cons a c (l : list conn) : path_end a (c :: l) = path_end (sc_target c) l.
Proof. unfold path_end. cbn [map]. apply last_cons. Qed.
Lemma path_end_app a (l k : list conn) : path_end a (l ++ k) = path_end (path_end a l) k.
Proof. revert a. induction l as [|c l IH]; intros a; [reflexivity|]. cbn [app]. now rewrite !path_end_cons, IH. Qed.
Lemma path_end_lt a (l : list conn) : a < n -> (forall c, In c l -> on n s c) -> path_end a l < n.
Proof.
  revert a. induction l as [|c l IH]; intros a Ha H; [exact Ha|]. rewrite path_end_cons. apply IH; [|intros; apply H; now right]. destruct (H c (or_introl eq_refl)) as ((_ & _ & T & _) & _). auto.
Qed.
Lemma psum_app' (l k : list pt) : psum (l ++ k) = padd (psum l) (psum k).
Proof. induction l as [|p l IH]; cbn [app psum]; [destruct (psum k); unfold padd; cbn [fst snd]; f_equal; ring|]. rewrite IH. unfold padd. cbn [fst snd]. f_equal; ring. Qed.
Lemma walk_along_ok l : (forall c, In c l -> on n s c) -> forall walk target, length walk = n / 2 ->
  exists walk', walk_along l walk target = Ok (walk', path_end target l) /\ length walk' = n / 2 /\ cvector n s walk' = padd (cvector n s walk) (psum (map (sv n) l)).
Proof.
  induction l as [|c l IH]; intros H walk target L; cbn [walk_along].
  - exists walk. split; auto. split; auto. cbn [map psum]. destruct (cvector n s walk); unfold padd; cbn [fst snd]; f_equal; ring.
  - destruct (H c (or_introl eq_refl)) as ((_ & _ & _ & Lc) & Sc). destruct (zc_add_Ok n s walk (sc_chain c) L Lc) as (w & -> & Lw & E). cbn [bind].
    destruct (IH ltac:(intros; apply H; now right) w (sc_target c) Lw) as (w' & -> & Lw' & E'). exists w'. rewrite path_end_cons. split; auto. split; auto. rewrite E', E. cbn [map psum].
    replace (sv n c) with (cvector n s (sc_chain c)) by (unfold sv; now rewrite Sc). unfold padd. cbn [fst snd]. f_equal; ring.
Qed.
Lemma flow_on rv l : (forall c, In c l -> on n s c) -> forall c, In c (flow rv l) -> on n s c.
Proof.
  intros H c I. unfold flow in I. destruct rv; auto. apply in_rev, in_map_iff in I as (x & <- & I). destruct (H x I) as [A B]. split; [now apply sc_neg_valid|exact B].
Qed.
Lemma walk_across_ok rv stack contour : (forall cross, In cross contour -> forall c, In c (snd cross) -> on n s c) -> (stack = [] -> contour = []) -> forall walk target, length walk = n / 2 ->
  let l := concat (map (flow rv) (until (hd 0 stack) contour)) in
  exists walk', walk_across rv stack contour walk target = Ok (walk', path_end target l) /\ length walk' = n / 2 /\ cvector n s walk' = padd (cvector n s walk) (psum (map (sv n) l)).
Proof.
  intros H E. cbv zeta. induction contour as [|[label cross] contour IH]; intros walk target L; cbn [walk_across until map concat].
  - exists walk. split; auto. split; auto. cbn [map psum]. destruct (cvector n s walk); unfold padd; cbn [fst snd]; f_equal; ring.
  - destruct (walk_along_ok (flow rv cross)) with (walk := walk) (target := target) as (w & -> & Lw & Ew); auto; [apply flow_on; exact (H _ (or_introl eq_refl))|]. cbn [bind].
    destruct stack as [|x stack]; [discriminate (E eq_refl)|]. cbn [hd] in *. destruct (label =? x).
    + exists w. cbn [map concat]. rewrite app_nil_r. auto.
    + destruct IH with (walk := w) (target := path_end target (flow rv cross)) as (w' & -> & Lw' & Ew'); auto; [intros; now apply (H cross0); [right|]|discriminate|]. exists w'. rewrite path_end_app. split; auto. split; auto.
      rewrite Ew', Ew, map_app, psum_app'. unfold padd. cbn [fst snd]. f_equal; ring.
Qed.
Lemma path_across_flow onTop (left : list conn) (contour : list (nat * list conn)) k : flow (negb onTop) (rev left) ++ concat (map (flow (negb onTop)) (until k contour)) = path_across onTop left contour k.
Proof.
  unfold path_across. destruct onTop; cbn [negb flow].
  - f_equal. now rewrite map_id.
  - rewrite map_rev, rev_involutive. f_equal. f_equal. apply map_ext. intros l. now rewrite map_rev.
Qed.
Lemma until_In k (contour : list (nat * list conn)) x : In x (concat (until k contour)) -> exists cross, In x (snd cross) /\ In cross contour.
Proof.
  induction contour as [|[label cross] contour IH]; cbn [until concat]; [intros []|]. intros I. apply in_app_or in I as [I|I]; [exists (label, cross); split; auto; now left|].
  destruct (label =? k); [destruct I|]. destruct (IH I) as (c & A & B). exists c. split; auto. now right.
Qed.
Lemma widths_sum (l : list conn) : conn_widths n v l = pdet (psum (map (sv n) l)) v.
Proof. unfold conn_widths. induction l as [|c l IH]; cbn [map rsum psum]; [unfold pdet; cbn; ring|]. rewrite IH. unfold conn_width, pdet, padd. cbn [fst snd]. ring. Qed.

(** ** Subtracting *)
Lemma in_left h x : ccw_at v s h x -> (ccw_eqb x COUNTERCLOCKWISE = true <-> (r h < 0)%R).
Proof. unfold ccw_at, rightwards. assert (pdet v (vv s h) = - pdet (vv s h) v)%R by (unfold pdet; ring). destruct x; cbn; split; intros; try discriminate; auto; lra. Qed.
Lemma not_right h x : ccw_at v s h x -> (negb (ccw_eqb x CLOCKWISE) = true <-> (r h <= 0)%R).
Proof. unfold ccw_at, rightwards. assert (pdet v (vv s h) = - pdet (vv s h) v)%R by (unfold pdet; ring). destruct x; cbn; split; intros; try discriminate; auto; lra. Qed.

Lemma subtract_ok fuel (l : lengths K) minuend onTop left contour it c : let path := path_across onTop left contour (hd 0 (le_stack l)) in
  valid n s V (le_vertical l) -> n + 1 < fuel -> nth minuend (le_lengths l) None = Some c -> on n s c ->
  (forall x, In x left \/ (exists cross, In x (snd cross) /\ In cross contour) -> on n s x) -> (le_stack l = [] -> contour = []) ->
  (0 < conn_width n v c - IZR it * conn_widths n v path)%R ->
  exists l' c', subtract_iterations fuel l minuend onTop left contour it = Ok l' /\ le_stack l' = [] /\ le_sum l' = rofZ 0 /\ le_lengths l' = upd (le_lengths l) minuend (Some c') /\ valid n s V (le_vertical l') /\
    on n s c' /\ sv n c' = padd (sv n c) (pscale (- IZR it) (psum (map (sv n) path))) /\ sector_contains s (sc_source c') (sv n c') /\ sector_contains s (sc_target c') (pneg (sv n c')) /\
    same_vertex (fT s) (sc_target c) (sc_target c') /\ same_vertex (fT s) (path_end (sc_source c) path) (sc_source c') /\
    (0 < conn_width n v c -> sector_contains s (sc_target c) (pneg (sv n c)) -> same_left_plane s v (sc_target c) (sc_target c'))%R /\
    exists e, first_right s v (path_end (sc_source c) path) e /\ first_ccw s e (sv n c') (sc_source c').
Proof.
  intros path Vm Lf Nc Oc OP SE Pos. destruct Oc as [Vc Sc]. assert (Vc' := Vc). destruct Vc' as (_ & H1 & H2 & Lc). assert (Fs := proj1 CS). assert (Wf := fs_wf n s Fs).
  assert (Lm : minuend < length (le_lengths l)). { destruct (Nat.lt_ge_cases minuend (length (le_lengths l))); auto. rewrite nth_overflow in Nc by auto. discriminate. }
  assert (Nv := vd_nonzero _ _ _ _ Vm).
  unfold subtract_iterations. rewrite (vget_nth _ _ None Lm), Nc. cbn [bind]. cbn [sc_neg sc_surface sc_source sc_target sc_chain]. rewrite Sc.
  destruct (walk_along_ok (flow (negb onTop) (rev left))) with (walk := zc_zero s) (target := sc_source c) as (w1 & -> & L1 & E1); [apply flow_on; intros x I; apply OP; left; now apply in_rev|now apply zc_zero_length|]. cbn [bind].
  destruct (walk_across_ok (negb onTop) (le_stack l) contour) with (walk := w1) (target := path_end (sc_source c) (flow (negb onTop) (rev left))) as (w2 & -> & L2 & E2); auto; [intros cross I x J; apply OP; right; eauto|]. cbn [bind].
  rewrite <- path_end_app, path_across_flow. fold path.
  assert (E : cvector n s w2 = psum (map (sv n) path)). { rewrite E2, E1, (cvector_zero n s). unfold path. rewrite <- path_across_flow, map_app, psum_app'. unfold padd. cbn [fst snd]. f_equal; ring. }
  assert (Hp : path_end (sc_source c) path < n).
  { apply path_end_lt; auto. intros x I. unfold path, path_across in I. destruct onTop; apply in_app_or in I as [I|I].
    - apply OP. left. now apply in_rev.
    - apply OP. right. now apply until_In in I.
    - apply in_map_iff in I as (y & <- & I). destruct (OP y (or_introl I)) as [A B]. split; [now apply sc_neg_valid|exact B].
    - apply in_concat in I as (k & I1 & I2). apply in_map_iff in I1 as (k' & <- & I1). apply in_map_iff in I2 as (y & <- & I2). apply in_rev in I2.
      destruct (OP y) as [A B]; [right; apply (until_In (hd 0 (le_stack l))), in_concat; eauto|]. split; [now apply sc_neg_valid|exact B]. }
  destruct (zc_add_Ok n s (map (Z.mul it) w2) (zc_neg (sc_chain c))) as (vec & -> & Lv & Ev); [now rewrite map_length|now rewrite zc_neg_length|]. cbn [bind].
  rewrite cvector_scale, E, cvector_neg in Ev.
  assert (Sv : cvector n s (sc_chain c) = sv n c) by (unfold sv; now rewrite Sc). rewrite Sv in Ev.
  destruct (zc_vector_Ok n s Fs vec Lv) as (d & -> & Ed). cbn [bind]. destruct (zc_vector_Ok n s Fs (zc_neg vec)) as (d' & -> & Ed'); [now rewrite zc_neg_length|]. cbn [bind].
  rewrite cvector_neg in Ed'. rewrite widths_sum in Pos. unfold conn_width in Pos. set (W := psum (map (sv n) path)) in *.
  assert (Dv : (pdet (vden d) v < 0)%R). { rewrite Ed, Ev. unfold pdet, padd, pscale, pneg in *. cbn [fst snd]. lra. }
  assert (Nd : vden d <> (0, 0)%R). { intros Q. rewrite Q in Dv. unfold pdet in Dv. cbn in Dv. lra. }
  assert (Nd' : vden d' <> (0, 0)%R). { rewrite Ed'. intros Q. apply Nd. rewrite Ed. unfold pneg in Q. injection Q. destruct (cvector n s vec). cbn. intros. f_equal; lra. }
  assert (IA : forall h, h < n -> inner_at s h) by (intros; now apply (closed_inner_at n)).
  destruct (some_right (sc_target c) H2 Nv) as (k1 & K1 & R1).
  destruct (turn_back_ok (fun c => ccw_eqb c COUNTERCLOCKWISE) (fun x => x < 0)%R k1) with (fuel := fuel) (m := le_vertical l) (h := sc_target c) as (a & m1 & La & -> & V1 & Qa & Qb); auto; [intros; now apply in_left|lia|lra|]. cbn [bind].
  set (e1 := Nat.iter a (pV (fT s)) (sc_target c)) in *. assert (He1 : e1 < n) by now apply (pV_iter_lt n).
  destruct (some_hit n s e1 (vden d) Fs He1 (IA _ He1) Nd) as (k2 & K2 & R2). destruct (turn_to_ok d k2 fuel e1 He1 ltac:(lia) R2) as (b & Lb & -> & Hb & Fb). cbn [bind]. cbv zeta in Hb, Fb.
  destruct (some_right (path_end (sc_source c) path) Hp Nv) as (k3 & K3 & R3).
  destruct (turn_back_ok (fun c => negb (ccw_eqb c CLOCKWISE)) (fun x => x <= 0)%R k3) with (fuel := fuel) (m := m1) (h := path_end (sc_source c) path) as (a' & m2 & La' & -> & V2 & Qa' & Qb'); auto; [intros; now apply not_right|lia|lra|]. cbn [bind].
  set (e2 := Nat.iter a' (pV (fT s)) (path_end (sc_source c) path)) in *. assert (He2 : e2 < n) by now apply (pV_iter_lt n).
  destruct (some_hit n s e2 (vden d') Fs He2 (IA _ He2) Nd') as (k4 & K4 & R4). destruct (turn_to_ok d' k4 fuel e2 He2 ltac:(lia) R4) as (b' & Lb' & -> & Hb' & Fb'). cbn [bind]. cbv zeta in Hb', Fb'.
  rewrite vset_Ok by auto. cbn [bind].
  assert (Ht : Nat.iter b (fV s) e1 < n) by now apply fV_iter_lt. assert (Hs : Nat.iter b' (fV s) e2 < n) by now apply fV_iter_lt.
  assert (IE : forall h, h < n -> fF s h <> h) by (intros h Hh; apply (IA h Hh h); exists 0; reflexivity).
  set (c' := mkSconn s (Nat.iter b' (fV s) e2) (Nat.iter b (fV s) e1) (zc_neg vec)).
  assert (S' : sv n c' = padd (sv n c) (pscale (- IZR it) W)). { unfold sv at 1, c'. cbn [sc_surface sc_chain]. rewrite cvector_neg, Ev. unfold padd, pneg, pscale. cbn [fst snd]. f_equal; ring. }
  assert (D1 : vden d' = sv n c') by (rewrite Ed'; unfold sv, c'; cbn [sc_surface sc_chain]; now rewrite cvector_neg).
  assert (D2 : vden d = pneg (sv n c')). { rewrite <- D1, Ed', Ed. unfold pneg. cbn [fst snd]. destruct (cvector n s vec); cbn. f_equal; ring. }
  eexists. exists c'. split; [reflexivity|]. cbn [le_stack le_sum le_lengths le_vertical]. split; auto. split; auto. split; [reflexivity|]. split; auto.
  split; [split; [split; [exact Fs|]; split; [exact Hs|]; split; [exact Ht|]; unfold c'; cbn [sc_chain]; now rewrite zc_neg_length|reflexivity]|]. split; auto.
  split; [rewrite <- D1; apply (contains_hits n); cbn [c' sc_source]; auto|]. split; [rewrite <- D2; apply (contains_hits n); cbn [c' sc_target]; auto|].
  assert (B1 : Nat.iter a (fV s) e1 = sc_target c) by now apply (pV_iter n). assert (B2 : Nat.iter a' (fV s) e2 = path_end (sc_source c) path) by now apply (pV_iter n).
  split; [|split; [|split]].
  - apply (same_vertex_trans (fT s) _ e1); [apply (same_vertex_sym n); auto; rewrite <- B1; eexists; reflexivity|exists b; reflexivity].
  - apply (same_vertex_trans (fT s) _ e2); [apply (same_vertex_sym n); auto; rewrite <- B2; eexists; reflexivity|exists b'; reflexivity].
  - intros Wc Hc. exists e1, a, b. split; auto. split; auto. split; [destruct (Rlt_le_dec (r e1) 0); [contradiction|auto]|].
    assert (A : forall i, 0 < i <= a -> (r (Nat.iter i (fV s) e1) < 0)%R). { intros i Hi. unfold e1. rewrite (pV_fV_iter n) by (auto; lia). apply Qb. lia. }
    assert (Nw : pneg (sv n c) <> (0, 0)%R). { intros Q. unfold conn_width, pdet in Wc. unfold pneg in Q. injection Q. intros. nra. }
    assert (B : forall i, 0 < i <= b -> (r (Nat.iter i (fV s) e1) < 0)%R).
    { intros i Hi. unfold rightwards. apply (half_plane v (vden d) (pneg (sv n c)) (fun i => vv s (Nat.iter i (fV s) e1)) a b); auto.
      - intros j. rewrite iter_S. apply corner_pos. now apply fV_iter_lt.
      - cbn. destruct (Rlt_le_dec (r e1) 0); [contradiction|auto].
      - rewrite iter_S, B1. apply (contains_hits n); auto.
      - unfold conn_width, pdet, pneg in *. cbn [fst snd]. lra. }
    intros i [Hi|Hi]; auto.
  - exists e2. split.
    + exists a'. split; auto. split; [destruct (Rlt_le_dec 0 (r e2)); auto; contradiction|]. intros i Hi. unfold e2. rewrite (pV_fV_iter n) by (auto; lia). apply Qb'. lia.
    + exists b'. split; [reflexivity|]. split; [rewrite <- D1; apply (contains_hits n); cbn [c' sc_source]; auto|]. intros j Hj Q. rewrite <- D1 in Q. apply (contains_hits n) in Q; auto; [|now apply fV_iter_lt|apply IE; now apply fV_iter_lt]. rewrite (Fb' j Hj) in Q. discriminate.
Qed.
End facts.
