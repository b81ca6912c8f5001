(** * Angles do not change when vertices are shifted *)
From Coq Require Import ZArith QArith Qreals Reals List Arith Bool Lia Lra Psatz Permutation.
From Verif Require Import Base HalfEdge HalfEdgeFacts Perm PermSpec PermFacts PermCycles PermLemmas IndexedSet Combinatorial CombinatorialSpec
  CombinatorialFacts CombinatorialFlip CombinatorialHistory CombinatorialOps ExactReal Vector PlaneSpec Plane VectorFacts
  FlatTri FlatSpec FlatFacts FlatSum FlatLinear FlatOps FlatAngle FlatSector FlatDelaunay ShiftSpec ShiftFacts ShiftRun ShiftInvariants.
Import ListNotations.
Local Open Scope R_scope.

(** ** Angles and continuity *)
Definition ang (u w : pt) : R := acos (pdot u w / (sqrt (pdot u u) * sqrt (pdot w w))).

Lemma turn_quotient u w a : 0 < pdet u w -> turn u w a -> pdot u w / (sqrt (pdot u u) * sqrt (pdot w w)) = cos a /\ 0 < a < PI.
Proof.
  intros D T. destruct (det_nonzero u w D) as [Nu Nw]. split; [|eapply turn_pos; eauto]. assert (Pu := pdot_pos u Nu). assert (Pw := pdot_pos w Nw).
  destruct T as (_ & r & R & E).
  assert (Ew : pdot w w = r * r * pdot u u).
  { rewrite E. assert (X := sin2_cos2' a). destruct u as [x y]. unfold pdot, pscale, protate; cbn [fst snd].
    transitivity (r * r * (sin a * sin a + cos a * cos a) * (x * x + y * y)); [ring|]. rewrite X. ring. }
  assert (Ed : pdot u w = r * pdot u u * cos a).
  { rewrite E. destruct u as [x y]. unfold pdot, pscale, protate; cbn [fst snd]. ring. }
  assert (Sw : sqrt (pdot w w) = r * sqrt (pdot u u)).
  { rewrite Ew, sqrt_mult by (try apply Rmult_le_pos; lra). now rewrite sqrt_square by lra. }
  assert (Su := sqrt_sqrt (pdot u u)). assert (Ps := sqrt_lt_R0 (pdot u u) Pu). rewrite Sw, Ed. rewrite <- Su at 1 by lra. field. split; lra.
Qed.
Lemma turn_ang u w : 0 < pdet u w -> turn u w (ang u w).
Proof.
  intros D. destruct (det_nonzero u w D) as [Nu Nw]. destruct (turn_exists u w Nu Nw) as (a & A). destruct (turn_quotient u w a D A) as [E B].
  unfold ang. rewrite E, acos_cos by lra. auto.
Qed.
Lemma ang_continuous (u w : R -> pt) t : continuity_pt (fun t => fst (u t)) t -> continuity_pt (fun t => snd (u t)) t ->
  continuity_pt (fun t => fst (w t)) t -> continuity_pt (fun t => snd (w t)) t -> 0 < pdet (u t) (w t) -> continuity_pt (fun t => ang (u t) (w t)) t.
Proof.
  intros U1 U2 W1 W2 D. destruct (det_nonzero _ _ D) as [Nu Nw]. assert (Pu := pdot_pos _ Nu). assert (Pw := pdot_pos _ Nw).
  assert (Su := sqrt_lt_R0 _ Pu). assert (Sw := sqrt_lt_R0 _ Pw).
  destruct (turn_exists _ _ Nu Nw) as (a & A). destruct (turn_quotient _ _ a D A) as [E B].
  assert (Dot : forall p q : R -> pt, continuity_pt (fun t => fst (p t)) t -> continuity_pt (fun t => snd (p t)) t -> continuity_pt (fun t => fst (q t)) t -> continuity_pt (fun t => snd (q t)) t ->
    continuity_pt (fun t => pdot (p t) (q t)) t).
  { intros p q P1 P2 Q1 Q2. unfold pdot. apply (continuity_pt_plus (fun t => fst (p t) * fst (q t)) (fun t => snd (p t) * snd (q t)));
      [apply (continuity_pt_mult (fun t => fst (p t)) (fun t => fst (q t)))|apply (continuity_pt_mult (fun t => snd (p t)) (fun t => snd (q t)))]; auto. }
  unfold ang. apply (continuity_pt_comp (fun t => pdot (u t) (w t) / (sqrt (pdot (u t) (u t)) * sqrt (pdot (w t) (w t)))) acos).
  - apply (continuity_pt_div (fun t => pdot (u t) (w t)) (fun t => sqrt (pdot (u t) (u t)) * sqrt (pdot (w t) (w t)))); auto.
    + apply (continuity_pt_mult (fun t => sqrt (pdot (u t) (u t))) (fun t => sqrt (pdot (w t) (w t)))).
      * apply (continuity_pt_comp (fun t => pdot (u t) (u t)) sqrt); auto. apply continuity_pt_sqrt. lra.
      * apply (continuity_pt_comp (fun t => pdot (w t) (w t)) sqrt); auto. apply continuity_pt_sqrt. lra.
    + apply Rgt_not_eq. now apply Rmult_lt_0_compat.
  - rewrite E. apply derivable_continuous_pt, derivable_pt_acos. assert (X := sin2_cos2' a). assert (Y := sin_gt_0 a (proj1 B) (proj2 B)). split; nra.
Qed.
Lemma rsum_continuous {A} (f : A -> R -> R) l t : (forall a, In a l -> continuity_pt (f a) t) -> continuity_pt (fun t => rsum (map (fun a => f a t) l)) t.
Proof.
  induction l as [|a l IH]; intros H; cbn [map rsum]; [apply continuity_pt_const; now intros x y|].
  apply (continuity_pt_plus (f a) (fun t => rsum (map (fun a => f a t) l))); auto with datatypes.
Qed.
(** A continuous function that is always a multiple of 2 pi is constant. *)
Lemma multiples_constant f t1 : 0 <= t1 -> (forall t, 0 <= t <= t1 -> continuity_pt f t) -> (forall t, 0 <= t <= t1 -> exists k, f t = 2 * PI * INR k) -> f t1 = f 0.
Proof.
  intros T1 Cf H. assert (P := PI_RGT_0). destruct (H 0) as (a & Ea); [lra|]. destruct (H t1) as (b & Eb); [lra|].
  assert (No : forall t k, 0 <= t <= t1 -> f t <> 2 * PI * (INR k + / 2)).
  { intros t k T E. destruct (H t T) as (j & Ej). rewrite Ej in E. apply Rmult_eq_reg_l in E; [|lra]. rewrite !INR_IZR_INZ in E.
    assert (X : IZR (2 * Z.of_nat j) = IZR (2 * Z.of_nat k + 1)) by (rewrite plus_IZR, !mult_IZR; lra). apply eq_IZR in X. lia. }
  destruct (Nat.lt_trichotomy a b) as [L|[->|L]]; [exfalso| congruence |exfalso].
  - assert (INR a + 1 <= INR b) by (rewrite <- S_INR; now apply le_INR).
    destruct (first_zero (fun t => 2 * PI * (INR a + / 2) - f t) t1) as (t & T & Z & _); auto.
    + intros t T. apply (continuity_pt_minus (fun _ => 2 * PI * (INR a + / 2)) f); auto. apply continuity_pt_const. now intros x y.
    + rewrite Ea. nra.
    + rewrite Eb. nra.
    + apply (No t a T). lra.
  - assert (INR b + 1 <= INR a) by (rewrite <- S_INR; now apply le_INR).
    destruct (first_zero (fun t => f t - 2 * PI * (INR b + / 2)) t1) as (t & T & Z & _); auto.
    + intros t T. apply (continuity_pt_minus f (fun _ => 2 * PI * (INR b + / 2))); auto. apply continuity_pt_const. now intros x y.
    + rewrite Ea. nra.
    + rewrite Eb. nra.
    + apply (No t b T). lra.
Qed.

(** ** The surface at a real time *)
Definition ExactR : ExactReal.
Proof.
  refine (mkExactReal R (fun x => x) IZR Rplus Rminus Rmult Ropp (fun x y => if Rlt_dec x y then true else false) (fun x y => if Req_EM_T x y then true else false) (fun x => (up x - 1)%Z) _ _ _ _ _ _ _ _); auto.
  - intros x y. destruct (Rlt_dec x y); split; auto; discriminate.
  - intros x y. destruct (Req_EM_T x y); split; auto; discriminate.
  - intros x. destruct (archimed x). rewrite minus_IZR. lra.
Defined.

Section angle.
Context {K : ExactReal}.
Variable n : nat.
Implicit Types (s u : flat K) (d : list (vec K)).

Definition at_real s d (t : R) : flat ExactR := mkFlat (fT s) (map (fun h => mkVec (K := ExactR) (fst (moving s d t h)) (snd (moving s d t h))) (seq 0 n)).
Lemma at_real_vv s d t h : (h < n)%nat -> vv (at_real s d t) h = moving s d t h.
Proof. intros H. unfold at_real. rewrite vv_map by auto. symmetry. apply surjective_pairing. Qed.
Lemma at_real_flat s d c t : flat_surface n s -> closed_surface n s -> shift_of n s d -> positive_until n s d c -> 0 <= t <= c -> flat_surface n (at_real s d t).
Proof.
  intros S C Sh Pu T. constructor; cbn [fT fvec at_real].
  - apply S.
  - now rewrite map_length, seq_length.
  - intros e H. rewrite !at_real_vv by (auto; now apply (neg_ltn n _ (fs_wf n s S))). eapply mv_neg; eauto.
  - intros e H _. change (fF (at_real s d t)) with (fF s). assert (H1 := fF_lt n s e S H). assert (H2 := fF_lt n s _ S H1). rewrite !at_real_vv by auto.
    split; [eapply mv_sum; eauto|now apply Pu].
Qed.

(** The surface [s2] need not have the coordinates of [s1]. *)
Lemma moved_angle_gen (K2 : ExactReal) s1 d1 c (s2 : flat K2) v v' : flat_surface n s1 -> closed_surface n s1 -> shift_of n s1 d1 -> 0 <= c -> positive_until n s1 d1 c -> flat_surface n s2 ->
  (forall e, (e < n)%nat -> fF s2 e = fF s1 e /\ fV s2 e = fV s1 e /\ vv s2 e = moving s1 d1 c e) ->
  In v (tverts (fT s1)) -> In v' (tverts (fT s2)) -> (forall h, (h < n)%nat -> scontains v' h = scontains v h) -> angle s2 v' = angle s1 v.
Proof.
  intros S C Sh Hc Pu S2 M I I' E.
  assert (In1 : inner_vertex s1 v) by (intros h Q; exact (C h (vertex_lt n s1 v h S I Q))).
  assert (C2 : closed_surface n s2) by (intros e He; rewrite (proj1 (M e He)); now apply C).
  assert (In2 : inner_vertex s2 v') by (intros h Q; exact (C2 h (vertex_lt n s2 v' h S2 I' Q))).
  assert (HV : forall h, (h < n)%nat -> (fV s1 h < n)%nat) by (intros; now apply (fV_lt n)).
  set (al := fun t h => ang (moving s1 d1 t h) (moving s1 d1 t (fV s1 h))).
  assert (Det : forall t h, 0 <= t <= c -> (h < n)%nat -> 0 < pdet (moving s1 d1 t h) (moving s1 d1 t (fV s1 h))).
  { intros t h T H. rewrite (mv_V n s1 d1 S C Sh) by auto. assert (A := Pu t h T H). assert (Z := mv_sum n s1 d1 S C Sh t h H).
    destruct (moving s1 d1 t h), (moving s1 d1 t (fF s1 h)), (moving s1 d1 t (fF s1 (fF s1 h))). unfold padd, pdet, pneg in *; cbn [fst snd] in *. injection Z as Z1 Z2.
    replace r3 with (- r - r1) by lra. replace r4 with (- r0 - r2) by lra. lra. }
  assert (Sum : forall t, 0 <= t <= c -> exists k, rsum (map (al t) (members n v)) = 2 * PI * INR k).
  { intros t T. assert (St := at_real_flat s1 d1 c t S C Sh Pu T). destruct (angle_total n (at_real s1 d1 t) v (al t) St I In1) as (k & _ & _ & Q & _); [|eauto].
    intros h H _. change (fV (at_real s1 d1 t) h) with (fV s1 h). rewrite !at_real_vv by auto. now apply turn_ang, Det. }
  assert (Eq : rsum (map (al c) (members n v)) = rsum (map (al 0) (members n v))).
  { apply (multiples_constant (fun t => rsum (map (al t) (members n v))) c Hc); auto. intros t T. apply (rsum_continuous (fun h t => al t h)).
    intros h Q. apply members_In in Q as [H _]. unfold al. apply ang_continuous; [| | | |now apply Det]; unfold moving, padd, pscale; cbn [fst snd]; reg. }
  destruct (angle_total n s1 v (al 0) S I In1) as (k1 & -> & _ & E1 & _).
  { intros h H _. assert (Z : forall g, moving s1 d1 0 g = vv s1 g) by (intros g; unfold moving; destruct (vv s1 g), (dd d1 g); unfold padd, pscale; cbn; f_equal; ring).
    assert (Q := turn_ang _ _ (Det 0 h ltac:(lra) H)). unfold al. now rewrite !Z in *. }
  destruct (angle_total n s2 v' (al c) S2 I' In2) as (k2 & -> & _ & E2 & _).
  { intros h H _. destruct (M h H) as (_ & MV & Mv). rewrite MV, Mv. destruct (M _ (HV h H)) as (_ & _ & ->). apply turn_ang, Det; auto. lra. }
  replace (members n v') with (members n v) in E2.
  2: { unfold members. apply filter_ext_in. intros h Q. apply in_seq in Q. symmetry. apply E. lia. }
  f_equal. apply INR_eq. assert (P := PI_RGT_0). apply (Rmult_eq_reg_l (2 * PI)); lra.
Qed.

Lemma moved_angle s1 d1 c s2 d2 v v' : flat_surface n s1 -> closed_surface n s1 -> shift_of n s1 d1 -> 0 <= c -> positive_until n s1 d1 c -> moved_to n s1 d1 c s2 d2 ->
  In v (tverts (fT s1)) -> In v' (tverts (fT s2)) -> (forall h, (h < n)%nat -> scontains v' h = scontains v h) -> angle s2 v' = angle s1 v.
Proof. intros S C Sh Hc Pu (S2 & _ & M). apply (moved_angle_gen K s1 d1 c s2 v v'); auto. intros e He. destruct (M e He) as (M1 & M2 & M3 & _). auto. Qed.

(** ** The vertices *)
Lemma perm_eq {A} (l l' : list A) : l = l' -> Permutation l l'.
Proof. intros ->. apply Permutation_refl. Qed.
Definition angles s : list (outcome nat) := map (angle s) (tverts (fT s)).
(** The first half edge of a vertex. *)
Definition first_of s (h : nat) : Prop := (h < n)%nat /\ forall x, same_vertex (fT s) h x -> (h <= x)%nat.
Lemma first_sbegin s v : flat_surface n s -> In v (tverts (fT s)) -> first_of s (sbegin v) /\ scontains v (sbegin v) = true.
Proof.
  intros S I. destruct (vertex_nonempty n s v S I) as (x & Hx & Cx). destruct (sbegin_first v x Cx) as (Cb & Mi). assert (Hb := vertex_lt n s v _ S I Cb).
  split; auto. split; auto. intros y Y. apply Mi. apply (vertex_same n s v (sbegin v) y S I Cb). split; auto. split; auto.
  destruct Y as (k & <-). apply (iter_lt n (nV (fT s)) (pV (fT s))); auto. apply (bijV n s S).
Qed.
Lemma firsts s r : flat_surface n s -> (In r (map sbegin (tverts (fT s))) <-> first_of s r).
Proof.
  intros S. rewrite in_map_iff. split.
  - intros (v & <- & I). now apply first_sbegin.
  - intros (H & Mi). destruct (vertex_of n s r S H) as (v & I & Cv). exists v. split; auto. destruct (first_sbegin s v S I) as ((Hb & Mb) & Cb).
    apply Nat.le_antisymm.
    + apply Mb. apply (vertex_same n s v (sbegin v) r S I Cb) in Cv. tauto.
    + apply Mi. apply (vertex_same n s v r (sbegin v) S I Cv) in Cb. tauto.
Qed.
Lemma firsts_nodup s : flat_surface n s -> NoDup (map sbegin (tverts (fT s))).
Proof.
  intros S. destruct (wf_vertices _ _ (fs_wf n s S)) as (_ & _ & U & _). apply (NoDup_nth _ (sbegin [])). rewrite map_length. intros i j Hi Hj E. rewrite !map_nth in E.
  destruct (first_sbegin s _ S (nth_In _ [] Hi)) as [_ Ci]. destruct (first_sbegin s _ S (nth_In _ [] Hj)) as [_ Cj]. rewrite E in Ci. eapply U; eauto.
Qed.
Lemma angles_perm s u : flat_surface n s -> flat_surface n u -> (forall h, (h < n)%nat -> fV u h = fV s h) ->
  (forall v v', In v (tverts (fT s)) -> In v' (tverts (fT u)) -> (forall h, (h < n)%nat -> scontains v' h = scontains v h) -> angle u v' = angle s v) -> Permutation (angles u) (angles s).
Proof.
  intros S Su EV A.
  assert (It : forall k h, (h < n)%nat -> Nat.iter k (nV (fT u)) h = Nat.iter k (nV (fT s)) h).
  { induction k as [|k IH]; intros h H; auto. cbn [Nat.iter]. change (Nat.iter (Datatypes.S k) (nV (fT u)) h) with (nV (fT u) (Nat.iter k (nV (fT u)) h)).
    change (Nat.iter (Datatypes.S k) (nV (fT s)) h) with (nV (fT s) (Nat.iter k (nV (fT s)) h)). rewrite IH by auto. apply EV. apply (iter_lt n (nV (fT s)) (pV (fT s))); auto. apply (bijV n s S). }
  assert (Sv : forall h x, (h < n)%nat -> (same_vertex (fT u) h x <-> same_vertex (fT s) h x)) by (intros h x H; split; intros (k & E); exists k; rewrite <- E; [symmetry|]; now apply It).
  assert (Fo : forall r, first_of u r <-> first_of s r) by (intros r; split; intros (H & Mi); split; auto; intros x X; apply Mi; now apply Sv).
  set (from := fun (w : flat K) r => do c <- pcycle (tV (fT w)) r; match c with [] => UB | first :: _ => angle_loop (tsize (fT w)) w first first 0 end).
  assert (Ef : forall w, angles w = map (from w) (map sbegin (tverts (fT w)))) by (intros w; unfold angles; rewrite map_map; reflexivity).
  rewrite (Ef u), (Ef s).
  assert (P : Permutation (map sbegin (tverts (fT u))) (map sbegin (tverts (fT s)))).
  { apply NoDup_Permutation; [now apply firsts_nodup|now apply firsts_nodup|]. intros r. rewrite !firsts by auto. apply Fo. }
  rewrite (Permutation_map (from u) P). apply perm_eq. apply map_ext_in. intros r Q. pose proof Q as Q'. apply in_map_iff in Q as (v & <- & I).
  eapply Permutation_in in Q'; [|symmetry; exact P]. apply in_map_iff in Q' as (v' & Eb & I').
  change (angle s v) with (from s (sbegin v)) in *. rewrite <- Eb. change (from u (sbegin v')) with (angle u v'). change (from s (sbegin v)) with (angle s v).
  rewrite Eb. change (from s (sbegin v)) with (angle s v). apply A; auto.
  intros h H. destruct (first_sbegin s v S I) as [(Hb & _) Cb]. destruct (first_sbegin u v' Su I') as [_ Cb']. rewrite Eb in Cb'.
  apply eq_true_iff_eq. rewrite (vertex_same n u v' (sbegin v) h Su I' Cb'), (vertex_same n s v (sbegin v) h S I Cb), Sv by auto. tauto.
Qed.

Lemma moved_angles s1 d1 c s2 d2 : flat_surface n s1 -> closed_surface n s1 -> shift_of n s1 d1 -> 0 <= c -> positive_until n s1 d1 c -> moved_to n s1 d1 c s2 d2 ->
  Permutation (angles s2) (angles s1).
Proof.
  intros S C Sh Hc Pu M. apply angles_perm; auto; [apply M| |].
  - intros h H. destruct M as (_ & _ & M). apply (M h H).
  - intros v v' I I' E. eapply moved_angle; eauto.
Qed.
Lemma flipped_angles s1 d1 e s2 d2 : flat_surface n s1 -> closed_surface n s1 -> closed_surface n s2 -> flipped_to n s1 d1 e s2 d2 -> Permutation (angles s2) (angles s1).
Proof.
  intros S C C2 M. pose proof M as (CF & S2 & _ & (G1 & G2 & G3 & G4 & G5 & G6 & O) & Ve & _ & Vo). pose proof CF as (He & _).
  destruct (fflip_Ok n s1 e S He CF) as (s3 & E & S3 & _). destruct (flip_facts n s1 e s3 S He E) as (a & b & c & f & Ea & Eb & Ee & Ec & Ef & En & F1 & F2 & F3 & F4 & F5 & F6 & ND & Ha & Hb & Hc & Hf & Hn & Oi & _).
  assert (C3 := closed_flip n s1 e s3 S C He E).
  change (nF (fT s1) e) with (fF s1 e) in *. change (nF (fT s1) (neg e)) with (fF s1 (neg e)) in *. rewrite Ea, Ec in *.
  change (nF (fT s1) a) with (fF s1 a) in *. change (nF (fT s1) c) with (fF s1 c) in *. rewrite Eb, Ef in *.
  assert (EF : forall i, (i < n)%nat -> fF s2 i = fF s3 i).
  { intros i Hi. destruct (in_dec Nat.eq_dec i [e; a; b; neg e; c; f]) as [I|I].
    - unfold fF at 1. destruct I as [<-|[<-|[<-|[<-|[<-|[<-|[]]]]]]]; congruence.
    - rewrite (proj1 (Oi i Hi I)). apply (O i Hi I). }
  assert (EV : forall i, (i < n)%nat -> fV s2 i = fV s3 i).
  { intros i Hi. rewrite (fV_eq n s2 i S2 Hi (C2 i Hi)), (fV_eq n s3 i S3 Hi (C3 i Hi)). rewrite (EF i Hi), EF; auto. now apply (fF_lt n). }
  destruct (fflip_spec n s1 e s3 S He E) as (_ & _ & _ & Vo3 & Ve3). rewrite Ea, Eb, Ec in Ve3.
  assert (Evv : forall i, (i < n)%nat -> vv s2 i = vv s3 i).
  { intros i Hi. destruct (Nat.eq_dec i e) as [->|N1]; [congruence|]. destruct (Nat.eq_dec i (neg e)) as [->|N2].
    - rewrite (fs_odd n s2 S2), (fs_odd n s3 S3) by auto. congruence.
    - rewrite (proj1 (Vo i Hi N1 N2)). unfold vv. now rewrite Vo3. }
  transitivity (angles s3).
  - apply angles_perm; auto. intros v v' I I' Es. rewrite (angle_Ok n s2 v' S2 I'), (angle_Ok n s3 v S3 I). f_equal. f_equal.
    replace (members n v') with (members n v) by (unfold members; apply filter_ext_in; intros h Q; apply in_seq in Q; symmetry; apply Es; lia).
    apply filter_ext_in. intros h Q. apply members_In in Q as [Hh _]. rewrite EV, !Evv; auto. now apply (fV_lt n).
  - apply perm_eq. unfold angles. destruct (flip_members n s1 e s3 S He E) as (L & _). apply (nth_ext _ _ (angle s3 []) (angle s1 [])).
    + now rewrite !map_length.
    + rewrite map_length. intros i Hi. rewrite !map_nth. apply (flip_angle n s1 e s3 i S He E); [lia|]. intros h Q. apply C. apply (vertex_lt n s1 _ h S (nth_In (tverts (fT s1)) [] (n := i) ltac:(lia)) Q).
Qed.

Lemma deforms_angles s d : flat_surface n s -> closed_surface n s -> shift_of n s d -> forall s' d', deforms n s d s' d' -> Permutation (angles s') (angles s).
Proof.
  intros S C Sh s' d'. induction 1 as [|s1 d1 c s2 d2 D1 IH Hc Pu M|s1 d1 e s2 d2 D1 IH M]; auto.
  - destruct (deforms_good n s d S C Sh s1 d1 D1) as (S1 & C1 & Sh1). rewrite <- IH. eapply moved_angles; eauto. lra.
  - destruct (deforms_good n s d S C Sh s1 d1 D1) as (S1 & C1 & Sh1). assert (D2 : deforms n s d s2 d2) by (eapply deforms_flip; eauto).
    destruct (deforms_good n s d S C Sh s2 d2 D2) as (S2 & C2 & _). rewrite <- IH. eapply flipped_angles; eauto.
Qed.
End angle.
