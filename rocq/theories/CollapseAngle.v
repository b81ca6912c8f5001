(** * The angles after an edge has been collapsed at the end of a motion *)
From Coq Require Import Reals List Arith Bool Lia Lra Psatz Permutation.
From Verif Require Import Base HalfEdge HalfEdgeFacts Perm PermSpec PermFacts PermCycles PermLemmas IndexedSet IndexedSetFacts Combinatorial CombinatorialSpec
  CombinatorialFacts CombinatorialHistory ExactReal Vector PlaneSpec Plane VectorFacts
  FlatTri FlatSpec FlatFacts FlatSum FlatLinear FlatAngle FlatSector Shift ShiftSpec ShiftFacts ShiftAngle
  CollapseSpec CollapseMotionSpec CollapseFacts CollapseVertices CollapseShift CollapseFlips CollapseCount.
Import ListNotations.
Local Open Scope R_scope.

(** ** A direction and a time *)
Lemma avoid_all (l : list pt) : (forall p, In p l -> p <> (0, 0)) -> exists y, forall z p, y <= z -> In p l -> pdet p (1, z) <> 0.
Proof.
  induction l as [|(a, b) l IH]; intros N; [exists 0; intros z p _ []|]. destruct IH as (y & Y). { intros p I. apply N. cbn; auto. }
  destruct (Req_dec a 0) as [->|Na].
  - exists y. intros z p Z [<-|I]; [|now apply (Y z)]. unfold pdet; cbn. intros Q. apply (N (0, b)); [cbn; auto|]. f_equal. lra.
  - exists (Rmax y (b / a + 1)). intros z p Z [<-|I].
    + unfold pdet; cbn. intros Q. assert (z = b / a) by (apply (Rmult_eq_reg_l a); auto; field_simplify; auto; lra). assert (b / a + 1 <= z) by (eapply Rle_trans; [apply Rmax_r|exact Z]). lra.
    + apply (Y z); auto. eapply Rle_trans; [apply Rmax_l|exact Z].
Qed.
Lemma near_all (l : list (R * R)) : (forall p, In p l -> fst p <> 0) -> exists r0, 0 < r0 <= 1 /\ forall r p, 0 < r <= r0 -> In p l -> fst p - r * snd p <> 0 /\ (fst p - r * snd p < 0 <-> fst p < 0).
Proof.
  induction l as [|(a, b) l IH]; intros N; [exists 1; split; [lra|intros r p _ []]|]. destruct IH as (r0 & H0 & R0). { intros p I. apply N. cbn; auto. }
  assert (Na : a <> 0) by (apply (N (a, b)); cbn; auto). assert (A := Rabs_pos_lt a Na). assert (B := Rabs_pos b).
  set (r1 := Rabs a / (Rabs b + 1)). assert (R1 : 0 < r1) by (apply Rmult_lt_0_compat; auto; apply Rinv_0_lt_compat; lra).
  exists (Rmin r0 r1). split; [split; [now apply Rmin_glb_lt|eapply Rle_trans; [apply Rmin_l|]; lra]|].
  intros r p Hr [<-|I].
  - cbn [fst snd]. assert (L : r <= r1) by (eapply Rle_trans; [apply Hr|apply Rmin_r]).
    assert (Q : r1 * (Rabs b + 1) = Rabs a) by (unfold r1; field; lra).
    assert (Q2 : r * Rabs b < Rabs a). { apply Rlt_le_trans with (r * (Rabs b + 1)); [lra|]. rewrite <- Q. apply Rmult_le_compat_r; lra. }
    assert (Q3 : Rabs (r * b) < Rabs a) by (rewrite Rabs_mult, (Rabs_right r); auto; lra). clear - Q3 Na.
    unfold Rabs in Q3. destruct (Rcase_abs (r * b)), (Rcase_abs a); split; [| | | | | | |]; try split; lra.
  - apply R0; auto. split; [apply Hr|]. eapply Rle_trans; [apply Hr|apply Rmin_l].
Qed.

Section count.
Context {K : ExactReal}.
(** The half edge points to the left of the direction. *)
Definition leftof (s : flat K) (z : R) (h : nat) : bool := if Rlt_dec (pdet (vv s h) (1, z)) 0 then true else false.
Lemma count_angle n (s : flat K) v z : flat_surface n s -> closed_surface n s -> In v (tverts (fT s)) ->
  angle s v = Ok (length (filter (hit (fT s) (leftof s z)) (members n v))).
Proof.
  intros S C I. assert (In1 : inner_vertex s v) by (intros x Q; exact (C x (vertex_lt n s v x S I Q))). destruct (corners_exist n s v S I In1) as (al & A).
  destruct (angle_total n s v al S I In1 A) as (k & -> & _ & _ & T). f_equal. rewrite <- (T (1, z)) by (intros Q; injection Q; lra).
  f_equal. apply filter_ext. intros h. unfold FlatAngle.hits, hit, leftof. change (nV (fT s) h) with (fV s h). destruct (Rle_dec 0 (pdet (vv s h) (1, z))), (Rlt_dec (pdet (vv s h) (1, z)) 0); cbn; auto; lra.
Qed.
Lemma vertex_unique n (s : flat K) v v' h : flat_surface n s -> In v (tverts (fT s)) -> In v' (tverts (fT s)) -> scontains v h = true -> scontains v' h = true -> v = v'.
Proof.
  intros S I I' Cv Cv'. destruct (wf_vertices _ _ (fs_wf n s S)) as (_ & _ & U & _). destruct (In_nth _ _ [] I) as (i & Hi & <-). destruct (In_nth _ _ [] I') as (j & Hj & <-). f_equal. eapply U; eauto.
Qed.
Lemma vertices_nodup n (s : flat K) : flat_surface n s -> NoDup (tverts (fT s)).
Proof. intros S. eapply NoDup_map_inv. apply (firsts_nodup n s S). Qed.
End count.

Section collapse.
Context {K : ExactReal}.
Variables (n : nat) (s : flat K) (d : list (vec K)) (e : nat) (u : flat K).
Hypothesis S : flat_surface n s.
Hypothesis C : closed_surface n s.
Hypothesis Sh : shift_of n s d.
Hypothesis En : ends_in_point n s d e.
Hypothesis Ct : collapsed_to n s d e u.
Hypothesis D : ~ same_vertex (fT s) e (neg e).
Local Notation t := (fT s).
Local Notation mv := (moving s d).
Let W : well_formed n t := fs_wf n s S.
Let He : (e < n)%nat := proj1 En.
Let Hn : (neg e < n)%nat := neg_ltn n t W e He.

(** A direction and a time before 1 such that all half edges lie with respect to the direction as at time 1. *)
Lemma direction : exists z r, 0 < r <= 1 /\ (forall h, (h < n)%nat -> pdet (mv (1 - r) h) (1, z) <> 0) /\
  forall h, (h < n)%nat -> h <> e -> h <> neg e -> (pdet (mv (1 - r) h) (1, z) < 0 <-> pdet (mv 1 h) (1, z) < 0).
Proof.
  pose proof En as (_ & Ev & Fi & Z & Ov & Pe). set (hs := filter (fun h => negb (h =? e)%nat && negb (h =? neg e)%nat) (seq 0 n)).
  assert (Hs : forall h, In h hs <-> (h < n)%nat /\ h <> e /\ h <> neg e).
  { intros h. unfold hs. rewrite filter_In, in_seq, andb_true_iff, !negb_true_iff, !Nat.eqb_neq. intuition lia. }
  assert (Ne : vv s e <> (0, 0)) by (apply (vv_nonzero n s e S He (C e He))).
  destruct (avoid_all (vv s e :: map (mv 1) hs)) as (z & Az).
  { intros p [<-|I]; auto. apply in_map_iff in I as (h & <- & I). apply Hs in I as (H & N1 & N2). apply Ov; auto. lra. }
  specialize (Az z). destruct (near_all (map (fun h => (pdet (mv 1 h) (1, z), pdet (dd d h) (1, z))) hs)) as (r & Hr & R0).
  { intros p I. apply in_map_iff in I as (h & <- & I). apply Az; [lra|]. right. now apply in_map. }
  assert (Em : forall h, pdet (mv (1 - r) h) (1, z) = pdet (mv 1 h) (1, z) - r * pdet (dd d h) (1, z)) by (intros h; unfold moving, padd, pscale, pdet; cbn; ring).
  assert (R1 : forall h, (h < n)%nat -> h <> e -> h <> neg e -> pdet (mv (1 - r) h) (1, z) <> 0 /\ (pdet (mv (1 - r) h) (1, z) < 0 <-> pdet (mv 1 h) (1, z) < 0)).
  { intros h H N1 N2. rewrite Em. apply (R0 r (pdet (mv 1 h) (1, z), pdet (dd d h) (1, z))); [lra|]. apply in_map_iff. exists h. split; auto. apply Hs. auto. }
  assert (Qe : pdet (mv (1 - r) e) (1, z) <> 0).
  { assert (Q := Az (vv s e) ltac:(lra) ltac:(cbn; auto)). intros Q'. apply Q. apply (Rmult_eq_reg_l r); [|lra]. rewrite Rmult_0_r, <- Q'. clear - Z. unfold moving in *. destruct (vv s e), (dd d e). unfold padd, pscale, pdet in *; cbn in *.
    injection Z as Z1 Z2. replace r2 with (- r0) by lra. replace r3 with (- r1) by lra. ring. }
  exists z, r. split; auto. split; [|intros h H N1 N2; now apply R1].
  intros h H. destruct (Nat.eq_dec h e) as [->|N1]; auto. destruct (Nat.eq_dec h (neg e)) as [->|N2]; [|now apply R1].
  rewrite (mv_neg n s d S Sh) by auto. intros Q. apply Qe. destruct (mv (1 - r) e). unfold pneg, pdet in *; cbn in *. lra.
Qed.

Lemma until_late r : 0 < r <= 1 -> positive_until n s d (1 - r).
Proof.
  intros Hr x h X H. pose proof En as (_ & Ev & Fi & Z & Ov & Pe). pose proof Ct as (Pr & _). destruct (at_edge_dec s e h) as [A|A].
  - apply (at_edge_area n s d e S C Sh He Pe h x A). lra.
  - apply Pr; auto; [lra|]. intros V. apply A. unfold vanishes, side_x, side_p, side_c, side_q in V. cbn [In] in V. unfold at_edge, fF.
    destruct V as [<-|[<-|[<-|[<-|[<-|[<-|[]]]]]]]; first [exists e; solve [auto]|exists (neg e); solve [auto]].
Qed.

(** The angles at the ends of the edge add up to one full turn more than the angle at the new vertex; the other angles stay as they are. *)
Theorem collapsed_angles : exists a b rest, angle_at s e a /\ angle_at s (neg e) b /\ Permutation (angle_list s) (Ok a :: Ok b :: rest) /\ Permutation (angle_list u) (Ok (a + b - 1)%nat :: rest).
Proof.
  pose proof En as (_ & Ev & Fi & Z & Ov & Pe). pose proof Ct as (Pr & Su & Cu & label & Cl & Vu). pose proof Cl as (C1 & C2 & C3 & C4).
  assert (Wu : well_formed (n - 6) (fT u)) by apply Su. destruct direction as (z & r & Hr & Nz & Sg).
  assert (Pu := until_late r Hr). set (sT := at_real n s d (1 - r)). assert (ST : flat_surface n sT) by (apply (at_real_flat n s d (1 - r)); auto; lra).
  assert (CT : closed_surface n sT) by exact C. assert (VT : forall h, (h < n)%nat -> vv sT h = mv (1 - r) h) by (intros h H; now apply at_real_vv).
  set (sg := leftof sT z). set (sg' := leftof u z).
  assert (Sn : forall h, (h < n)%nat -> sg (neg h) = negb (sg h)).
  { intros h H. unfold sg, leftof. rewrite !VT by (auto; now apply (neg_ltn n t W)). rewrite (mv_neg n s d S Sh) by auto. assert (Q := Nz h H).
    replace (pdet (pneg (mv (1 - r) h)) (1, z)) with (- pdet (mv (1 - r) h) (1, z)) by (destruct (mv (1 - r) h); unfold pdet, pneg; cbn; ring).
    destruct (Rlt_dec (- pdet (mv (1 - r) h) (1, z)) 0), (Rlt_dec (pdet (mv (1 - r) h) (1, z)) 0); auto; lra. }
  assert (Sg1 : forall h, (h < n)%nat -> h <> e -> h <> neg e -> sg h = if Rlt_dec (pdet (mv 1 h) (1, z)) 0 then true else false).
  { intros h H N1 N2. unfold sg, leftof. rewrite VT by auto. assert (Q := Sg h H N1 N2). destruct (Rlt_dec (pdet (mv (1 - r) h) (1, z)) 0), (Rlt_dec (pdet (mv 1 h) (1, z)) 0); auto; tauto. }
  assert (Ss : forall h, (h < n)%nat -> ~ dropped t e h -> sg' (label h) = sg h).
  { intros h H N. assert (h <> e /\ h <> neg e) as (N1 & N2) by (split; intros ->; apply N; cbn; tauto). rewrite Sg1 by auto. unfold sg', leftof. now rewrite Vu. }
  assert (Sides : side_x t e <> e /\ side_x t e <> neg e /\ neg (side_x t e) <> e /\ neg (side_x t e) <> neg e /\ side_p t e <> e /\ side_p t e <> neg e /\
    side_c t e <> e /\ side_c t e <> neg e /\ neg (side_q t e) <> e /\ neg (side_q t e) <> neg e).
  { pose proof (six t e Fi) as S6. clear - Fi S6. distinct S6. destruct Fi as [N|[(E & N)|(E & N)]]; unfold five_edges in *; distinct N; repeat split; congruence. }
  destruct Sides as (_ & _ & X3 & X4 & X5 & X6 & X7 & X8 & X9 & X10).
  assert (Hx := nF_lt n t W e He). assert (Hp := nF_lt n t W _ Hx). assert (Hc := nF_lt n t W _ Hn). assert (Hq := nF_lt n t W _ Hc).
  assert (Hx' := neg_ltn n t W _ Hx). assert (Hq' := neg_ltn n t W _ Hq).
  destruct (sides_same n s d e S C Sh He Z) as (Mp & Mc).
  assert (Sp : sg (side_p t e) = sg (neg (side_x t e))) by (rewrite !Sg1, Mp; auto). assert (Sc : sg (side_c t e) = sg (neg (side_q t e))) by (rewrite !Sg1, Mc; auto).
  clear X3 X4 X5 X6 X7 X8 X9 X10 Hx Hp Hc Hq Hx' Hq' Mp Mc Sg1 Sg Nz Pr.
  set (kp := kept t e). assert (Kp : forall h, (h < n)%nat -> (kp h < n)%nat /\ ~ dropped t e (kp h)) by (intros h H; now apply (keptish n t e W He Fi)).
  assert (Kl : forall h, (h < n)%nat -> (label (kp h) < n - 6)%nat) by (intros h H; apply C1; now apply Kp).
  assert (Ks : forall h g, (h < n)%nat -> (g < n)%nat -> same_vertex (fT u) (label (kp h)) (label (kp g)) <-> merged t e h g) by (intros h g H G; now apply (kept_same n t (fT u) e label W C He Fi Wu Cu Cl D)).
  (* the angles as numbers of corners *)
  assert (As : forall v, In v (tverts t) -> angle s v = Ok (length (filter (hit t sg) (members n v)))).
  { intros v I. rewrite <- (moved_angle_gen n ExactR s d (1 - r) sT v v S C Sh ltac:(lra) Pu ST); auto. apply (count_angle n sT v z ST CT I). }
  assert (Au : forall w, In w (tverts (fT u)) -> angle u w = Ok (length (filter (hit' (fT u) sg') (members (n - 6) w)))) by (intros w I; exact (count_angle (n - 6) u w z Su Cu I)).
  assert (Cc := fun h0 b w => count_corners n t (fT u) e label W C He Fi Wu Cu Cl D sg sg' Ss Sn Sp Sc h0 b w).
  (* the correspondence of vertices *)
  set (Rv := fun v w => exists h, (h < n)%nat /\ scontains v h = true /\ scontains w (label (kp h)) = true).
  destruct (vertex_of n s e S He) as (vA & IA & CA). destruct (vertex_of n s (neg e) S Hn) as (vB & IB & CB). destruct (vertex_of (n - 6) u _ Su (Kl e He)) as (w0 & I0 & C0).
  assert (Nab : scontains vA (neg e) = false). { destruct (scontains vA (neg e)) eqn:Q; auto. exfalso. apply D. apply (vertex_same n s vA e (neg e) S IA CA) in Q. tauto. }
  assert (AB : vA <> vB) by congruence.
  assert (In_w : forall w h g, In w (tverts (fT u)) -> (h < n)%nat -> (g < n)%nat -> scontains w (label (kp h)) = true -> (scontains w (label (kp g)) = true <-> merged t e h g)).
  { intros w h g I H G Q. rewrite (vertex_same (n - 6) u w _ (label (kp g)) Su I Q), Ks by auto. split; [tauto|]. intros M. auto. }
  assert (End : forall v h, In v (tverts t) -> scontains v h = true -> same_vertex t e h \/ same_vertex t (neg e) h -> v = vA \/ v = vB).
  { intros v h I Q [M|M]; [left|right]; apply (vertex_unique n s _ _ h S); auto; [apply (vertex_same n s vA e h S IA CA)|apply (vertex_same n s vB (neg e) h S IB CB)]; split; auto; split; auto; apply (vertex_lt n s v h S I Q). }
  assert (F1 : forall v, In v (tverts t) -> exists w, In w (tverts (fT u)) /\ Rv v w).
  { intros v I. destruct (vertex_nonempty n s v S I) as (h & H & Q). destruct (vertex_of (n - 6) u _ Su (Kl h H)) as (w & Iw & Qw). exists w. split; auto. exists h. auto. }
  assert (F2 : forall w, In w (tverts (fT u)) -> exists v, In v (tverts t) /\ Rv v w).
  { intros w I. destruct (vertex_nonempty (n - 6) u w Su I) as (i & Hi & Q). destruct (C3 i Hi) as (g & Hg & Ng & <-). destruct (vertex_of n s g S Hg) as (v & Iv & Qv). exists v. split; auto.
    exists g. split; auto. split; auto. unfold kp. now rewrite (kept_id t e g Ng). }
  assert (F3 : forall v w w', In v (tverts t) -> In w (tverts (fT u)) -> In w' (tverts (fT u)) -> Rv v w -> Rv v w' -> w = w').
  { intros v w w' I Iw Iw' (h & H & Q1 & Q2) (g & G & Q3 & Q4). apply (vertex_unique (n - 6) u w w' (label (kp g)) Su Iw Iw'); auto. apply (In_w w h g Iw H G Q2). left. apply (vertex_same n s v h g S I Q1) in Q3. tauto. }
  assert (F4 : forall v v' w, In v (tverts t) -> In v' (tverts t) -> In w (tverts (fT u)) -> Rv v w -> Rv v' w -> v = v' \/ ((v = vA \/ v = vB) /\ (v' = vA \/ v' = vB))).
  { intros v v' w I I' Iw (h & H & Q1 & Q2) (g & G & Q3 & Q4). apply (In_w w h g Iw H G Q2) in Q4. destruct Q4 as [M|(M1 & M2)]; [left|right; split; eauto].
    apply (vertex_unique n s v v' g S); auto. apply (vertex_same n s v h g S I Q1). auto. }
  assert (RA : Rv vA w0) by (exists e; auto).
  assert (RB : Rv vB w0). { exists (neg e). split; auto. split; auto. apply (In_w w0 e (neg e) I0 He Hn C0). right. split; [left|right]; now exists 0%nat. }
  (* the lists *)
  assert (N := vertices_nodup n s S). assert (N' := vertices_nodup (n - 6) u Su).
  destruct (in_split _ _ IA) as (l1 & l2 & E1). assert (P1 : Permutation (tverts t) (vA :: l1 ++ l2)) by (rewrite E1; symmetry; apply Permutation_middle).
  assert (IB' : In vB (l1 ++ l2)). { eapply Permutation_in in IB; [|exact P1]. destruct IB as [Q|]; auto. contradiction. }
  destruct (in_split _ _ IB') as (l3 & l4 & E2). assert (P2 : Permutation (tverts t) (vA :: vB :: l3 ++ l4)) by (rewrite P1, E2; apply perm_skip; symmetry; apply Permutation_middle).
  destruct (in_split _ _ I0) as (l5 & l6 & E3). assert (P3 : Permutation (tverts (fT u)) (w0 :: l5 ++ l6)) by (rewrite E3; symmetry; apply Permutation_middle).
  clear l1 l2 E1 P1 IB' E2 E3. set (rv := l3 ++ l4) in *. set (rw := l5 ++ l6) in *. clearbody rv rw.
  assert (Nv := Permutation_NoDup P2 N). assert (Nw := Permutation_NoDup P3 N'). inversion Nv as [|? ? NvA Nv']; subst. inversion Nv' as [|? ? NvB Nrv]; subst. inversion Nw as [|? ? Nw0 Nrw]; subst.
  assert (Iv : forall v, In v rv <-> In v (tverts t) /\ v <> vA /\ v <> vB).
  { intros v. split.
    - intros I. split; [eapply Permutation_in; [symmetry; exact P2|]; cbn; auto|]. split; intros ->; [apply NvA; cbn; auto|now apply NvB].
    - intros (I & Q1 & Q2). eapply Permutation_in in I; [|exact P2]. destruct I as [I|[I|I]]; congruence || auto. }
  assert (Iw : forall w, In w rw <-> In w (tverts (fT u)) /\ w <> w0).
  { intros w. split.
    - intros I. split; [eapply Permutation_in; [symmetry; exact P3|]; cbn; auto|]. intros ->. now apply Nw0.
    - intros (I & Q1). eapply Permutation_in in I; [|exact P3]. destruct I as [I|I]; congruence || auto. }
  exists (length (filter (hit t sg) (members n vA))), (length (filter (hit t sg) (members n vB))), (map (angle s) rv).
  split; [exists vA; auto|]. split; [exists vB; auto|]. split; [unfold angle_list; rewrite (Permutation_map (angle s) P2); cbn [map]; now rewrite !As by auto|].
  unfold angle_list. rewrite (Permutation_map (angle u) P3). cbn [map].
  assert (E0 : angle u w0 = Ok (length (filter (hit t sg) (members n vA)) + length (filter (hit t sg) (members n vB)) - 1)%nat).
  { rewrite Au by auto. f_equal. set (b := fun h => scontains vA h || scontains vB h).
    assert (Q := Cc e b (scontains w0) He). replace (b e) with true in Q by (unfold b; now rewrite CA).
    fold (members (n - 6) w0) in Q. rewrite CollapseCount.filter_filter, (CollapseCount.filter_split _ (scontains vA)) in Q.
    assert (Q1 : forall h, b h && hit t sg h && scontains vA h = scontains vA h && hit t sg h) by (intros h; unfold b; destruct (scontains vA h), (scontains vB h), (hit t sg h); auto).
    assert (Q2 : forall h, b h && hit t sg h && negb (scontains vA h) = scontains vB h && hit t sg h).
    { intros h. unfold b. destruct (scontains vA h) eqn:Q1', (scontains vB h) eqn:Q2', (hit t sg h); auto. exfalso. apply AB. now apply (vertex_unique n s vA vB h S). }
    rewrite (filter_ext _ _ Q1), (filter_ext _ _ Q2), <- !CollapseCount.filter_filter in Q. unfold members. rewrite Q; [unfold members; lia| |].
    - intros h H. unfold b. rewrite orb_true_iff, (vertex_same n s vA e h S IA CA), (vertex_same n s vB (neg e) h S IB CB). split.
      + intros [Y|Y]; [left; tauto|right]. split; [left; now exists 0%nat|right; tauto].
      + intros [Y|(_ & [Y|Y])]; [left|left|right]; auto.
    - intros i Hi. rewrite (vertex_same (n - 6) u w0 _ i Su I0 C0). split; [tauto|]. intros M. split; auto. }
  rewrite E0. apply perm_skip. symmetry. apply (related_perm Rv); auto.
  - intros v I. apply Iv in I as (I & Q1 & Q2). destruct (F1 v I) as (w & Jw & Rw). exists w. split; auto. apply Iw. split; auto. intros ->. destruct (F4 v vA w0 I IA I0 Rw RA) as [Q|([Q|Q] & _)]; auto.
  - intros w I. apply Iw in I as (I & Q). destruct (F2 w I) as (v & Jv & Rw). exists v. split; auto. apply Iv. split; auto. split; intros ->; apply Q; [apply (F3 vA)|apply (F3 vB)]; auto.
  - intros v w w' I J J'. apply Iv in I. apply Iw in J, J'. apply F3; tauto.
  - intros v v' w I I' J R1 R2. apply Iv in I as (I & Q1 & Q2). apply Iv in I' as (I' & Q3 & Q4). apply Iw in J as (J & _). destruct (F4 v v' w I I' J R1 R2) as [Q|([Q|Q] & _)]; auto; contradiction.
  - intros v w I J (h & H & Qv & Qw). apply Iv in I as (I & Q1 & Q2). apply Iw in J as (J & _). rewrite As, Au by auto. f_equal. unfold members. rewrite (Cc h (scontains v) (scontains w) H).
    + replace (scontains v e) with false; [lia|]. destruct (scontains v e) eqn:Q; auto. exfalso. apply Q1. now apply (vertex_unique n s v vA e S).
    + intros g G. rewrite (vertex_same n s v h g S I Qv). split; [left; tauto|]. intros [M|(M & _)]; auto. exfalso. destruct (End v h I Qv M); auto.
    + intros i Hi. rewrite (vertex_same (n - 6) u w _ i Su J Qw). split; [tauto|]. intros M. split; auto.
Qed.
End collapse.
