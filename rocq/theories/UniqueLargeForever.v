(** * Tori with a vertical edge, for which there is no end to the flips; lines whose positions are integers *)
From Coq Require Import ZArith Reals List Arith Bool Lia Lra Psatz.
From Verif Require Import Base HalfEdge HalfEdgeFacts Perm PermSpec PermFacts Combinatorial CombinatorialSpec CombinatorialFacts CombinatorialHistory ExactReal Vector PlaneSpec Plane VectorFacts
  CombinatorialOps FlatTri FlatSpec ChainSpec FlatFacts FlatSum FlatOps FlatAngle DeformSpec Tracked Vertical VerticalSpec VerticalFacts VerticalComponents Lengths IntervalExchange IntervalExchangeSpec
  IntervalExchangeFacts IntervalExchangeFlow IntervalExchangeLarge IntervalExchangeMade UniqueLarge UniqueLargeSpec UniqueLargeFlip UniqueLargeFlow UniqueLargeFacts UniqueLargeAll.
Import ListNotations.
Local Open Scope nat_scope.

Section forever.
Context {K : ExactReal}.
Variables (v : vec K) (visits : nat).
Hypothesis Nv : vden v <> (0, 0)%R.
Hypothesis Hk : 6 < visits.
Implicit Types s : flat K.
Notation w := (vden v).

(** Two triangles with the same edges, one of them vertical. *)
Definition parallelogram s := closed_flat 6 s /\ (forall x, x < 6 -> fF s (neg x) = neg (fF s x)) /\ exists z, z < 6 /\ rightwards s w z = 0%R.

Lemma two_wide s u : parallelogram s -> wide s w u -> u < 6 -> exists e, joined 6 s w u e /\ wide s w e /\ e <> u /\ e <> neg u.
Proof.
  intros (CS & FN & z & Hz & Rz) Wu Hu. set (a := fF s z). set (b := fF s a). assert (Ha : a < 6) by now apply (F_lt 6 s CS). assert (Hb : b < 6) by now apply (F_lt 6 s CS). assert (Fb : fF s b = z) by now apply (F3 6 s CS z).
  assert (Nu := wide_nonzero 6 s v CS u Nv Hu Wu). assert (Z := R_sum 6 s w CS z Hz). fold a b in Z.
  assert (Na : rightwards s w a <> 0%R) by (intros Q; exact (two_vertical 6 s w CS Nv z Hz Rz Q)). assert (Nb : rightwards s w b <> 0%R) by lra.
  assert (Hn : forall x, x < 6 -> neg x < 6) by (intros; now apply (N_lt 6 s CS)).
  assert (Ab : Rabs (rightwards s w b) = Rabs (rightwards s w a)) by (replace (rightwards s w b) with (- rightwards s w a)%R by lra; apply Rabs_Ropp).
  assert (An : forall x, x < 6 -> Rabs (rightwards s w (neg x)) = Rabs (rightwards s w x)) by (intros x Hx; rewrite (R_neg 6 s w CS) by auto; apply Rabs_Ropp).
  assert (P := Rabs_pos (rightwards s w a)).
  assert (F0 : fF s (neg z) = neg a) by now apply FN. assert (F1 : fF s (neg a) = neg b) by now apply FN. assert (F2 : fF s (neg b) = neg z) by (rewrite FN, Fb by auto; reflexivity).
  assert (Wa : wide s w a) by (intros x; fold b; rewrite Fb, F1, F2; cbn [In]; intros [<-|[<-|[<-|[<-|[]]]]]; rewrite ?An, ?Rz, ?Rabs_R0 by auto; lra).
  assert (Wb : wide s w b) by (intros x; rewrite Fb, F2, F0; fold a; cbn [In]; intros [<-|[<-|[<-|[<-|[]]]]]; rewrite ?An, ?Rz, ?Rabs_R0 by auto; lra).
  assert (Jab : joined 6 s w a b) by now apply jo_face. assert (Jn : forall x, x < 6 -> rightwards s w x <> 0%R -> joined 6 s w x (neg x)) by (intros; now apply jo_across).
  destruct (F_neq 6 s w CS z Hz) as (D1 & D2 & D3). fold a b in D1, D2, D3.
  assert (Dn : forall x, x < 6 -> neg x <> x) by (intros x _; unfold neg; intros E; assert (Q := Nat.lxor_nilpotent x); rewrite <- E in Q at 2; rewrite <- Nat.lxor_assoc, Nat.lxor_nilpotent in Q; discriminate).
  (* the edges of the triangle are different *)
  assert (E1 : a <> neg z). { intros E. assert (Q := R_neg 6 s w CS z Hz). rewrite <- E in Q. lra. }
  assert (E2 : b <> neg z). { intros E. assert (Q := R_neg 6 s w CS z Hz). rewrite <- E in Q. lra. }
  assert (E3 : b <> neg a). { intros E. assert (Q := FN a Ha). fold b in Q. rewrite <- E, Fb, E, neg_neg in Q. congruence. }
  assert (Al : u = a \/ u = neg a \/ u = b \/ u = neg b).
  { assert (ND : NoDup [z; neg z; a; neg a; b; neg b]).
    { assert (NI : forall x y, neg x = y -> x = neg y) by (intros x y <-; now rewrite neg_neg). assert (Dz := Dn z Hz). assert (Da := Dn a Ha). assert (Db := Dn b Hb).
      assert (I1 : neg z <> neg a) by (intros Q; apply neg_inj in Q; congruence). assert (I2 : neg z <> neg b) by (intros Q; apply neg_inj in Q; congruence). assert (I3 : neg a <> neg b) by (intros Q; apply neg_inj in Q; congruence).
      assert (I4 : z <> neg a) by (intros Q; symmetry in Q; apply NI in Q; congruence). assert (I5 : z <> neg b) by (intros Q; symmetry in Q; apply NI in Q; congruence). assert (I6 : a <> neg b) by (intros Q; symmetry in Q; apply NI in Q; congruence).
      clear - D1 D2 D3 E1 E2 E3 Dz Da Db I1 I2 I3 I4 I5 I6. repeat constructor; cbn [In]; intuition congruence. }
    assert (IN : In u [z; neg z; a; neg a; b; neg b]).
    { assert (IC : incl (seq 0 6) [z; neg z; a; neg a; b; neg b]); [|apply IC, in_seq; lia]. apply NoDup_length_incl; auto.
      intros x X. apply in_seq. cbn [In] in X. assert (x < 6) by (destruct X as [<-|[<-|[<-|[<-|[<-|[<-|[]]]]]]]; auto). lia. }
    cbn [In] in IN. destruct IN as [<-|[<-|[<-|[<-|[<-|[<-|[]]]]]]]; auto; exfalso; rewrite ?(R_neg 6 s w CS), ?Rz in Nu by auto; lra. }
  destruct Al as [->|[->|[->| ->]]].
  - exists b. auto. - exists b. split; [apply jo_trans with a; auto; now apply jo_sym, Jn|]. split; auto. split; auto. now rewrite neg_neg.
  - exists a. split; [now apply jo_sym|]. split; auto. split; auto. intros Q. apply E3. now rewrite Q, neg_neg.
  - exists a. split; [apply jo_trans with b; [now apply jo_sym, Jn|now apply jo_sym]|]. split; auto. rewrite neg_neg. split; auto. intros Q. apply E3. now rewrite Q, neg_neg.
Qed.
Lemma parallelogram_flip s e : parallelogram s -> e < 6 -> can_flip 6 s e.
Proof.
  intros (CS & FN & _) He. split; auto. assert (Hn := N_lt 6 s CS e He). split; [now apply (proj2 CS)|]. split; [now apply (proj2 CS)|]. cbv zeta. assert (H1 := F_lt 6 s CS e He). assert (H2 := F_lt 6 s CS _ H1).
  rewrite !FN by auto. rewrite !(fs_odd 6 s (proj1 CS)) by auto. destruct (D_pos 6 s w CS e He) as (_ & D & _). clear - D. unfold pdet, pneg in *. cbn [fst snd] in *. lra.
Qed.
Lemma parallelogram_after s s' e : parallelogram s -> e < 6 -> wide s w e -> fflip s e = (s', Ok tt) -> parallelogram s'.
Proof.
  intros (CS & FN & z & Hz & Rz) He We E. destruct (flip_quad 6 s s' w CS e He E) as (a & b & c & d & Q). assert (Ne := wide_nonzero 6 s v CS e Nv He We). split; [|split].
  - apply (flip_closed 6 s s' w CS e a b c d Q). now destruct (fflip_spec 6 s e s' (proj1 CS) He E) as (_ & S' & _).
  - assert (Ec : c = neg a) by (rewrite <- (q4 _ _ _ _ _ _ _ _ _ Q), <- (q1 _ _ _ _ _ _ _ _ _ Q); now apply FN).
    assert (Ed : d = neg b) by (rewrite <- (q5 _ _ _ _ _ _ _ _ _ Q), <- (q2 _ _ _ _ _ _ _ _ _ Q), Ec; apply FN, (qa _ _ _ _ _ _ _ _ _ Q)).
    intros x Hx. assert (Hn := N_lt 6 s CS x Hx). destruct (in_dec Nat.eq_dec x [e; a; b; neg e; c; d]) as [I|I].
    + assert (P1 := p1 _ _ _ _ _ _ _ _ _ Q). assert (P2 := p2 _ _ _ _ _ _ _ _ _ Q). assert (P3 := p3 _ _ _ _ _ _ _ _ _ Q). assert (P4 := p4 _ _ _ _ _ _ _ _ _ Q). assert (P5 := p5 _ _ _ _ _ _ _ _ _ Q). assert (P6 := p6 _ _ _ _ _ _ _ _ _ Q). cbn [In] in I. subst c d. clear - I P1 P2 P3 P4 P5 P6. destruct I as [<-|[<-|[<-|[<-|[<-|[<-|[]]]]]]]; rewrite ?neg_neg, ?P1, ?P2, ?P3, ?P4, ?P5, ?P6, ?neg_neg; auto.
    + rewrite !(qo _ _ _ _ _ _ _ _ _ Q); auto. intros J. apply I. clear - J Ec Ed. subst c d. cbn [In] in *.
      assert (NI : forall y, y = neg x -> neg y = x) by (intros y ->; apply neg_neg). destruct J as [J|[J|[J|[J|[J|[J|[]]]]]]]; apply NI in J; rewrite ?neg_neg in J; auto 8.
  - exists z. split; auto. unfold rightwards in *. rewrite (qr _ _ _ _ _ _ _ _ _ Q); auto; intros ->; [contradiction|]. apply Ne. assert (X := R_neg 6 s w CS e He). unfold rightwards in X. unfold rightwards. lra.
Qed.
Lemma loop_forever u : u < 6 -> forall fuel s m, parallelogram s -> valid 6 s v m -> wide s w u -> make_unique_loop fuel visits m u = OutOfFuel.
Proof.
  intros Hu. induction fuel as [|fuel IH]; intros s m P I Wu; [reflexivity|]. cbn [make_unique_loop]. assert (CS := proj1 P). assert (Ru := wide_nonzero 6 s v CS u Nv Hu Wu).
  destruct (visit_from 6 s v u (proj1 CS) Hu Ru visits m I Hk) as (o & C & m1 & -> & I1 & Q). cbn [bind]. destruct o as [e|].
  - destruct Q as (J & We & N1 & N2 & He). destruct (flip_ok 6 s v m1 e I1 He) as [Y _]. destruct (Y (parallelogram_flip s e P He)) as (s1 & m2 & Ef & -> & I2). cbn [bind].
    destruct (one_flip 6 v u Nv Hu s s1 e CS Wu J We N1 N2 Ef) as (_ & Wu1 & _). rewrite (IH s1 m2); auto. apply (parallelogram_after s s1 e); auto.
  - destruct Q as (_ & _ & Q). destruct (two_wide s u P Wu Hu) as (e & J & We & N1 & N2). exfalso. destruct (Q e J We); auto.
Qed.
Lemma edge_forever s u fuel : parallelogram s -> u < 6 -> wide s w u -> make_unique_large_edge fuel visits s v u = OutOfFuel.
Proof.
  intros P Hu Wu. assert (CS := proj1 P). unfold make_unique_large_edge. destruct (make_valid 6 s v (proj1 CS) Nv) as (m & -> & I). cbn [bind]. destruct (ccw_ok 6 s v m I u Hu) as (c & m1 & -> & _ & I1). cbn [bind].
  assert (Hn := N_lt 6 s CS u Hu). destruct (ccw_eqb c COUNTERCLOCKWISE).
  - rewrite (loop_forever (neg u) Hn fuel s m1 P I1); auto. now apply (wide_neg 6 s w u (proj1 CS) Hu).
  - now rewrite (loop_forever u Hu fuel s m1 P I1).
Qed.
Lemma edges_forever s tie fuel flips : (forall l, l <> [] -> In (tie l) l) -> parallelogram s -> make_unique_large_edges fuel flips visits tie s v = OutOfFuel.
Proof.
  intros Tie P. assert (CS := proj1 P). unfold make_unique_large_edges. destruct (make_valid 6 s v (proj1 CS) Nv) as (m & -> & I). cbn [bind]. destruct fuel as [|fuel]; [reflexivity|]. cbn [make_unique_loops]. rewrite (vd_surface _ _ _ _ I).
  assert (Hh : forall y, In y (half_edges (fT s)) <-> y < 6) by (intros y; unfold half_edges; rewrite in_seq, (wf_size _ _ (fs_wf 6 s (proj1 CS))); lia).
  destruct (larges_ok 6 v Nv s [] CS (half_edges (fT s)) m I (fun h Q => proj1 (Hh h) Q)) as (c & m1 & -> & I1 & B). cbn [bind].
  destruct (absolutes_ok 6 v s c m1 I1) as (a & m2 & -> & I2 & Ma & _); [intros h Q; apply Hh; now apply B in Q|]. cbn [bind]. destruct c as [|c0 c].
  - exfalso. destruct (wide_exists 6 v 7 Nv ltac:(lia) s 0 CS ltac:(lia)) as (h & J & Wh). assert (Hh0 := proj2 (joined_lt 6 s w CS _ _ J)). assert (Nh := wide_nonzero 6 s v CS h Nv Hh0 Wh). destruct (Rlt_dec 0 (rightwards s w h)) as [Ph|Ph].
    + apply (proj2 (B h)). split; [now apply Hh|]. auto.
    + apply (proj2 (B (neg h))). assert (Hn := N_lt 6 s CS h Hh0). split; [now apply Hh|]. split; auto. split; [now apply (wide_neg 6 s w h (proj1 CS) Hh0)|]. rewrite (R_neg 6 s w CS) by auto. lra.
  - assert (Na : a <> []) by (intros ->; discriminate). set (u := tie (longest_of a)) in *. assert (Iu : In u (c0 :: c)) by (rewrite <- Ma; apply longest_in, Tie; now apply longest_nonempty).
    apply B in Iu as (Hu & _ & Wu & _). apply Hh in Hu. rewrite (vd_surface _ _ _ _ I2), (vd_vertical _ _ _ _ I2). now rewrite (edge_forever s u flips P Hu Wu).
Qed.
End forever.
