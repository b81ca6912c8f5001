(** * C76: the half edges that a saddle connection crosses *)
From Coq Require Import ZArith QArith Reals List Arith Bool Lia Lra.
From Verif Require Import Base HalfEdge HalfEdgeFacts Perm PermSpec PermFacts PermCycles PermLemmas IndexedSet IndexedSetSpec IndexedSetFacts Combinatorial CombinatorialSpec CombinatorialFacts
  CombinatorialHistory CombinatorialOps CombinatorialProps ExactReal Vector PlaneSpec Plane VectorFacts VectorProps FlatTri FlatSpec FlatFacts FlatSum FlatAngle FlatLinear FlatSector FlatProps FlatAngleProps
  Chain ChainSpec Saddle SaddleSpec SaddleFacts SaddleTurn SaddleProps Quadratic Search SearchSpec SearchMoves SearchPlane SearchAll SearchProps SectorSpec SectorFacts SectorProps
  Translate TranslateSpec TranslateRun TranslateFacts TranslateMove Intersection IntersectionProps Connect ConnectProps Crossings CrossingsSpec CrossingsFacts.
Import ListNotations.
Local Open Scope R_scope.

(** The half edges that are reported are the ones that the saddle connection crosses, in that order. *)
Theorem C76_path : forall (K : ExactReal) n (x : sconn K), sc_valid n x -> closed_surface n (sc_surface x) ->
  connection (sc_surface x) (sc_source x) (sv n x) (sc_target x) ->
  exists l r N, crossed (sc_surface x) (sc_source x) (sv n x) l /\ Forall2 (shows (sc_surface x) (sv n x)) r l /\
    forall fuel, (N <= fuel)%nat -> sc_path fuel x = Ok r /\ sc_crossings fuel x = Ok (map snd l).
Proof.
  intros K n x X Cl C. pose proof X as (S0 & Hs & _). set (s := sc_surface x) in *. set (h := sc_source x) in *. set (cs := cn_sector_at (make_conns s) h).
  assert (G : exists l r N, crossed s h (sv n x) l /\ Forall2 (shows s (sv n x)) r l /\ forall fuel, (N <= fuel)%nat -> sc_path fuel x = Ok r).
  { destruct (search_begins n s S0 Cl h Hs) as (m & c0 & c1 & Em & L0 & L1 & D0 & D1 & Op & Nd & Ed & Es). fold cs in Em, Op, Ed, Es.
    destruct (zc_half_edge_Ok n s S0 h Hs) as (c & Ec & Lc & Dc). assert (Hn : (neg h < n)%nat) by now apply (neg_ltn n (fT s) (fs_wf n s S0)).
    set (y := mkSconn s h (neg h) c). assert (Y : sc_valid n y) by (split; auto).
    assert (Ey : sdereference cs m = Ok y) by (rewrite Ed; unfold sc_half_edge; rewrite Ec; reflexivity).
    destruct (sc_eqb_spec n n y x Y X) as (b & Eb & B). assert (Ref : flat_eqb (sc_surface y) (sc_surface x) = Ok true). { change (flat_eqb s s = Ok true). destruct (flat_eqb_spec n n s s S0 S0) as (b' & -> & B'). f_equal. apply B'. auto. }
    assert (Begin : forall k, sc_path (S k) x = reconstruct cs x (S k) m []) by (intros k; unfold sc_path; fold s h cs; rewrite Em; reflexivity).
    destruct C as (Nb & [[Ev Eg]|H]).
    - exists [], [], 1%nat. split; [left; auto|]. split; [constructor|]. intros [|k] Lk; [lia|]. rewrite Begin. cbn [reconstruct]. rewrite Ey. cbn [bind]. rewrite Eb. cbn [bind].
      assert (b = true) as ->; [|reflexivity]. apply B. split; auto. split; auto. rewrite Ev. exact Dc.
    - pose proof (hits_crosses s _ _ _ _ H) as Cx. pose proof Cx as [X1 X2]. assert (Hf : (fF s h < n)%nat) by now apply (fF_lt n).
      destruct (rest_hits n cs S0 Cl eq_refl (mkSsector h None) [] x eq_refl X eq_refl (vv s h) (fF s h) (sv n x) (sc_target x) H eq_refl m c0 c1 Hf L0 L1 Op Nd) as (l & T & R).
      + change (0 < pdet (cvector n s c0) (sv n x)). rewrite D0. exact X1.
      + change (0 < pdet (sv n x) (cvector n s c1)). rewrite D1. now rewrite <- (across_corner n s S0 Cl h Hs).
      + destruct (R []) as (l1 & m' & r & [N HN] & [N' HN'] & F). exists ((vv s h, fF s h) :: l), r, (S (N + N')). split; [right; eauto|]. split; [exact F|]. intros [|k] Lk; [lia|]. rewrite Begin. cbn [reconstruct]. rewrite Ey. cbn [bind]. rewrite Eb. cbn [bind].
        destruct b. { exfalso. destruct (proj1 B eq_refl) as (_ & E & _). change (sv n y) with (cvector n s c) in E. rewrite Dc in E. rewrite <- E in X1. unfold pdet in X1. lra. }
        destruct (sc_vector_Ok n y Y) as (w & Ew & Dw). destruct (sc_vector_Ok n x X) as (w' & Ew' & Dw'). rewrite Ew, Ew'. cbn [bind]. change (sv n y) with (cvector n s c) in Dw. rewrite Dc in Dw.
        pose proof (ccw_cases w w') as Q. rewrite Dw, Dw' in Q. destruct (ccw w w'); try (exfalso; lra). cbn [ccw_neg]. rewrite Es. cbn [bind]. rewrite HN by lia. cbn [bind]. apply HN'. lia. }
  destruct G as (l & r & N & Cr & F & H). exists l, r, N. split; auto. split; auto. intros fuel L. split; [auto|]. unfold sc_crossings. rewrite H by auto. cbn [bind]. f_equal.
  clear H Cr. induction F as [|i q r l Q F IH]; auto. cbn [map]. f_equal; auto. apply Q.
Qed.
Print Assumptions C76_path.

(** They are met one after the other: each at an inner point of the half edge. *)
Theorem C76_order : forall (K : ExactReal) n (s : flat K) h v l r, flat_surface n s -> closed_surface n s -> (h < n)%nat ->
  crossed s h v l -> Forall2 (shows s v) r l ->
  exists ms, Forall2 (meets_at s) r ms /\ increasing (map snd ms) /\
    forall i m, In (i, m) (combine r ms) -> exists a b, relative i = Ok (a, b) /\ den b <> 0 /\ den a / den b = fst m.
Proof.
  intros K n s h v l r S0 Cl Hh C F.
  assert (G : exists ms, Forall2 (meets_at s) r ms /\ increasing (map snd ms) /\ forall i, In i r -> isurface i = s /\ (ihalf_edge i < n)%nat).
  { destruct C as [[_ ->]|(l' & -> & Cx & T)].
    - inversion_clear F. exists []. split; [constructor|]. split; [exact I|]. intros i [].
    - assert (Hf : (fF s h < n)%nat) by now apply (fF_lt n). assert (D : 0 < pdet (vv s h) (vv s (fF s h))) by now apply (fs_flat n s S0 h Hh (Cl h Hh)).
      destruct (times n s S0 Cl _ _ _ _ T Hf Cx D) as (t & q & ms & Ht & Hq & E & Em & M & Inc).
      assert (Lt := through_lt n s S0 _ _ _ _ T Hf).
      inversion_clear F as [|i0 z r' l2 G0 F']. destruct G0 as (G1 & G2 & G3 & G4). cbn [fst snd] in *. exists ((t, q) :: ms). split; [|split; [exact Inc|]].
      + constructor; [|now apply M]. unfold meets_at. rewrite G2, G3, G4. repeat (split; [assumption || (cbn; lra)|]). cbn [fst snd]. rewrite <- Em. unfold padd, pneg, pscale; cbn [fst snd]; apply pt_eq; cbn [fst snd]; ring.
      + intros i [<-|I]; [rewrite G2; auto|]. clear - F' I Lt. induction F' as [|j z r' l' (Q1 & Q2 & _) F IH]; [destruct I|]. destruct I as [<-|I]; [rewrite Q2; split; auto; apply Lt; now left|]. apply IH; auto. intros; apply Lt; now right. }
  destruct G as (ms & M & Inc & V). exists ms. split; auto. split; auto. clear - M V S0. induction M as [|i m r ms Q M IH]; intros j mj I; [destruct I|]. destruct I as [E|I].
  - injection E as <- <-. destruct (V i (or_introl eq_refl)) as [V1 V2]. destruct Q as (Q1 & Q2 & Q3 & Q4). apply (C52_relative K n). rewrite <- V1 in Q3, Q4, S0. split; auto. split; auto. split; auto. split; [rewrite pdet_swap; lra|]. now exists (snd m).
  - apply IH; auto. intros; apply V; now right.
Qed.
Print Assumptions C76_order.

(** There is only one sequence of half edges that is crossed. *)
Theorem C76_unique : forall (K : ExactReal) (s : flat K) h v l l', crossed s h v l -> crossed s h v l' -> l = l'.
Proof.
  intros K s h v l l' C C'. destruct C as [[E ->]|(m & -> & X & T)], C' as [[E' ->]|(m' & -> & X' & T')]; auto.
  - exfalso. subst v. destruct X' as [X' _]. unfold pdet in X'. lra.
  - exfalso. subst v. destruct X as [X _]. unfold pdet in X. lra.
  - f_equal. now apply (through_unique s (vv s h) (fF s h) v).
Qed.
Print Assumptions C76_unique.

Definition long_connection : sconn ExactZ := mkSconn flip_s 3 2 [0; -2; -3]%Z.
Definition shown (i : intersection ExactZ) : nat * Z * Z * outcome (Z * Z) := (ihalf_edge i, vx (ibase i), vy (ibase i), relative i).
(** The saddle connection (3, 1) on a torus. *)
Example C76_ex : sc_valid 6 long_connection /\ closed_surface 6 flip_s /\ connection flip_s 3 (sv 6 long_connection) 2 /\
  (do p <- sc_path 200 long_connection; Ok (map shown p)) = Ok
    [(0%nat, 0, 1, Ok (3, 5)); (2%nat, -1, 0, Ok (1, 3)); (0%nat, -1, 0, Ok (1, 5)); (5%nat, -1, 0, Ok (1, 2));
     (0%nat, -1, 1, Ok (4, 5)); (2%nat, -2, 0, Ok (2, 3)); (0%nat, -2, 0, Ok (2, 5))]%Z /\
  sc_crossings 200 long_connection = Ok [0; 2; 0; 5; 0; 2; 0]%nat /\
  sc_crossings 200 (mkSconn flip_s 3 2 [0; -2; -5]%Z) = Ok [0; 2; 0; 2; 0; 5; 0; 2; 0; 2; 0]%nat /\
  sc_crossings 200 (mkSconn flip_s 0 1 [1; 0; 0]%Z) = Ok [].
Proof.
  destruct flip_flat as (S & C). assert (X : sc_valid 6 long_connection) by (split; [exact S|]; cbn; repeat split; auto; lia). split; auto. split; auto.
  split; [rewrite (computed_vector 6 _ (zv 3 1) X) by (vm_compute; reflexivity); exact flip_connection|]. repeat split; vm_compute; reflexivity.
Qed.
