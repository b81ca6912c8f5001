(** * C73: directions in retriangulations *)
From Coq Require Import ZArith Reals List Arith Bool Lia Lra.
From Verif Require Import Base HalfEdge HalfEdgeFacts Perm PermSpec PermFacts PermCycles PermLemmas IndexedSet IndexedSetSpec IndexedSetFacts Combinatorial CombinatorialSpec CombinatorialFacts
  CombinatorialHistory CombinatorialOps CombinatorialProps ExactReal Vector PlaneSpec Plane VectorFacts VectorProps FlatTri FlatSpec FlatFacts FlatSum FlatAngle FlatLinear FlatSector FlatProps FlatAngleProps
  Chain ChainSpec Saddle SaddleSpec SaddleFacts SaddleTurn SaddleProps Retriangulate RetriangulateFacts.
Import ListNotations.
Local Open Scope nat_scope.

(** A half edge at the same angle. *)
Lemma source_at : forall (K : ExactReal) n m (x y : sconn K) g (v : vec K) a fuel vertex vertex' total, sc_valid n x -> sc_valid m y -> g < n ->
  inner_at (sc_surface x) (sc_source x) -> inner_at (sc_surface y) (sc_source y) ->
  sector_contains (sc_surface x) (sc_source x) (sv n x) -> sector_contains (sc_surface y) (sc_source y) (sv m y) -> sector_contains (sc_surface x) g (vden v) ->
  same_direction (sv n x) (sv m y) -> total_turn n (sc_surface x) (sc_source x) (sv n x) g (vden v) a ->
  vertex_source (fT (sc_surface x)) (sc_source x) = Ok vertex -> angle (sc_surface x) vertex = Ok total ->
  vertex_source (fT (sc_surface y)) (sc_source y) = Ok vertex' -> angle (sc_surface y) vertex' = Ok total -> m + 1 < fuel ->
  exists g', gr_source fuel (Some (x, y)) g v = Ok (Some g') /\ g' < m /\ sector_contains (sc_surface y) g' (vden v) /\
    total_turn m (sc_surface y) (sc_source y) (sv m y) g' (vden v) a.
Proof.
  intros K n m x y g v a fuel vertex vertex' total X Y Hg In In' Cx Cy Cg Sd T Ev Et Ev' Et' F. pose proof PI_RGT_0 as Pi.
  destruct (C55_angle K n x g v a X Hg In Cx Cg T) as (k & Ek & Bk). unfold gr_source. rewrite Ek. cbn [bind].
  destruct (sc_vector_Ok m y Y) as (w & Ew & Dw). rewrite Ew. cbn [bind].
  destruct (C55_ccw K n x g v a vertex total X Hg In Cx Cg T Ev Et) as (La & _).
  destruct T as (al & ou & ov & j & p & Co & Tu & Tv & Jg & Per & Ea & B).
  assert (At : at_angle (sv n x) (vden v) a).
  { rewrite Ea. replace (turned (sc_surface x) al (sc_source x) j + ov - ou)%R with (- ou + (turned (sc_surface x) al (sc_source x) j + ov))%R by lra.
    eapply at_angle_trans; [apply at_angle_back, Tu|]. eapply at_angle_trans; [apply (turned_angle _ _ al Co j)|]. rewrite Jg. apply Tv. }
  set (s := sc_surface y) in *. set (h := sc_source y) in *. pose proof Y as (S & Hh & _). fold s in S. fold h in Hh.
  destruct (all_corners_exist m s S) as (be & Al).
  assert (Cs : forall i, turn (vv s (Nat.iter i (fV s) h)) (vv s (Nat.iter (Datatypes.S i) (fV s) h)) (be (Nat.iter i (fV s) h))) by (intros i; apply Al; [now apply it_lt|now apply it_inner]).
  destruct (exists_period m _ _ h (bijV m s S) Hh) as (q & _ & Pq).
  destruct (vertex_source_Ok m (fT s) h (fs_wf m s S) Hh) as (z & Ez & Iz & Cz). assert (z = vertex') by congruence. subst z.
  destruct (turned_total m s S h vertex' be q total Hh In' Iz) as (Tt & Lt); auto; [apply Cz; split; auto; exists 0; auto|].
  assert (Qm : q <= m).
  { pose proof (orbit_list_NoDup m _ _ h q (bijV m s S) Hh Pq) as ND. rewrite <- (orbit_list_length (fV s) h q), <- (seq_length m 0).
    apply NoDup_incl_length; auto. intros z0 J. apply orbit_list_In in J as (i & _ & <-). apply in_seq. split; [lia|]. apply (it_lt m s S h Hh). }
  assert (Nx : sv n x <> (0, 0)%R). { eapply turn_nonzero; [|apply Tu]. apply (it_nz n (sc_surface x) (proj1 X) (sc_source x) (proj1 (proj2 X)) In 0). }
  destruct Sd as (r & Hr & Er).
  assert (Ny : sv m y <> (0, 0)%R) by (rewrite Er; destruct (sv n x) as [x1 x2]; unfold pscale; cbn [fst snd]; intros [= Q1 Q2]; apply Nx; f_equal; nra).
  assert (Ty : exists o, turn (vv s h) (sv m y) o) by (apply turn_exists; [apply (it_nz m s S h Hh In' 0)|exact Ny]). destruct Ty as (o & Ty).
  assert (Oy : (o < be h)%R) by (apply (sector_offset m s S h (sv m y) o (be h)); auto; [apply (In' h); exists 0; auto|apply (Cs 0)]).
  assert (Ly : (1 <= INR total)%R) by (change 1%R with (INR 1); apply le_INR; lia).
  assert (Ayx : at_angle (sv m y) (sv n x) 0).
  { replace 0%R with (- 0)%R by lra. apply at_angle_back. exists r. split; auto. now rewrite protate_0. }
  assert (T1 : turned s be h 1 = be h) by (rewrite turned_S; cbn; lra).
  destruct (transfer m s S h Hh In' be Cs q Pq) with (u := w) (v := v) (fuel := fuel) (k := k) (x := o) (a := a) as (i & E & Bi).
  - rewrite Tt. nra.
  - rewrite Dw. apply Ty.
  - rewrite Dw. exact Ny.
  - rewrite T1. change (turned s be h 0) with 0%R. destruct Ty. lra.
  - rewrite Dw. replace a with (0 + a)%R by lra. eapply at_angle_trans; eauto.
  - exact Bk.
  - lia.
  - destruct (full_turns k fuel s h w) as [h1| | |]; cbn [bind] in E; try discriminate. cbn [bind]. rewrite E. cbn [bind]. set (g' := Nat.iter i (fV s) h) in *. exists g'. split; auto.
    assert (Hi : g' < m) by now apply it_lt. split; auto.
    assert (Av : at_angle (vv s h) (vden v) (o + a)) by (eapply at_angle_trans; [apply Ty|]; replace a with (0 + a)%R by lra; eapply at_angle_trans; eauto).
    assert (Ab := alpha_bounds m s S h Hh In' be Cs i). fold g' in Ab. rewrite turned_S in Bi. fold g' in Bi.
    assert (Tg : turn (vv s g') (vden v) (o + a - turned s be h i)).
    { split; [lra|]. replace (o + a - turned s be h i)%R with (- turned s be h i + (o + a))%R by lra. eapply at_angle_trans; [apply at_angle_back, (turned_angle s h be Cs i)|exact Av]. }
    split.
    + exists (o + a - turned s be h i)%R, (be g'). split; auto. split; [apply (Cs i)|]. left. lra.
    + exists be, o, (o + a - turned s be h i)%R, i, q. split; auto. split; auto. split; auto. split; [reflexivity|]. split; auto. split; [lra|]. rewrite Tt. lra.
Qed.
(** There is only one such direction. *)
Theorem C73_unique : forall (K : ExactReal) n (s : flat K) h u g g' (v : pt) a, flat_surface n s -> h < n -> inner_at s h ->
  sector_contains s g v -> sector_contains s g' v -> total_turn n s h u g v a -> total_turn n s h u g' v a -> g = g'.
Proof.
  intros K n s h u g g' v a S Hh In C C' (al & ou & ov & j & p & Co & Tu & Tv & Jg & Per & Ea & B) (al' & ou' & ov' & j' & p' & Co' & Tu' & Tv' & Jg' & Per' & Ea' & B').
  assert (Nh := it_nz n s S h Hh In).
  assert (Et : forall i, turned s al h i = turned s al' h i) by (intros i; unfold turned; f_equal; apply map_ext; intros q; eapply turn_unique; [apply Nh|apply Co|apply Co']).
  assert (ou = ou') by (eapply turn_unique; [apply (Nh 0)|apply Tu|apply Tu']). subst ou'. rewrite <- !Et in *.
  assert (Ov : (ov < al g)%R) by (apply (sector_offset n s S g v ov (al g)); subst g; [now apply it_lt|apply In; now exists j|apply (Co j)|exact Tv|exact C]).
  assert (Ov' : (ov' < al g')%R).
  { apply (sector_offset n s S g' v ov' (al g')); subst g'; [now apply it_lt|apply In; now exists j'|apply (Co j')|exact Tv'|exact C']. }
  assert (j = j'); [|congruence]. assert (Lt := turned_lt n s S h Hh In al Co).
  assert (Q1 := turned_S s h al j). assert (Q2 := turned_S s h al j'). rewrite Jg in Q1. rewrite Jg' in Q2. destruct Tv as (Tv & _). destruct Tv' as (Tv' & _).
  assert (Le : forall a b, a <= b -> (turned s al h a <= turned s al h b)%R) by (intros x y L; destruct (Nat.eq_dec x y) as [->|]; [lra|left; apply Lt; lia]).
  destruct (Nat.lt_trichotomy j j') as [L|[L|L]]; auto; exfalso; [assert (Q := Le (Datatypes.S j) j' L)|assert (Q := Le (Datatypes.S j') j L)]; lra.
Qed.
Print Assumptions C73_unique.

(** When two saddle connections [x] and [y] correspond to each other, then a direction at the vertex where [x] starts is sent to the direction at the same angle
    from [y]. *)
Theorem C73_source : forall (K : ExactReal) n m (x y : sconn K) g (v : vec K) a vertex vertex' total, sc_valid n x -> sc_valid m y -> g < n ->
  inner_at (sc_surface x) (sc_source x) -> inner_at (sc_surface y) (sc_source y) ->
  sector_contains (sc_surface x) (sc_source x) (sv n x) -> sector_contains (sc_surface y) (sc_source y) (sv m y) -> sector_contains (sc_surface x) g (vden v) ->
  same_direction (sv n x) (sv m y) -> total_turn n (sc_surface x) (sc_source x) (sv n x) g (vden v) a ->
  vertex_source (fT (sc_surface x)) (sc_source x) = Ok vertex -> angle (sc_surface x) vertex = Ok total ->
  vertex_source (fT (sc_surface y)) (sc_source y) = Ok vertex' -> angle (sc_surface y) vertex' = Ok total ->
  exists g', (forall fuel, m + 1 < fuel -> gr_source fuel (Some (x, y)) g v = Ok (Some g')) /\ g' < m /\ sector_contains (sc_surface y) g' (vden v) /\
    total_turn m (sc_surface y) (sc_source y) (sv m y) g' (vden v) a.
Proof.
  intros K n m x y g v a vertex vertex' total X Y Hg In In' Cx Cy Cg Sd T Ev Et Ev' Et'. pose proof Y as (S & Hh & _).
  destruct (source_at K n m x y g v a (m + 2) vertex vertex' total) as (g' & _ & Hg' & C' & T'); auto; [lia|]. exists g'. split; auto. intros fuel F.
  destruct (source_at K n m x y g v a fuel vertex vertex' total) as (h & E & _ & C & T2); auto. rewrite E. do 2 f_equal.
  now apply (C73_unique K m (sc_surface y) (sc_source y) (sv m y) h g' (vden v) a).
Qed.
Print Assumptions C73_source.

(** So the identity sends each direction to itself. *)
Theorem C73_identity : forall (K : ExactReal) n (x : sconn K) g (v : vec K) fuel vertex total, sc_valid n x -> g < n -> inner_at (sc_surface x) (sc_source x) ->
  same_vertex (fT (sc_surface x)) (sc_source x) g -> sv n x <> (0, 0)%R -> vden v <> (0, 0)%R ->
  sector_contains (sc_surface x) (sc_source x) (sv n x) -> sector_contains (sc_surface x) g (vden v) ->
  vertex_source (fT (sc_surface x)) (sc_source x) = Ok vertex -> angle (sc_surface x) vertex = Ok total -> n + 1 < fuel ->
  gr_source fuel (Some (x, x)) g v = Ok (Some g).
Proof.
  intros K n x g v fuel vertex total X Hg In Sv Nx Nv Cx Cg Ev Et F. pose proof X as (S & Hs & _).
  destruct (C55_defined K n (sc_surface x) (sc_source x) g (sv n x) (vden v) S Hs In Sv Nx Nv Cx Cg) as (a & T & _).
  destruct (C73_source K n n x x g v a vertex vertex total) as (g' & E & Hg' & C' & T'); auto.
  - exists 1%R. split; [lra|]. destruct (sv n x); unfold pscale; cbn; f_equal; lra.
  - rewrite E by auto. do 2 f_equal. apply (C73_unique K n (sc_surface x) (sc_source x) (sv n x) g' g (vden v) a); auto.
Qed.
Print Assumptions C73_identity.

(** The L with two of its edges flipped. *)
Definition L_flipped : flat ExactZ := Eval vm_compute in fst (fflips L_s [12; 14]).
Lemma L_flips : fflips L_s [12; 14] = (L_flipped, Ok tt).
Proof. vm_compute. reflexivity. Qed.
Lemma L_flipped_flat : flat_surface 18 L_flipped /\ closed_surface 18 L_flipped.
Proof.
  split.
  - eapply fflips_surface; [apply L_flat| |apply L_flips]. intros e [<-|[<-|[]]]; lia.
  - intros e He. do 18 (destruct e as [|e]; [vm_compute; discriminate|]). lia.
Qed.
Lemma L_flipped_inner h : h < 18 -> inner_at L_flipped h.
Proof.
  intros Hh x (k & <-). apply L_flipped_flat. eapply (iter_lt 18 (fV L_flipped)); eauto. apply bijV. apply L_flipped_flat.
Qed.
Definition L_domain : sconn ExactZ := mkSconn L_s 0 1 [1; 0; 0; 0; 0; 0; 0; 0; 0]%Z.
Definition L_codomain : sconn ExactZ := mkSconn L_flipped 0 1 [1; 0; 0; 0; 0; 0; 0; 0; 0]%Z.
(** From the half edge 15, the vector (-2, -3) is at an angle between pi and 2 pi from the half edge 0; the codomain does not have that half edge.  The
    vector (2, 3) is in three sectors, less than 2 pi, less than 4 pi, and less than 6 pi from the half edge 0. *)
Example C73_ex : sc_valid 18 L_domain /\ sc_valid 18 L_codomain /\ inner_at L_s 0 /\ inner_at L_flipped 0 /\
  sector_contains L_s 0 (sv 18 L_domain) /\ sector_contains L_flipped 0 (sv 18 L_codomain) /\ sector_contains L_s 15 (vden (zv (-2) (-3))) /\
  same_direction (sv 18 L_domain) (sv 18 L_codomain) /\ (exists a, total_turn 18 L_s 0 (sv 18 L_domain) 15 (vden (zv (-2) (-3))) a) /\
  vertex_source (fT L_s) 0 = Ok (repeat true 18) /\ angle L_s (repeat true 18) = Ok 3 /\
  vertex_source (fT L_flipped) 0 = Ok (repeat true 18) /\ angle L_flipped (repeat true 18) = Ok 3 /\
  map (fun q : nat * vec ExactZ => gr_source 20 (Some (L_domain, L_codomain)) (fst q) (snd q)) [(15, zv (-2) (-3)); (12, zv 2 3); (16, zv 2 3); (14, zv 2 3); (0, zv 2 1); (0, zv 1 0)] =
    map (fun h => Ok (Some h)) [3; 0; 16; 2; 0; 0] /\
  gr_source 20 (Some (L_domain, L_domain)) 15 (zv (-2) (-3)) = Ok (Some 15).
Proof.
  destruct L_flat as (_ & S & C). destruct L_flipped_flat as (S' & C').
  assert (X : sc_valid 18 L_domain) by (split; [exact S|]; cbn; repeat split; auto; lia).
  assert (Y : sc_valid 18 L_codomain) by (split; [exact S'|]; cbn; repeat split; auto; lia).
  assert (V : sv 18 L_domain = vden (zv 1 0)).
  { destruct (sc_vector_Ok 18 _ X) as (v & E & D). change (sc_vector L_domain) with (Ok (zv 1 0)) in E. rewrite <- D. congruence. }
  assert (V' : sv 18 L_codomain = vden (zv 1 0)).
  { destruct (sc_vector_Ok 18 _ Y) as (v & E & D). change (sc_vector L_codomain) with (Ok (zv 1 0)) in E. rewrite <- D. congruence. }
  assert (N1 : vden (zv 1 0) <> (0, 0)%R) by (intros E; apply (f_equal fst) in E; cbn in E; lra).
  assert (N2 : vden (zv (-2) (-3)) <> (0, 0)%R) by (intros E; apply (f_equal fst) in E; cbn in E; lra).
  assert (C1 : sector_contains L_s 0 (vden (zv 1 0))) by (apply L_contains; auto; lia).
  assert (C2 : sector_contains L_s 15 (vden (zv (-2) (-3)))) by (apply L_contains; auto; lia).
  assert (C3 : sector_contains L_flipped 0 (vden (zv 1 0))).
  { destruct (C25_in_sector _ 18 L_flipped 0 (zv 1 0) S' ltac:(lia) (C' 0 ltac:(lia)) N1) as (b & Eb & B). apply B. assert (Ok b = Ok true) by (rewrite <- Eb; reflexivity). congruence. }
  rewrite V, V'. split; [exact X|]. split; [exact Y|]. split; [apply L_inner; lia|]. split; [apply L_flipped_inner; lia|]. split; [exact C1|]. split; [exact C3|]. split; [exact C2|].
  split; [exists 1%R; split; [lra|]; destruct (vden (zv 1 0)) as [a b]; unfold pscale; cbn [fst snd]; f_equal; ring|].
  split. { apply (total_turn_exists 18 L_s S 0 15); auto; [lia|apply L_inner; lia|]. exists 4. reflexivity. }
  repeat split; vm_compute; reflexivity.
Qed.
