(** * Theorems on the search for saddle connections *)
From Coq Require Import ZArith Reals List Arith Bool Lia Lra Psatz.
From Verif Require Import Base HalfEdge HalfEdgeFacts Perm PermSpec PermFacts IndexedSet Combinatorial CombinatorialSpec
  CombinatorialFacts CombinatorialHistory CombinatorialOps ExactReal Vector PlaneSpec Plane VectorFacts
  FlatTri FlatSpec FlatFacts VectorProps FlatSum FlatAngle FlatProps FlatLinear CombinatorialProps Chain ChainSpec ChainFacts Saddle SaddleSpec SaddleFacts Quadratic QuadraticSpec QuadraticFacts
  Search SearchSpec SearchMoves SearchPlane SearchDepth SearchRun SearchBlock SearchAll PointFacts.
Import ListNotations.
Local Open Scope R_scope.

(** ** C35: deferred moves *)
Theorem C35_deferred_moves {K : ExactReal} n (cs : conns K) (m : iter K) : flat_surface n (cn_surface cs) ->
  (it_next m < n)%nat -> length (it_end m) = (n / 2)%nat -> possible (cn_surface cs) (it_moves m) (it_next m, cvector n (cn_surface cs) (it_end m)) ->
  exists e c, apply_moves cs m = Ok (set_position m e c []) /\ (e < n)%nat /\ length c = (n / 2)%nat /\
    (e, cvector n (cn_surface cs) c) = moved_all (cn_surface cs) (it_moves m) (it_next m, cvector n (cn_surface cs) (it_end m)).
Proof. intros S0 He Lc P. apply apply_moves_Ok; auto. split; [|split]; auto. Qed.
Print Assumptions C35_deferred_moves.

Definition queue_ex : iter ExactZ := mkIter [] (BVector (zv 0 0)) (BVector (zv 0 0)) 2 [1%Z; 1%Z; 0%Z] []
  [GOTO_PREVIOUS_EDGE; GOTO_OTHER_FACE; GOTO_NEXT_EDGE; GOTO_NEXT_EDGE; GOTO_OTHER_FACE; GOTO_NEXT_EDGE] [].
Example C35_ex : flat_surface 6 torus_s /\ possible torus_s (it_moves queue_ex) (2%nat, (1, 1)) /\
  apply_moves (make_conns torus_s) queue_ex = Ok (set_position queue_ex 0 [2; 0; 1]%Z []) /\ moved_all torus_s (it_moves queue_ex) (2%nat, (1, 1)) = (0%nat, (1, -1)).
Proof.
  split; [exact (proj1 (proj2 torus_flat))|]. split; [cbn; repeat split; discriminate|]. split; [reflexivity|]. cbn. unfold padd, pneg; cbn. f_equal. apply pt_eq; cbn [fst snd]; lra.
Qed.

(** The chain itself is in general another one. *)
Theorem C35_chain_refuted : exists (cs : conns ExactZ) m e c e' c', flat_surface 6 (cn_surface cs) /\ it_moves m = [GOTO_NEXT_EDGE; GOTO_NEXT_EDGE] /\
  apply_moves cs m = Ok (set_position m e c []) /\
  (do (e, c) <- apply_move cs (it_next m) (it_end m) GOTO_NEXT_EDGE; apply_move cs e c GOTO_NEXT_EDGE) = Ok (e', c') /\ e = e' /\ c <> c'.
Proof.
  exists (make_conns torus_s), (mkIter [] (BVector (zv 0 0)) (BVector (zv 0 0)) 0 [1%Z; 0%Z; 0%Z] [] [GOTO_NEXT_EDGE; GOTO_NEXT_EDGE] []), 4%nat, [0; 0; 0]%Z, 4%nat, [1; 1; 1]%Z.
  split; [exact (proj1 (proj2 torus_flat))|]. split; [reflexivity|]. split; [reflexivity|]. split; [reflexivity|]. split; [reflexivity|discriminate].
Qed.
Print Assumptions C35_chain_refuted.

(** ** C36: pruning *)
Theorem C36_pruning {K : ExactReal} n (cs : conns K) (m : iter K) r : flat_surface n (cn_surface cs) ->
  (it_next m < n)%nat -> length (it_end m) = (n / 2)%nat ->
  let q := cvector n (cn_surface cs) (it_end m) in let p := padd q (pneg (vv (cn_surface cs) (it_next m))) in
  0 < pdet p q -> exists o, edge_outside cs r m = Ok o /\
  (o = true <-> forall t, 0 <= t <= 1 -> IZR r < pdot (padd p (pscale t (vv (cn_surface cs) (it_next m)))) (padd p (pscale t (vv (cn_surface cs) (it_next m))))) /\
  (o = true -> forall v g, hits (cn_surface cs) p (it_next m) v g -> IZR r < pdot v v).
Proof.
  intros S0 He Lc q p D. set (s := cn_surface cs) in *. assert (E : q = padd p (vv s (it_next m))) by (unfold p; destruct q as [a b], (vv s (it_next m)) as [c d]; unfold padd, pneg; apply pt_eq; cbn [fst snd]; ring).
  set (m1 := mkIter [mkSsector 0 None] (it_b0 m) (it_b1 m) (it_next m) (it_end m) (it_state m) [] (it_tmp m)).
  assert (St : settled n cs (mkSsector 0 None) [] m1 (it_b0 m) (it_b1 m) (p, it_next m) (it_state m) (it_tmp m)) by (exists (it_end m); cbn [fst snd]; auto).
  destruct (edge_outside_Ok n cs r S0 _ _ _ _ _ _ _ _ St) as (o & Eo & Ho). exists o. split; [exact Eo|]. split; [exact Ho|]. intros Et v g H.
  apply (outside_hits n s S0 p (it_next m) v g); auto. now rewrite <- E. now apply Ho.
Qed.
Print Assumptions C36_pruning.

(** The edge 1 of the torus, from (1,5) to (0,5), and the circle of radius a bit less than 5: the vertex (1,6) that is behind the edge is outside. *)
Definition edge_ex : iter ExactZ := mkIter [] (BVector (zv 0 0)) (BVector (zv 0 0)) 1 [0; 5; 0]%Z [] [] [].
Example C36_ex : flat_surface 6 torus_s /\ edge_outside (make_conns torus_s) 24%Z edge_ex = Ok true /\ edge_outside (make_conns torus_s) 25%Z edge_ex = Ok false /\
  cvector 6 torus_s (it_end edge_ex) = (0, 5) /\ 0 < pdet (1, 5) (0, 5) /\ hits torus_s (1, 5) 1 (1, 6) 4.
Proof.
  split; [exact (proj1 (proj2 torus_flat))|]. split; [reflexivity|]. split; [reflexivity|]. split; [unfold cvector, chain_vector, padd, pscale; apply pt_eq; cbn; lra|]. split; [unfold pdet; cbn; lra|].
  replace (1, 6) with (padd (1, 5) (vv torus_s (fF torus_s (neg 1)))) by (unfold padd; apply pt_eq; cbn; lra).
  apply (hits_vertex torus_s (1, 5) 1); [discriminate|split; unfold pdet, padd; cbn; lra].
Qed.

(** ** C56: the search finds everything *)
Section lemmas.
Context {K : ExactReal} (n : nat) (s : flat K).
Hypothesis S0 : flat_surface n s.
Let W := fs_wf n s S0.

Lemma hits_lt p h v g : hits s p h v g -> (h < n)%nat -> (g < n)%nat.
Proof. assert (N : forall x, (x < n)%nat -> (neg x < n)%nat) by (intros; now apply (neg_ltn n (fT s) W)). induction 1; intros Hh; auto; try apply IHhits; repeat apply (fF_lt n); auto. Qed.
Lemma connection_lt h v g : connection s h v g -> (h < n)%nat -> (g < n)%nat.
Proof. intros (_ & [[_ ->]|H]) Hh; [now apply (neg_ltn n (fT s) W)|]. apply (hits_lt _ _ _ _ H). now apply (fF_lt n). Qed.
Lemma connection_nonzero h v g : (h < n)%nat -> connection s h v g -> 0 < pdot v v.
Proof.
  intros Hh (Nb & [[-> _]|H]); apply pdot_pos.
  - apply (pdet_nonzero_l _ (vv s (fV s h))). assert (0 < pdet (vv s h) (vv s (fV s h))) by now apply (corner_det n). lra.
  - apply hits_crosses in H. destruct H. apply (pdet_nonzero_r (vv s h)). lra.
Qed.

(** Going back. *)
Lemma neg_F3 e : (e < n)%nat -> fF s e <> e -> fF s (fF s (fF s e)) = e.
Proof. intros He Ne. now apply (fF3 n). Qed.
Lemma sum0 a b c : padd (padd a b) c = (0, 0) -> c = pneg (padd a b).
Proof. destruct a, b, c. unfold padd, pneg. cbn [fst snd]. intros [= H1 H2]. apply pt_eq; cbn [fst snd]; lra. Qed.
Lemma crosses_back p h v : (h < n)%nat -> crosses s p h v -> crosses s (padd (padd p (vv s h)) (pneg v)) (neg h) (pneg v).
Proof.
  intros Hh [C1 C2]. unfold crosses. rewrite (fs_odd n s S0 h Hh). destruct p, v, (vv s h). unfold pdet, padd, pneg in *; cbn [fst snd] in *. split; nra.
Qed.
Lemma hits_back p h v g h0 : hits s p h v g -> (h < n)%nat -> hits s (padd (padd p (vv s h)) (pneg v)) (neg h) (pneg v) h0 ->
  (g < n)%nat /\ fF s g <> g /\ hits s (vv s g) (fF s g) (pneg v) h0.
Proof.
  intros H. induction H as [p h Nb C|p h v g Nb C H IH|p h v g Nb C H IH]; intros Hh Hb; set (e := neg h) in *;
    (assert (He : (e < n)%nat) by now apply (neg_ltn n (fT s) W)); pose proof (fs_flat n s S0 e He Nb) as (Z & _); pose proof (fs_odd n s S0 h Hh) as Od; fold e in Od;
    assert (Hf : (fF s e < n)%nat) by (now apply (fF_lt n)); assert (Hff : (fF s (fF s e) < n)%nat) by (now apply (fF_lt n)); pose proof (neg_F3 e He Nb) as F3; apply sum0 in Z.
  - split; auto. split; [intros B; apply (fF_nb n s e S0 He Nb); now apply (nF_inj n (fT s) W)|]. rewrite F3.
    replace (vv s (fF s (fF s e))) with (padd (padd p (vv s h)) (pneg (padd p (vv s (fF s e))))); auto. rewrite Z.
    rewrite Od. destruct p, (vv s h), (vv s (fF s e)). unfold padd, pneg; apply pt_eq; cbn [fst snd]; ring.
  - apply IH; auto. set (f := fF s e) in *. assert (Nn : neg (neg f) = f) by apply neg_neg. 
    assert (Nf : fF s f <> f) by (now apply (fF_nb n s e S0 He Nb)).
    apply hits_left; rewrite ?Nn; auto.
    + apply crosses_back; auto. now apply hits_crosses in H.
    + rewrite F3. replace (padd (padd (padd p (vv s f)) (pneg v)) (vv s (fF s f))) with (padd (padd p (vv s h)) (pneg v)); auto.
      rewrite Z, Od. destruct p, (vv s h), (vv s f), v. unfold padd, pneg; apply pt_eq; cbn [fst snd]; ring.
  - apply IH; auto. set (f := fF s e) in *. set (k := fF s f) in *. assert (Nn : neg (neg k) = k) by apply neg_neg.
    assert (Nf : fF s f <> f) by (now apply (fF_nb n s e S0 He Nb)). assert (Nk : fF s k <> k) by (now apply (fF_nb n s f S0 Hf Nf)).
    apply hits_right; rewrite ?Nn; auto.
    + apply crosses_back; auto. now apply hits_crosses in H.
    + rewrite F3. replace (padd (padd (padd p (vv s f)) (vv s k)) (pneg v)) with (padd (padd p (vv s h)) (pneg v)); auto.
      rewrite Z, Od. destruct p, (vv s h), (vv s f), v. unfold padd, pneg; apply pt_eq; cbn [fst snd]; ring.
Qed.
Lemma connection_back h v g : (h < n)%nat -> (v = vv s h -> fF s (neg h) <> neg h) -> connection s h v g -> connection s g (pneg v) h.
Proof.
  intros Hh Bd (Nb & [[-> ->]|H]).
  - split; [auto|left]. rewrite neg_neg. split; auto. now rewrite (fs_odd n s S0 h Hh).
  - assert (Hf : (fF s h < n)%nat) by (now apply (fF_lt n)). pose proof (fs_flat n s S0 h Hh Nb) as (Z & _). apply sum0 in Z. pose proof (neg_F3 h Hh Nb) as F3.
    assert (Nf : fF s (fF s h) <> fF s h) by (now apply (fF_nb n s h S0 Hh Nb)).
    destruct (hits_back _ _ _ _ h H Hf) as (_ & Ng & H'); [|split; auto]. set (f := fF s h) in *. assert (Nn : neg (neg f) = f) by apply neg_neg.
    assert (Ev : padd (padd (padd (vv s h) (vv s f)) (pneg v)) (vv s (fF s (neg (neg f)))) = pneg v).
    { rewrite Nn, Z. destruct (vv s h), (vv s f), v. unfold padd, pneg; apply pt_eq; cbn [fst snd]; ring. }
    rewrite <- Ev at 2. replace h with (fF s (fF s (neg (neg f)))) at 3 by (rewrite Nn; exact F3). apply hits_vertex; [rewrite Nn; auto|]. rewrite Ev. apply crosses_back; auto. now apply hits_crosses in H.
Qed.
End lemmas.

Theorem C56_sectors {K : ExactReal} n (cs : conns K) r : flat_surface n (cn_surface cs) -> cn_radius cs = Some r -> (0 <= r)%Z -> (0 <= cn_lower cs)%Z ->
  sectors_ok n (cn_surface cs) (cn_sectors cs) ->
  exists k ls, (forall f, (k <= f)%nat -> search cs f = Ok (concat ls)) /\
    Forall2 (fun x l => NoDup (map (sv n) l) /\ (forall y, In y l -> sc_valid n y /\ sc_surface y = cn_surface cs /\ sc_source y = sec_source x) /\
      forall v g, wanted cs x v g <-> exists y, In y l /\ sv n y = v /\ sc_target y = g) (cn_sectors cs) ls.
Proof.
  intros S0 Rad R0 L0 Sk. destruct (search_complete n cs r S0 Rad R0 L0 Sk) as (k & ls & H & F). exists k, ls. split; auto.
  assert (Sl : forall x, In x (cn_sectors cs) -> (sec_source x < n)%nat) by (intros x I; now apply Sk). clear Sk H. induction F as [|x l xs ls Hx F IH]; constructor; [|apply IH; intros; apply Sl; now right].
  destruct Hx as (A & B & C). assert (Hs := Sl x (or_introl eq_refl)). split; auto. split; auto. intros y I. destruct (B y I) as (B1 & B2 & B3). split; auto.
  unfold sc_valid. rewrite B1, B2. split; auto. split; auto. split; auto. destruct (proj2 (C (sv n y) (sc_target y))) as (Cn & _); [exists y; split; auto; split; auto|]. now apply (connection_lt n _ S0 _ _ _ Cn).
Qed.
Print Assumptions C56_sectors.

Lemma nodup_app {A} (l1 l2 : list A) : NoDup l1 -> NoDup l2 -> (forall z, In z l1 -> In z l2 -> False) -> NoDup (l1 ++ l2).
Proof.
  induction 1 as [|a l1 Na N1 IH]; intros N2 D; cbn [app]; auto. constructor; [|apply IH; auto; intros z I J; apply (D z); [now right|auto]].
  intros I. apply in_app_iff in I. destruct I as [I|I]; [auto|]. apply (D a); [now left|auto].
Qed.
Lemma concat_once {A B C D} (src : A -> B) (key : C -> B) (val : C -> D) : forall xs ls, NoDup (map src xs) ->
  Forall2 (fun x l => NoDup (map val l) /\ forall y, In y l -> key y = src x) xs ls -> NoDup (map (fun y => (key y, val y)) (concat ls)).
Proof.
  intros xs ls Nd F. induction F as [|x l xs ls [H1 H2] F IH]; [constructor|]. cbn [concat map] in Nd |- *. inversion_clear Nd as [|? ? Nx Nd']. rewrite map_app.
  assert (Later : forall y, In y (concat ls) -> In (key y) (map src xs)).
  { clear - F. induction F as [|x l xs ls [_ H] F IH]; intros y I; [destruct I|]. cbn [concat] in I. apply in_app_iff in I. cbn [map]. destruct I as [I|I]; [left; symmetry; now apply H|right; now apply IH]. }
  apply nodup_app; auto.
  - clear - H1. induction l as [|a l IH]; [constructor|]. cbn [map] in *. inversion_clear H1 as [|? ? Na Nl]. constructor; auto. intros I. apply Na. apply in_map_iff in I. destruct I as (b & E & I). apply in_map_iff. exists b. split; auto. congruence.
  - intros z I J. apply in_map_iff in I, J. destruct I as (a & <- & I), J as (b & E & J). apply Nx. rewrite <- (H2 a I). injection E as E _. rewrite <- E. auto.
Qed.
Lemma in_concat2 {A C} (P : A -> list C -> Prop) : forall xs ls, Forall2 P xs ls -> forall y, In y (concat ls) -> exists x l, In x xs /\ P x l /\ In y l.
Proof. intros xs ls F. induction F as [|x l xs ls H F IH]; intros y I; [destruct I|]. cbn [concat] in I. apply in_app_iff in I. destruct I as [I|I]; [exists x, l; split; [now left|auto]|]. destruct (IH y I) as (x' & l' & A1 & A2). exists x', l'. split; [now right|auto]. Qed.
Lemma concat_in2 {A C} (P : A -> list C -> Prop) : forall xs ls, Forall2 P xs ls -> forall x, In x xs -> exists l, P x l /\ forall y, In y l -> In y (concat ls).
Proof. intros xs ls F. induction F as [|x l xs ls H F IH]; intros y I; [destruct I|]. destruct I as [<-|I]; [exists l; split; auto; intros z Iz; apply in_app_iff; now left|]. destruct (IH y I) as (l' & A1 & A2). exists l'. split; auto. intros z Iz. apply in_app_iff. right. auto. Qed.

(** All the saddle connections up to some length are reported, each of them once. *)
Theorem C56_all {K : ExactReal} n (s : flat K) r : flat_surface n s -> (0 <= r)%Z ->
  exists k l, (forall f, (k <= f)%nat -> search (cn_bound (make_conns s) r) f = Ok l) /\
    NoDup (map (fun y => (sc_source y, sv n y)) l) /\ (forall y, In y l -> sc_valid n y /\ sc_surface y = s) /\
    forall h v g, (h < n)%nat /\ connection s h v g /\ pdot v v <= IZR r <-> exists y, In y l /\ sc_source y = h /\ sv n y = v /\ sc_target y = g.
Proof.
  intros S0 R0. set (cs := cn_bound (make_conns s) r). pose proof (fs_wf n s S0) as W.
  assert (Sec : cn_sectors cs = map (fun h => mkSsector h None) (half_edges (fT s))) by reflexivity.
  assert (He : half_edges (fT s) = seq 0 n) by (unfold half_edges; now rewrite (wf_size n _ W)).
  destruct (C56_sectors n cs r S0) as (k & ls & H & F); auto; [cbn; lia| |].
  { intros x I. rewrite Sec in I. apply in_map_iff in I. destruct I as (h & <- & I). cbn [sec_source]. rewrite He in I. apply in_seq in I. split; [lia|]. intros _. exact Logic.I. }
  exists k, (concat ls). split; auto. split; [|split].
  - apply (concat_once sec_source sc_source (sv n) (cn_sectors cs)).
    + rewrite Sec, map_map. cbn [sec_source]. rewrite map_id, He. apply seq_NoDup.
    + clear - F. induction F as [|x l xs ls (A & B & C) F IH]; constructor; auto. split; auto. intros y I. now apply B.
  - intros y I. destruct (in_concat2 _ _ _ F y I) as (x & l & _ & (_ & B & _) & Il). split; now apply B.
  - intros h v g. split.
    + intros (Hh & C & Lv). destruct (concat_in2 _ _ _ F (mkSsector h None)) as (l & (_ & B & D) & Sub).
      { rewrite Sec. apply (in_map (fun h => mkSsector h None)). rewrite He. apply in_seq. lia. }
      destruct (proj1 (D v g)) as (y & Iy & Ey & Ty); [|exists y; destruct (B y Iy) as (_ & _ & Sy); auto].
      unfold wanted, in_part. cbn. split; auto. split; auto. split; auto. now apply (connection_nonzero n s S0 h v g).
    + intros (y & I & <- & <- & <-). destruct (in_concat2 _ _ _ F y I) as (x & l & Ix & (_ & B & D) & Il). destruct (B y Il) as ((_ & V & _) & _ & Sy). split; auto.
      destruct (proj2 (D (sv n y) (sc_target y))) as (C & _ & _ & Lv); [exists y; auto|]. rewrite Sy. split; auto.
Qed.
Print Assumptions C56_all.

(** On surfaces without boundary, connections are reported in both directions. *)
Theorem C56_both_directions {K : ExactReal} n (s : flat K) r : flat_surface n s -> closed_surface n s -> (0 <= r)%Z ->
  exists k l, (forall f, (k <= f)%nat -> search (cn_bound (make_conns s) r) f = Ok l) /\
    forall y, In y l -> exists y', In y' l /\ sc_eqb y' (sc_neg y) = Ok true /\ sc_target y' = sc_source y.
Proof.
  intros S0 Cl R0. destruct (C56_all n s r S0 R0) as (k & l & H & _ & V & C). exists k, l. split; auto. intros y I. destruct (V y I) as (Vy & Sy).
  destruct (proj2 (C (sc_source y) (sv n y) (sc_target y))) as (Hh & Cn & Lv); [exists y; auto|].
  assert (Ht : (sc_target y < n)%nat) by apply Vy.
  destruct (proj1 (C (sc_target y) (pneg (sv n y)) (sc_source y))) as (y' & I' & Sr & Ve & Ta).
  { split; auto. split; [apply (connection_back n s S0); auto; intros _; apply Cl; now apply (neg_ltn n (fT s) (fs_wf n s S0))|].
    replace (pdot (pneg (sv n y)) (pneg (sv n y))) with (pdot (sv n y) (sv n y)) by (unfold pdot, pneg; cbn; ring). auto. }
  exists y'. split; auto. split; auto. destruct (V y' I') as (Vy' & Sy'). destruct (sc_eqb_spec n n y' (sc_neg y) Vy' (sc_neg_valid n y Vy)) as (b & E & Hb). rewrite E. f_equal. apply Hb.
  split; [|split].
  - cbn [sc_neg sc_surface]. rewrite Sy, Sy'. destruct (flat_eqb_spec n n s s S0 S0) as (b' & E' & Hb'). rewrite E'. f_equal. apply Hb'. auto.
  - rewrite sv_neg by auto. auto.
  - auto.
Qed.
Print Assumptions C56_both_directions.

(** To look at what is reported. *)
Definition report {K : ExactReal} (l : list (sconn K)) : list (nat * nat * list Z) := map (fun y => (sc_source y, sc_target y, sc_chain y)) l.
Lemma from_surface {K : ExactReal} (cs : conns K) : forall f m l, search_from cs f m = Ok l -> forall y, In y l -> sc_surface y = cn_surface cs.
Proof.
  induction f as [|f IH]; [discriminate|]. intros m l E y I. cbn [search_from] in E. destruct (at_end m); [injection E as <-; destruct I|].
  destruct (sdereference cs m) as [x| | |] eqn:D; try discriminate. cbn [bind] in E. destruct (advance cs f m) as [m'| | |]; try discriminate. cbn [bind] in E.
  destruct (search_from cs f m') as [l'| | |] eqn:F; try discriminate. injection E as <-. destruct I as [<-|I]; [|now apply (IH m' l')].
  unfold sdereference in D. destruct (it_sectors m) as [|z zs]; [discriminate|]. destruct (it_state m) as [|[[u|] [w|]| | | | | |] st]; try discriminate.
  - unfold sc_half_edge in D. destruct (zc_half_edge _ _); try discriminate. now injection D as <-.
  - destruct (previousAtVertex _ _); try discriminate. now injection D as <-.
Qed.
Lemma reported {K : ExactReal} (cs : conns K) f l' : (do l <- search cs f; Ok (report l)) = Ok l' -> exists l, search cs f = Ok l /\ report l = l' /\ forall y, In y l -> sc_surface y = cn_surface cs.
Proof.
  intros E. destruct (search cs f) as [l| | |] eqn:F; try discriminate. injection E as <-. exists l. split; auto. split; auto. unfold search in F. destruct (search_begin cs f) as [m| | |]; try discriminate. cbn [bind] in F.
  now apply (from_surface cs f m).
Qed.
Lemma report_nth {K : ExactReal} (s : flat K) l i a b c : (forall y, In y l -> sc_surface y = s) -> nth_error (report l) i = Some (a, b, c) -> nth_error l i = Some (mkSconn s a b c).
Proof.
  intros H E. unfold report in E. rewrite nth_error_map in E. destruct (nth_error l i) as [y|] eqn:F; [|discriminate]. apply nth_error_In in F. specialize (H y F). injection E as <- <- <-. rewrite <- H. now destruct y.
Qed.

Example C56_ex : flat_surface 6 torus_s /\ closed_surface 6 torus_s /\
  exists l, search (cn_bound (make_conns torus_s) 5%Z) 99 = Ok l /\ length l = 16%nat /\
  report (firstn 3 l) = [(0, 1, [1; 0; 0]%Z); (0, 1, [1; 0; -1]%Z); (1, 0, [-1; 0; 0]%Z)]%nat.
Proof.
  split; [exact (proj1 (proj2 torus_flat))|]. split; [exact (proj2 (proj2 torus_flat))|].
  destruct (reported (cn_bound (make_conns torus_s) 5%Z) 99 (match search (cn_bound (make_conns torus_s) 5%Z) 99 with Ok l => report l | _ => [] end)) as (l & E & H & _).
  - vm_compute. reflexivity.
  - exists l. split; auto. rewrite E in H. clear H. assert (F : length (report l) = 16%nat /\ firstn 3 (report l) = [(0, 1, [1; 0; 0]%Z); (0, 1, [1; 0; -1]%Z); (1, 0, [-1; 0; 0]%Z)]%nat).
    { replace (report l) with (match search (cn_bound (make_conns torus_s) 5%Z) 99 with Ok l => report l | _ => [] end) by now rewrite E. vm_compute. split; reflexivity. }
    unfold report in *. rewrite map_length, firstn_map in F. exact F.
Qed.

Lemma sc_eqb_source {K : ExactReal} (x y : sconn K) : sc_eqb x y = Ok true -> sc_source x = sc_source y.
Proof.
  unfold sc_eqb. destruct (flat_eqb _ _) as [[]| | |]; try discriminate. cbn [bind negb]. destruct (sc_vector x); try discriminate. cbn [bind]. destruct (sc_vector y); try discriminate. cbn [bind].
  intros [= E]. apply andb_true_iff in E. now apply Nat.eqb_eq.
Qed.
Lemma kite_flat : flat_surface 10 kite_s.
Proof.
  pose proof (proj1 (C07_construction_cycles [[6; 2; 0]; [1; 5]; [4; 3; 9]; [8; 7]]%nat [0; 5; 7; 9]%nat kite_t eq_refl)) as W. change (length _) with 10%nat in W.
  assert (Su : suitable 10 kite_t [zv 0 1; zv 2 2; zv (-2) (-1); zv 1 0; zv 1 2]).
  { split; [reflexivity|]. intros e He Ne. do 10 (destruct e as [|e]; [first [exfalso; apply Ne; reflexivity|cbn; unfold padd, pdet, pneg; cbn; split; [f_equal; lra|lra]]|]). lia. }
  assert (F : kite = Ok kite_s) by reflexivity.
  destruct (proj1 (C19_constructor _ 10 kite_t _ W) Su) as (s' & F'' & S & _).
  replace s' with kite_s in S by (change (kite = Ok s') in F''; congruence). auto.
Qed.
(** With boundary, this is not so: boundary edges are reported in one direction only. *)
Theorem C56_boundary_refuted : exists (s : flat ExactZ) r f l y, flat_surface 10 s /\ search (cn_bound (make_conns s) r) f = Ok l /\ In y l /\
  forall y', In y' l -> sc_eqb y' (sc_neg y) <> Ok true.
Proof.
  set (cs := cn_bound (make_conns kite_s) 1%Z).
  destruct (reported cs 99 (match search cs 99 with Ok l => report l | _ => [] end)) as (l & E & H & Su); [vm_compute; reflexivity|].
  exists kite_s, 1%Z, 99%nat, l, (mkSconn kite_s 1 0 [-1; 0; 0; 0; 0]%Z). split; [exact kite_flat|]. split; [exact E|].
  assert (F : nth_error (report l) 0 = Some (1%nat, 0%nat, [-1; 0; 0; 0; 0]%Z) /\ existsb (Nat.eqb 0) (map (fun x => fst (fst x)) (report l)) = false).
  { rewrite H. vm_compute. split; reflexivity. }
  destruct F as [F1 F2]. split; [apply (nth_error_In l 0); now apply report_nth|].
  intros y' I Eq. assert (Z : sc_source y' = 0%nat).
  { now apply sc_eqb_source in Eq. }
  assert (B : existsb (Nat.eqb 0) (map (fun x => fst (fst x)) (report l)) = true); [|congruence].
  apply existsb_exists. exists 0%nat. split; auto. unfold report. rewrite map_map. cbn [fst]. apply in_map_iff. exists y'. auto.
Qed.
Print Assumptions C56_boundary_refuted.

(** ** C57: the order *)
(** The documentation says that the connections are "sorted by increasing angle around each vertex" (saddle_connections.hpp:33, 75-76, 91).  A connection
    is reported before the connections that are clockwise from it in the same sector: on the torus, (2,1) comes before (3,1). *)
Theorem C57_order_refuted : exists (s : flat ExactZ) r f l i j x y, flat_surface 6 s /\ search (cn_bound (make_conns s) r) f = Ok l /\
  (i < j)%nat /\ nth_error l i = Some x /\ nth_error l j = Some y /\ sc_source x = sc_source y /\
  0 <= pdet (vv s (sc_source x)) (sv 6 y) /\ 0 < pdet (sv 6 y) (sv 6 x) /\ 0 < pdet (sv 6 x) (vv s (fV s (sc_source x))).
Proof.
  set (cs := cn_bound (make_conns torus_s) 10%Z).
  destruct (reported cs 199 (match search cs 199 with Ok l => report l | _ => [] end)) as (l & E & H & Su); [vm_compute; reflexivity|].
  exists torus_s, 10%Z, 199%nat, l, 1%nat, 2%nat, (mkSconn torus_s 0 1 [1; 0; -1]%Z), (mkSconn torus_s 0 1 [2; 0; -1]%Z). split; [exact (proj1 (proj2 torus_flat))|]. split; [exact E|].
  split; [lia|]. assert (F : nth_error (report l) 1 = Some (0%nat, 1%nat, [1; 0; -1]%Z) /\ nth_error (report l) 2 = Some (0%nat, 1%nat, [2; 0; -1]%Z)) by (rewrite H; vm_compute; split; reflexivity).
  destruct F as [F1 F2]. split; [now apply report_nth|]. split; [now apply report_nth|]. split; [reflexivity|].
  assert (E1 : sv 6 (mkSconn torus_s 0 1 [1; 0; -1]%Z) = (2, 1)) by (unfold sv, cvector, chain_vector, padd, pscale; apply pt_eq; cbn; lra).
  assert (E2 : sv 6 (mkSconn torus_s 0 1 [2; 0; -1]%Z) = (3, 1)) by (unfold sv, cvector, chain_vector, padd, pscale; apply pt_eq; cbn; lra).
  rewrite E1, E2. unfold pdet; cbn. lra.
Qed.
Print Assumptions C57_order_refuted.
