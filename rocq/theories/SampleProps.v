(** * Theorems on the sampling of saddle connections *)
From Coq Require Import ZArith Reals List Arith Bool Lia Lra Psatz.
From Verif Require Import Base HalfEdge HalfEdgeFacts Perm PermSpec PermFacts IndexedSet Combinatorial CombinatorialSpec
  CombinatorialFacts CombinatorialHistory CombinatorialOps ExactReal Vector PlaneSpec Plane VectorFacts VectorProps
  FlatTri FlatSpec FlatFacts FlatSum FlatLinear FlatAngle FlatProps Chain ChainSpec ChainFacts Saddle SaddleSpec SaddleFacts
  Search SearchSpec SearchMoves SearchPlane SearchDepth SearchRun SearchAll PointFacts Translate TranslateRun TranslateMove
  Sample SampleSpec SampleFacts SampleRun ConnectProps.
Import ListNotations.
Local Open Scope R_scope.

Lemma nonempty {A B} (l : list A) (a b : B) : (0 < length l)%nat -> match l with [] => a | _ :: _ => b end = b.
Proof. destruct l; cbn; auto; lia. Qed.

Section sample.
Context {K : ExactReal} (n : nat) (cs : conns K).
Local Notation s := (cn_surface cs).
Local Notation lower := (cn_lower cs).
Hypothesis S0 : flat_surface n s.
Hypothesis Cl : closed_surface n s.
Hypothesis Rad : cn_radius cs = None.
Hypothesis L0 : (0 <= lower)%Z.
Hypothesis Ws : whole_sectors n cs.

(** There are finitely many short connections. *)
Lemma short_finite h : (h < n)%nat -> exists F, forall v g, hits s (vv s h) (fF s h) v g -> ~ long lower v -> In v F.
Proof.
  intros Hh. set (cs' := mkConns s [mkSsector h (@None (vec K * vec K))] (Some lower) 0%Z).
  destruct (search_complete n cs' lower S0 eq_refl L0 (Z.le_refl 0)) as (k & ls & _ & F).
  { intros x [<-|[]]. split; auto. intros _. exact I. }
  inversion F as [|x l xs ls' Hl Fr Ex El]; subst. inversion Fr; subst. clear F Fr. destruct Hl as (_ & _ & Hl).
  exists (map (sv n) l). intros v g H Nl.
  assert (Wv : wanted cs' (mkSsector h None) v g).
  { split; [split; [now apply Cl|now right]|]. split; [exact I|]. apply hits_crosses in H. destruct H as [H _]. cbn [cn_lower cn_radius cs'].
    split; [apply pdot_pos; intros ->; unfold pdet in H; cbn in H; lra|]. unfold long in Nl. apply Rnot_lt_le. tauto. }
  apply Hl in Wv. destruct Wv as (y & Iy & Ey). apply in_map_iff. exists y. split; auto. apply Ey.
Qed.

Lemma filter_source h l : NoDup (map (@sec_source K) l) -> (forall x, In x l -> sec_sector x = None) -> In (mkSsector h None) l ->
  filter (fun x => (sec_source x =? h)%nat) l = [mkSsector h None].
Proof.
  induction l as [|x l IH]; [intros _ _ []|]. intros Nd Nn I. cbn [map] in Nd. inversion Nd as [|? ? Nx Nd']; subst. cbn [filter].
  destruct (Nat.eqb_spec (sec_source x) h) as [E|N].
  - assert (Ex : x = mkSsector h None) by (destruct x as [a b]; cbn in E; subst; f_equal; apply (Nn (mkSsector h b)); now left). subst x. f_equal.
    cbn [sec_source] in Nx. clear - Nx. induction l as [|y l IH]; auto. cbn [filter]. destruct (Nat.eqb_spec (sec_source y) h) as [E|N]; [exfalso; apply Nx; cbn; now left|]. apply IH. intros J. apply Nx. now right.
  - destruct I as [E|I]; [subst x; cbn in N; congruence|]. apply IH; auto. intros y Iy. apply Nn. now right.
Qed.

Section pick.
Variable pick : nat.
Hypothesis Hp : (pick < length (cn_sectors cs))%nat.
Let x0 := nth pick (cn_sectors cs) (mkSsector 0 None).
Let h := sec_source x0.

Lemma picked : x0 = mkSsector h None /\ (h < n)%nat /\ vget (cn_sectors cs) pick = Ok x0 /\ reset_lower (cn_sector_at cs h) = mkConns s [mkSsector h None] None 0%Z.
Proof.
  assert (I : In x0 (cn_sectors cs)) by now apply nth_In. destruct Ws as [W1 W2]. destruct (W1 _ I) as [Hh Nn].
  assert (E : x0 = mkSsector h None) by (unfold h; destruct x0 as [a b]; cbn in *; now subst). split; auto. split; auto. split.
  - unfold vget, x0. now rewrite (nth_error_nth' _ (mkSsector 0 None) Hp).
  - unfold reset_lower, cn_sector_at, set_sectors. cbn [cn_surface cn_sectors cn_radius]. rewrite Rad. rewrite filter_source; auto; [|now rewrite <- E]. intros x Ix. apply (W1 x Ix).
Qed.

(** A call of [increment] is the loop after the search arrived at the first vertex. *)
Lemma increment_loop : exists m c0 c1 y b e, vden b = vv s h /\ vden e = vv s (fV s h) /\ length c0 = (n / 2)%nat /\ length c1 = (n / 2)%nat /\ cvector n s c0 = vv s h /\ cvector n s c1 = vv s (fV s h) /\
  found_at n (mkConns s [mkSsector h None] None 0%Z) (mkSsector h None) [] m c0 c1 y /\ leads n (mkConns s [mkSsector h None] None 0%Z) (vv s h) (vv s (fV s h)) (vv s h, fF s h) y /\
  forall seen side x, returns s h lower b e seen side m x -> exists N, forall f, (N <= f)%nat -> sample_increment f cs pick side seen = Ok x.
Proof.
  destruct picked as (Ex & Hh & Ev & Er). set (b := vat' s h). set (e := vat' s (fV s h)).
  destruct (sample_starts n s h S0 Cl Hh) as (m & m' & c0 & c1 & y & Em & [N1 A] & G0 & G1 & D0 & D1 & Fd & Ld).
  exists m', c0, c1, y, b, e. split; [reflexivity|]. split; [reflexivity|]. do 6 (split; auto).
  intros seen side x [N2 R]. exists (S (N1 + N2)). intros f Hf. unfold sample_increment. rewrite Rad. assert (Hv : (fV s h < n)%nat) by now apply (fV_lt n).
  rewrite nonempty by lia. rewrite Ev. cbn [bind]. fold h. rewrite Er. rewrite Ex. cbn [sec_sector sec_source].
  rewrite from_he_Ok by (rewrite (fs_length n s S0); auto). cbn [bind]. rewrite (nextV_Ok n) by (auto; apply S0). cbn [bind]. rewrite from_he_Ok by (rewrite (fs_length n s S0); exact Hv). cbn [bind].
  destruct f as [|f]; [lia|]. rewrite Em. cbn [bind]. rewrite A by lia. cbn [bind]. apply R. lia.
Qed.

Definition seen_ok (seen : list (sconn K)) : Prop := forall z, In z seen -> sc_valid n z /\ sc_surface z = s.
Lemma increment_draws seen side : seen_ok seen -> exists x, drawn n s h lower seen x /\ exists N, forall f, (N <= f)%nat -> sample_increment f cs pick side seen = Ok x.
Proof.
  intros Seen. destruct picked as (_ & Hh & _ & _). destruct increment_loop as (m & c0 & c1 & y & b & e & Db & De & G0 & G1 & D0 & D1 & Fd & [Le _] & Run).
  destruct (short_finite h Hh) as (F & HF).
  destruct (loop_ends n s h S0 Cl Hh lower L0 b e Db De seen Seen (length (F ++ map (sv n) seen)) (F ++ map (sv n) seen) m c0 c1 y side (le_n _) G0 G1 Fd) as (x & R & D).
  - rewrite D0, D1. intros v g H I. now apply Le.
  - rewrite D0, D1. intros v g H I Bad. apply Le in H; auto. apply in_or_app. destruct (classic_long s h lower v) as [Lv|Nl]; [|left; now apply (HF v g)].
    right. destruct (in_dec pt_dec v (map (sv n) seen)) as [J|J]; auto. exfalso. destruct Bad as [B|B]; [contradiction|]. apply B. intros z Iz _ E. apply J. apply in_map_iff. exists z. auto.
  - exists x. split; [exact D|]. now apply (Run seen side).
Qed.
(** A connection is drawn after finitely many calls. *)
Lemma increment_toward v g : hits s (vv s h) (fF s h) v g -> long lower v ->
  exists A, forall seen, seen_ok seen -> is_new n h seen v -> exists side x, drawn n s h lower seen x /\ In (sv n x) A /\ exists N, forall f, (N <= f)%nat -> sample_increment f cs pick side seen = Ok x.
Proof.
  intros H Lv. destruct picked as (_ & Hh & _ & _). destruct increment_loop as (m & c0 & c1 & y & b & e & Db & De & G0 & G1 & D0 & D1 & Fd & [Le _] & Run).
  destruct (depth_bounded n s S0 (pdot v v)) as (k & Bound).
  assert (I : inside false (vv s h) (vv s (fV s h)) v). { left. pose proof (hits_crosses s _ _ _ _ H) as [H1 H2]. rewrite (across_corner n s S0 Cl h Hh) in H2. auto. }
  destruct (loop_toward n s h S0 Cl Hh lower L0 b e Db De v g Lv k m c0 c1 y G0 G1 Fd) as (A & HA).
  - rewrite D0, D1. intros v' g' H' I'. now apply Le.
  - now apply Le.
  - now rewrite D0, D1.
  - intros l P Ll. now apply (Bound v).
  - exists A. intros seen Seen Nv. destruct (HA seen Seen Nv) as (side & x & R & D & Ix). exists side, x. split; [exact D|]. split; [exact Ix|]. now apply (Run seen side).
Qed.
End pick.

Lemma drawn_sampled h seen x : drawn n s h lower seen x -> (h < n)%nat -> sampled n cs h x.
Proof.
  intros (X & Sx & Hx & H & Lx & _) Hh. pose proof (hits_crosses s _ _ _ _ H) as [H1 _]. split; auto. split; auto. split; auto. split; [split; [now apply Cl|now right]|].
  assert (N : sv n x <> vv s h) by (intros E; rewrite E in H1; unfold pdet in H1; lra). split; auto.
  destruct Lx as [->|L]; auto. apply pdot_pos. intros E. rewrite E in H1. unfold pdet in H1. cbn in H1. lra.
Qed.

Lemma more_samples : forall choices seen, Forall (possible_choice cs) choices -> seen_ok seen ->
  exists l, (exists N, forall f, (N <= f)%nat -> sample_more f cs choices seen = Ok l) /\
    Forall2 (fun c x => exists y, nth_error (cn_sectors cs) (fst c) = Some y /\ sampled n cs (sec_source y) x) choices l /\
    NoDup (map (key n) l) /\ forall x z, In x l -> In z seen -> key n x <> key n z.
Proof.
  induction choices as [|[pick side] choices IH]; intros seen P Seen.
  { exists []. split; [exists 0%nat; reflexivity|]. split; auto. split; [constructor|]. intros x z []. }
  inversion P as [|? ? Hp P']; subst. unfold possible_choice in Hp. cbn [fst] in Hp.
  destruct (increment_draws pick Hp seen side Seen) as (x & D & N1 & E1). destruct (picked pick Hp) as (_ & Hh & Ev & _). pose proof D as (X & Sx & Hx & _ & _ & Nx).
  destruct (IH (x :: seen) P') as (l & (N2 & E2) & F & Nd & Nk). { intros z [<-|I]; auto. }
  exists (x :: l). split; [|split; [|split]].
  - exists (N1 + N2)%nat. intros f Hf. cbn [sample_more]. rewrite E1 by lia. cbn [bind]. rewrite E2 by lia. reflexivity.
  - constructor; auto. eexists. split; [|apply (drawn_sampled _ seen); [exact D|exact Hh]]. apply nth_error_nth'. exact Hp.
  - cbn [map]. constructor; auto. intros J. apply in_map_iff in J. destruct J as (z & Ez & Iz). apply (Nk z x); auto. now left.
  - intros z w [<-|Iz] Iw; [|apply Nk; auto; now right]. unfold key. intros E. apply pair_equal_spec in E. destruct E as [E1' E2']. apply (Nx w Iw); congruence.
Qed.

Lemma reach pick v g : (pick < length (cn_sectors cs))%nat -> let h := sec_source (nth pick (cn_sectors cs) (mkSsector 0 None)) in
  hits s (vv s h) (fF s h) v g -> long lower v ->
  forall A, (forall seen, seen_ok seen -> is_new n h seen v -> exists side x, drawn n s h lower seen x /\ In (sv n x) A /\ exists N, forall f, (N <= f)%nat -> sample_increment f cs pick side seen = Ok x) ->
  forall k B seen, (length B <= k)%nat -> seen_ok seen -> (forall a, In a A -> In a B \/ exists z, In z seen /\ sc_source z = h /\ sv n z = a) ->
  exists choices l N, Forall (possible_choice cs) choices /\ (forall f, (N <= f)%nat -> sample_more f cs choices seen = Ok l) /\ exists x, In x (l ++ seen) /\ sc_source x = h /\ sv n x = v.
Proof.
  intros Hp h H Lv A HA. induction k as [|k IH]; intros B seen Lb Seen Inv.
  all: destruct (in_dec pt_dec v (map (sv n) (filter (fun z => (sc_source z =? h)%nat) seen))) as [J|J];
    [apply in_map_iff in J; destruct J as (z & Ez & Iz); apply filter_In in Iz; destruct Iz as [Iz Hz]; apply Nat.eqb_eq in Hz;
     exists [], [], 0%nat; split; auto; split; [reflexivity|]; exists z; auto|].
  all: assert (Nv : is_new n h seen v) by (intros z Iz Hz Ez; apply J; apply in_map_iff; exists z; split; auto; apply filter_In; split; auto; now apply Nat.eqb_eq).
  all: destruct (HA seen Seen Nv) as (side & x & D & Ix & N1 & E1); pose proof D as (X & Sx & Hx & _ & _ & Nx).
  all: destruct (Inv _ Ix) as [Ib|(z & Iz & Hz & Ez)]; [|exfalso; now apply (Nx z Iz Hz)].
  { destruct B; [destruct Ib|cbn in Lb; lia]. }
  destruct (IH (remove pt_dec (sv n x) B) (x :: seen)) as (choices & l & N2 & P & E2 & y & Iy & Hy & Ey).
  - pose proof (remove_shorter _ _ Ib). lia.
  - intros z [<-|I]; auto.
  - intros a Ia. destruct (pt_dec a (sv n x)) as [->|Na]; [right; exists x; split; [now left|auto]|].
    destruct (Inv a Ia) as [Ja|(z & Iz & Hz)]; [left; now apply in_in_remove|right; exists z; split; auto; now right].
  - exists ((pick, side) :: choices), (x :: l), (N1 + N2)%nat. split; [constructor; auto|]. split.
    + intros f Hf. cbn [sample_more]. rewrite E1 by lia. cbn [bind]. rewrite E2 by lia. reflexivity.
    + exists y. split; auto. apply in_app_or in Iy. cbn [app]. destruct Iy as [Iy|[<-|Iy]]; [right; apply in_or_app; now left|now left|right; apply in_or_app; now right].
Qed.
End sample.

(** For all random choices, sampling ends, and it returns saddle connections in the sectors that were picked that are longer than the lower bound,
    without repetitions. *)
Theorem C78_sample {K : ExactReal} n (cs : conns K) choices : flat_surface n (cn_surface cs) -> closed_surface n (cn_surface cs) -> cn_radius cs = None -> (0 <= cn_lower cs)%Z ->
  whole_sectors n cs -> cn_sectors cs <> [] -> Forall (possible_choice cs) choices ->
  exists l, (exists N, forall f, (N <= f)%nat -> sample f cs choices = Ok l) /\
    Forall2 (fun c x => exists y, nth_error (cn_sectors cs) (fst c) = Some y /\ sampled n cs (sec_source y) x) choices l /\ NoDup (map (key n) l).
Proof.
  intros S0 Cl Rad L0 Ws Ne P. destruct (more_samples n cs S0 Cl Rad L0 Ws choices [] P) as (l & (N & E) & F & Nd & _); [intros z []|].
  exists l. split; auto. exists N. intros f Hf. unfold sample. destruct (cn_sectors cs); [congruence|]. cbn [vget nth_error bind]. now apply E.
Qed.
Print Assumptions C78_sample.

(** Each saddle connection that is longer than the lower bound is returned for some random choices, except for the half edges. *)
Theorem C78_reached {K : ExactReal} n (cs : conns K) x v g : flat_surface n (cn_surface cs) -> closed_surface n (cn_surface cs) -> cn_radius cs = None -> (0 <= cn_lower cs)%Z ->
  whole_sectors n cs -> In x (cn_sectors cs) -> connection (cn_surface cs) (sec_source x) v g -> v <> vv (cn_surface cs) (sec_source x) -> IZR (cn_lower cs) < pdot v v ->
  exists choices l N, Forall (possible_choice cs) choices /\ (forall f, (N <= f)%nat -> sample f cs choices = Ok l) /\ exists y, In y l /\ sc_source y = sec_source x /\ sv n y = v.
Proof.
  intros S0 Cl Rad L0 Ws Ix C Nv Lv. destruct (In_nth _ _ (mkSsector 0 None) Ix) as (pick & Hp & Ep).
  assert (H : hits (cn_surface cs) (vv (cn_surface cs) (sec_source x)) (fF (cn_surface cs) (sec_source x)) v g) by (destruct C as (_ & [[E _]|H]); [contradiction|auto]).
  rewrite <- Ep in H |- *. assert (Ll : long (cn_lower cs) v) by now right.
  destruct (increment_toward n cs S0 Cl Rad L0 Ws pick Hp v g H Ll) as (A & HA).
  destruct (reach n cs pick v g Hp H Ll A HA (length A) A []) as (choices & l & N & P & E & y & Iy & Hy); auto; [intros z []|].
  exists choices, l, N. split; auto. split; [|exists y; rewrite app_nil_r in Iy; auto].
  intros f Hf. unfold sample. destruct (cn_sectors cs) eqn:Es; [destruct Ix|]. cbn [vget nth_error bind]. now apply E.
Qed.
Print Assumptions C78_reached.

(** All sectors of a surface are whole, also with a lower bound. *)
Lemma make_conns_whole {K : ExactReal} n (s : flat K) r : flat_surface n s -> whole_sectors n (cn_lower_bound (make_conns s) r).
Proof.
  intros S0. assert (E : half_edges (fT s) = seq 0 n) by (unfold half_edges; now rewrite (wf_size n _ (fs_wf n s S0))). split.
  - intros x I. change (In x (map (fun h => mkSsector h (@None (vec K * vec K))) (half_edges (fT s)))) in I. rewrite E in I. apply in_map_iff in I. destruct I as (h & <- & I). apply in_seq in I. cbn. split; [lia|reflexivity].
  - change (NoDup (map (@sec_source K) (map (fun h => mkSsector h None) (half_edges (fT s))))). rewrite map_map, E. cbn [sec_source]. rewrite map_id. apply seq_NoDup.
Qed.

Definition some_choices : list (nat * (nat -> bool)) := [(0%nat, fun _ => true); (0%nat, fun _ => true); (0%nat, fun i => Nat.even i); (3%nat, fun _ => false); (0%nat, fun _ => false)].
Definition told (x : sconn ExactZ) : nat * nat * outcome (vec ExactZ) := (sc_source x, sc_target x, sc_vector x).
Example C78_ex : let cs := cn_lower_bound (make_conns torus_s) 9%Z in
  flat_surface 6 torus_s /\ closed_surface 6 torus_s /\ cn_radius cs = None /\ (0 <= cn_lower cs)%Z /\ whole_sectors 6 cs /\ cn_sectors cs <> [] /\ Forall (possible_choice cs) some_choices /\
  (do l <- sample 60 cs some_choices; Ok (map told l)) =
    Ok [(0, 1, Ok (zv 3 2)); (0, 1, Ok (zv 4 3)); (0, 1, Ok (zv 5 3)); (3, 2, Ok (zv 1 (-3))); (0, 1, Ok (zv 3 1))]%nat /\
  connection torus_s 0 (3, 1) 1 /\ (3, 1) <> vv torus_s 0 /\ IZR (cn_lower cs) < pdot (3, 1) (3, 1).
Proof.
  destruct torus_flat as (_ & S & C). cbv zeta. split; auto. split; auto. split; [reflexivity|]. split; [cbn; lia|]. split; [now apply make_conns_whole|]. split; [discriminate|].
  split; [repeat constructor|]. split; [vm_compute; reflexivity|]. split; [split; [vm_compute; discriminate|]; right; connects|].
  split; [intros E; apply (f_equal snd) in E; cbn in E; lra|unfold pdot; cbn; lra].
Qed.

(** The half edges are saddle connections, but they are never returned. *)
Theorem C78_half_edges_refuted : exists (s : flat ExactZ) h v g, flat_surface 6 s /\ closed_surface 6 s /\ connection s h v g /\ IZR (cn_lower (make_conns s)) < pdot v v /\
  forall choices, Forall (possible_choice (make_conns s)) choices -> exists l, (exists N, forall f, (N <= f)%nat -> sample f (make_conns s) choices = Ok l) /\
    forall y, In y l -> ~ (sc_source y = h /\ sv 6 y = v).
Proof.
  destruct torus_flat as (_ & S & C). exists torus_s, 0%nat, (vv torus_s 0), 1%nat. split; auto. split; auto. split; [split; [vm_compute; discriminate|now left]|]. split; [unfold pdot, vv; cbn; lra|].
  intros choices P. destruct (C78_sample 6 (make_conns torus_s) choices S C eq_refl (Z.le_refl 0) (make_conns_whole 6 torus_s 0%Z S) ltac:(discriminate) P) as (l & E & F & _).
  exists l. split; auto. intros y Iy [Hy Ey]. clear - F Iy Hy Ey. induction F as [|c x cs' l' (z & _ & (_ & _ & Hx & _ & Nx & _)) F IH]; [destruct Iy|].
  destruct Iy as [->|Iy]; auto. apply Nx. rewrite <- Hx, Hy. exact Ey.
Qed.
Print Assumptions C78_half_edges_refuted.

(** With an upper bound, nothing is sampled. *)
Theorem C78_bound {K : ExactReal} (cs : conns K) r f c choices : cn_radius cs = Some r -> cn_sectors cs <> [] -> sample f cs (c :: choices) = Throw.
Proof.
  intros R N. unfold sample. destruct (cn_sectors cs) as [|x l]; [congruence|]. cbn [vget nth_error bind]. destruct c as [pick side]. cbn [sample_more]. unfold sample_increment. now rewrite R.
Qed.
Print Assumptions C78_bound.
Example C78_bound_ex : cn_radius (cn_bound (make_conns torus_s) 5%Z) = Some 5%Z /\ cn_sectors (cn_bound (make_conns torus_s) 5%Z) <> [].
Proof. split; [reflexivity|discriminate]. Qed.

(** When there are no sectors, there is no exception, but an access to the first sector. *)
Theorem C78_empty_refuted : exists (s : flat ExactZ) choices, flat_surface 6 s /\ cn_sectors (cn_sector_at (cn_sector_at (make_conns s) 0) 1) = [] /\
  forall f, sample f (cn_sector_at (cn_sector_at (make_conns s) 0) 1) choices = UB.
Proof. exists torus_s, some_choices. split; [apply torus_flat|]. split; reflexivity. Qed.
Print Assumptions C78_empty_refuted.
