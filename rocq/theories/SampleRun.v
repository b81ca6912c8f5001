(** * Sampling saddle connections: the loop of the iterator *)
From Coq Require Import ZArith Reals List Arith Bool Lia Lra Psatz.
From Verif Require Import Base HalfEdge HalfEdgeFacts Perm PermSpec PermFacts IndexedSet Combinatorial CombinatorialSpec
  CombinatorialFacts CombinatorialHistory CombinatorialOps ExactReal Vector PlaneSpec Plane VectorFacts
  FlatTri FlatSpec FlatFacts FlatSum FlatLinear FlatAngle Chain ChainSpec ChainFacts Saddle SaddleSpec SaddleFacts
  Search SearchSpec SearchMoves SearchPlane SearchDepth SearchRun SearchAll PointFacts Translate TranslateRun TranslateMove Sample SampleFacts.
Import ListNotations.
Local Open Scope R_scope.

Lemma pt_dec (v w : pt) : {v = w} + {v <> w}.
Proof.
  destruct v as [a b], w as [c d]. destruct (Req_EM_T a c) as [->|N]; [|right; intros [= E _]; auto].
  destruct (Req_EM_T b d) as [->|N]; [now left|right; intros [= E]; auto].
Qed.
Lemma remove_shorter (w : pt) F : In w F -> (length (remove pt_dec w F) < length F)%nat.
Proof.
  induction F as [|a F IH]; [intros []|]. cbn [remove length]. destruct (pt_dec w a) as [->|N].
  - intros _. apply Nat.lt_succ_r. clear IH. induction F as [|b F IH]; cbn [remove length]; auto. destruct (pt_dec a b); cbn [length]; lia.
  - intros [E|I]; [congruence|]. specialize (IH I). cbn [length]. lia.
Qed.

Section run.
Context {K : ExactReal} (n : nat) (s : flat K) (h : nat).
Hypothesis S0 : flat_surface n s.
Hypothesis Cl : closed_surface n s.
Hypothesis Hh : (h < n)%nat.
Variable lower : bound.
Hypothesis L0 : (0 <= lower)%Z.
Let W := fs_wf n s S0.
Let x0 : ssector K := mkSsector h None.
Let cs : conns K := mkConns s [x0] None 0%Z.
Let top : pt * nat := (vv s h, fF s h).
Local Notation cv := (cvector n s).
Local Notation found_at := (found_at n cs x0 []).
Variables outerBegin outerEnd : vec K.
Hypothesis Begin : vden outerBegin = vv s h.
Hypothesis End : vden outerEnd = vv s (fV s h).

(** The search starts. *)
Lemma sample_starts : exists m m' c0 c1 y, (forall k, search_begin cs (S k) = Ok m) /\ arrives cs m m' /\ length c0 = (n / 2)%nat /\ length c1 = (n / 2)%nat /\
  cv c0 = vv s h /\ cv c1 = vv s (fV s h) /\ found_at m' c0 c1 y /\ leads n cs (vv s h) (vv s (fV s h)) top y.
Proof.
  set (u := vv s h). set (q := vv s (fV s h)). set (z := vv s (fF s h)).
  assert (Hf : (fF s h < n)%nat) by now apply (fF_lt n). assert (Nb := Cl h Hh).
  destruct (zc_half_edge_Ok n s S0 h Hh) as (c0 & Ec0 & Lc0 & Dc0).
  destruct (zc_add_he_Ok n s S0 c0 (fF s h) Lc0 Hf) as (c1 & Ec1 & Lc1 & Dc1 & _). rewrite Dc0 in Dc1. fold u z in Dc0, Dc1.
  assert (Eq := across_corner n s S0 Cl h Hh). fold u z q in Eq. rewrite Eq in Dc1.
  assert (Duq : 0 < pdet u q) by now apply (corner_det n).
  assert (Hu : 0 < pdet u z) by (replace (pdet u z) with (pdet u (padd u z)) by (unfold pdet, padd; cbn; ring); rewrite Eq; auto).
  assert (Nu : u <> (0, 0)) by (apply (pdet_nonzero_l _ z); lra).
  assert (Ev : from_he s h = Ok (vat' s h)) by (apply from_he_Ok; rewrite (fs_length n s S0); auto).
  set (m1 := mkIter [x0] (BChain c0) (BChain c1) (fF s h) c1 [START None None; Search.END] [] []).
  assert (N : node_ok s false u (fF s h) (cv c0) (cv c1)).
  { unfold node_ok. rewrite Dc0, Dc1. fold z. rewrite Eq. assert (Zu : pdet u u = 0) by (unfold pdet; ring). assert (Zq : pdet q q = 0) by (unfold pdet; ring).
    assert (Nq : q <> (0, 0)) by (apply (pdet_nonzero_r u); lra). repeat apply conj; auto; try lra; discriminate. }
  assert (C : conf n cs x0 [] m1 (BChain c0) (BChain c1) top [START None None; Search.END] []).
  { apply settled_conf. exists c1. split; [reflexivity|]. split; auto. split; auto. change (cv c1 = padd u z). congruence. }
  destruct (finds n cs S0 Cl eq_refl eq_refl x0 [] c0 c1 top m1 None None [Search.END] []) as (m' & y & A & F & L); auto; try discriminate; [change (0 < pdet (cv c0) (cv c1)); rewrite Dc0, Dc1; auto|].
  exists m1, m', c0, c1, y. change (leads n cs (cv c0) (cv c1) top y) in L. rewrite Dc0, Dc1 in L. split; [|auto 10].
  intros k. unfold search_begin, cs. cbn [cn_sectors prepare it_sectors sec_source x0 cn_surface]. rewrite (bdry_Ok n) by auto. cbn [bind]. fold (fF s h).
  rewrite (proj2 (Nat.eqb_neq (fF s h) h) Nb). unfold prepared, x0. cbn [sec_source cn_surface]. rewrite Ec0. cbn [bind]. rewrite (next_Ok n) by auto. cbn [bind]. fold (fF s h). rewrite Ec1. cbn [bind]. rewrite Ev. cbn [bind].
  unfold sec_contains. cbn [sec_source sec_sector]. rewrite Nat.eqb_refl. cbn [negb bind cn_radius cn_lower].
  assert (V : vgtb (vat' s h) 0%Z = true). { apply vgtb_spec; [lia|]. change (vden (vat' s h)) with u. now apply pdot_pos. }
  rewrite V. reflexivity.
Qed.

(** Long enough. *)
Definition long (v : pt) : Prop := lower = 0%Z \/ IZR lower < pdot v v.
Lemma classic_long v : {long v} + {~ long v}.
Proof. unfold long. destruct (Z.eq_dec lower 0) as [E|N]; [left; now left|]. destruct (Rlt_dec (IZR lower) (pdot v v)); [left; now right|right; tauto]. Qed.
Lemma exceeds_spec (v : vec K) : exceeds v lower = true <-> long (vden v).
Proof. unfold exceeds, long. destruct (Z.eqb_spec lower 0) as [E|N]; [tauto|]. rewrite vgtb_spec by auto. tauto. Qed.

Section seen.
Variable seen : list (sconn K).
Hypothesis Seen : forall y, In y seen -> sc_valid n y /\ sc_surface y = s.
Definition is_new (v : pt) : Prop := forall y, In y seen -> sc_source y = h -> sv n y <> v.

Lemma was_seen_spec x : sc_valid n x -> sc_surface x = s -> sc_source x = h -> exists b, was_seen x seen = Ok b /\ (b = false <-> is_new (sv n x)).
Proof.
  intros X Sx Hx. assert (Ref : flat_eqb s s = Ok true). { destruct (flat_eqb_spec n n s s S0 S0) as (b' & -> & B'). f_equal. apply B'. auto. }
  unfold is_new. revert Seen. induction seen as [|y l IH]; intros Sn; [exists false; split; [reflexivity|]; split; auto; intros _ y []|].
  destruct (Sn y (or_introl eq_refl)) as [Y Sy]. destruct (sc_eqb_spec n n x y X Y) as (b & Eb & B). cbn [was_seen]. rewrite Eb. cbn [bind]. rewrite Sx, Sy, Hx in B. destruct b.
  - exists true. split; auto. split; [discriminate|]. intros N. exfalso. destruct (proj1 B eq_refl) as (_ & E1 & E2). apply (N y (or_introl eq_refl)); auto.
  - destruct (IH (fun z I => Sn z (or_intror I))) as (b & E & Hb). exists b. split; auto. rewrite Hb. split; intros N z I Hz; [|apply N; auto; now right].
    destruct I as [<-|I]; [|now apply N]. intros E'. assert (false = true); [|discriminate]. apply B. split; auto.
Qed.

(** What is returned. *)
Definition drawn (x : sconn K) : Prop :=
  sc_valid n x /\ sc_surface x = s /\ sc_source x = h /\ hits s (vv s h) (fF s h) (sv n x) (sc_target x) /\ long (sv n x) /\ is_new (sv n x).
Definition returns (side : nat -> bool) (m : iter K) (x : sconn K) : Prop :=
  exists N, forall k, (N <= k)%nat -> sample_loop k cs outerBegin outerEnd lower seen side m = Ok x.

(** One pass of the loop. *)
Section pass.
Variables (m : iter K) (c0 c1 : zchain) (y : pt * nat).
Hypothesis G0 : length c0 = (n / 2)%nat.
Hypothesis G1 : length c1 = (n / 2)%nat.
Hypothesis F : found_at m c0 c1 y.
Hypothesis Sub : forall v g, hits s (fst y) (snd y) v g -> inside false (cv c0) (cv c1) v -> hits s (vv s h) (fF s h) v g.
Let w := apex cs y.

Lemma pass_inside : hits s (fst y) (snd y) w (fF s (fF s (neg (snd y)))) /\ inside false (cv c0) (cv c1) w /\ (snd y < n)%nat /\
  (forall v t, (hits s (fst y) (snd y) v t /\ inside false (cv c0) (cv c1) v <-> (v = w /\ t = fF s (fF s (neg (snd y)))) \/
     (hits s (fst (child s false y)) (snd (child s false y)) v t /\ inside false (cv c0) w v) \/ (hits s (fst (child s true y)) (snd (child s true y)) v t /\ inside false w (cv c1) v))).
Proof.
  destruct F as (c & f & e & st & tmp & _ & Lc & Dc & Cf & Ce & Hy & N & D0 & D1). assert (Hn : (neg (snd y) < n)%nat) by now apply (neg_ltn n (fT s) W). assert (Nb := Cl _ Hn).
  destruct (step_found n s S0 false (fst y) (snd y) (cv c0) (cv c1) Hy Nb N D0 D1) as (N1 & N2 & _ & _ & Iw & Eq).
  destruct (proj2 (Eq _ _) (or_introl (conj eq_refl eq_refl))) as [Hw _]. auto.
Qed.
(** Either the connection is returned, or it is skipped. *)
Lemma pass : exists x, sc_valid n x /\ sc_surface x = s /\ sc_source x = h /\ sc_target x = fF s (fF s (neg (snd y))) /\ sv n x = w /\
  ((long w /\ is_new w /\ forall side, returns side m x) \/
   ((~ long w \/ ~ is_new w) /\ forall (side : nat -> bool) m1 m' z, skip_sector (if side 0%nat then CLOCKWISE else COUNTERCLOCKWISE) m = Ok m1 -> arrives cs m1 m' -> returns (fun i => side (S i)) m' z -> returns side m z)).
Proof.
  destruct pass_inside as (Hw & Iw & Hy & _). assert (F' := F). destruct F' as (c & f & e & st & tmp & E & Lc & Dc & _).
  set (x := mkSconn s h (fF s (fF s (neg (snd y)))) c). assert (Hn : (neg (snd y) < n)%nat) by now apply (neg_ltn n (fT s) W). assert (Nb := Cl _ Hn).
  assert (Ex : sdereference cs m = Ok x). { rewrite E. apply (vertex_found n cs S0 x0 [] y (BChain c0) (BChain c1) Hy Nb c f e st tmp). }
  assert (X : sc_valid n x). { split; auto. split; auto. split; auto. apply (lt_b n cs S0 y Hy). }
  destruct (sc_vector_Ok n x X) as (v & Ev & Dv). change (cv c = w) in Dc. change (sv n x) with (cv c) in Dv. rewrite Dc in Dv.
  assert (Sx : sv n x = w) by exact Dc. destruct (was_seen_spec x X eq_refl eq_refl) as (b & Eb & Hb). rewrite Sx in Hb.
  exists x. split; auto. split; auto. split; auto. split; auto. split; auto.
  assert (Ee : eligible x v lower seen = Ok (exceeds v lower && negb b)). { unfold eligible. rewrite Eb. destruct (exceeds v lower); reflexivity. }
  pose proof (exceeds_spec v) as Hl. rewrite Dv in Hl.
  destruct (exceeds v lower && negb b) eqn:El.
  - left. apply andb_prop in El. destruct El as [E1 E2]. apply negb_true_iff in E2. split; [now apply Hl|]. split; [now apply Hb|]. intros side. exists 1%nat. intros [|k] Lk; [lia|]. cbn [sample_loop]. rewrite Ex. cbn [bind]. rewrite Ev. cbn [bind]. rewrite Ee. reflexivity.
  - right. split.
    { destruct (exceeds v lower) eqn:E1; [right|left; intros Q; apply Hl in Q; congruence]. cbn [andb] in El. apply negb_false_iff in El. intros Q. apply Hb in Q. congruence. }
    assert (Sk : forall a, skipped_side v outerBegin outerEnd a = if a then CLOCKWISE else COUNTERCLOCKWISE).
    { intros a. pose proof (hits_crosses s _ _ _ _ (Sub w _ Hw Iw)) as [H1 H2]. rewrite (across_corner n s S0 Cl h Hh) in H2. unfold skipped_side.
      destruct (veqb v outerBegin) eqn:V1. { exfalso. apply veqb_spec in V1. rewrite Dv, Begin in V1. rewrite V1 in H1. unfold pdet in H1. lra. }
      destruct (veqb v outerEnd) eqn:V2; auto. exfalso. apply veqb_spec in V2. rewrite Dv, End in V2. rewrite V2 in H2. unfold pdet in H2. lra. }
    intros side m1 m' z Es [N1 A] [N2 R]. exists (S (N1 + N2)). intros [|k] Lk; [lia|]. cbn [sample_loop]. rewrite Ex. cbn [bind]. rewrite Ev. cbn [bind]. rewrite Ee. cbn [bind]. rewrite Sk, Es. cbn [bind]. rewrite A by lia. cbn [bind]. apply R. lia.
Qed.
(** The two sides. *)
Lemma pass_side (b : bool) : exists m1 m' c0' c1' y', skip_sector (if b then CLOCKWISE else COUNTERCLOCKWISE) m = Ok m1 /\ arrives cs m1 m' /\
  length c0' = (n / 2)%nat /\ length c1' = (n / 2)%nat /\ found_at m' c0' c1' y' /\
  (cv c0' = if b then w else cv c0) /\ (cv c1' = if b then cv c1 else w) /\ leads n cs (cv c0') (cv c1') (child s b y) y' /\
  (forall v g, hits s (fst y') (snd y') v g -> inside false (cv c0') (cv c1') v -> v <> w /\ hits s (fst y) (snd y) v g /\ inside false (cv c0) (cv c1) v).
Proof.
  destruct pass_inside as (Hw & Iw & Hy & Eq). destruct b.
  - destruct (at_left n cs S0 Cl eq_refl eq_refl x0 [] m c0 c1 y G1 F) as (m1 & m' & c & y' & A1 & A2 & A3 & A4 & A5 & A6); auto.
    exists m1, m', c, c1, y'. change (cv c = w) in A4. rewrite A4. split; auto. do 5 (split; auto). split; auto. split; auto.
    intros v g H I. apply (proj1 A6 v g I) in H. split; [intros ->; destruct I as [[I _]|[Q _]]; [unfold pdet in I; lra|discriminate]|]. apply (Eq v g). auto.
  - destruct (at_right n cs S0 Cl eq_refl eq_refl x0 [] m c0 c1 y G0 F) as (m1 & m' & c & y' & A1 & A2 & A3 & A4 & A5 & A6); auto.
    exists m1, m', c0, c, y'. change (cv c = w) in A4. rewrite A4. split; auto. do 5 (split; auto). split; auto. split; auto.
    intros v g H I. apply (proj1 A6 v g I) in H. split; [intros ->; destruct I as [[_ I]|[Q _]]; [unfold pdet in I; lra|discriminate]|]. apply (Eq v g). auto.
Qed.
End pass.

(** The loop ends, whatever is drawn. *)
Lemma loop_ends : forall L F m c0 c1 y side, (length F <= L)%nat -> length c0 = (n / 2)%nat -> length c1 = (n / 2)%nat -> found_at m c0 c1 y ->
  (forall v g, hits s (fst y) (snd y) v g -> inside false (cv c0) (cv c1) v -> hits s (vv s h) (fF s h) v g) ->
  (forall v g, hits s (fst y) (snd y) v g -> inside false (cv c0) (cv c1) v -> ~ long v \/ ~ is_new v -> In v F) ->
  exists x, returns side m x /\ drawn x.
Proof.
  induction L as [|L IH]; intros F m c0 c1 y side LF G0 G1 Fd Sub Bad;
    destruct (pass m c0 c1 y G0 G1 Fd Sub) as (x & X & Sx & Hx & Tx & Ex & [(Lx & Nx & R)|(B & R)]); destruct (pass_inside m c0 c1 y Fd) as (Hw & Iw & Hy & _).
  1, 3: exists x; split; auto; split; auto; split; auto; split; auto; rewrite Tx, Ex; split; auto; apply Sub; auto.
  { pose proof (Bad _ _ Hw Iw B) as I. destruct F; [destruct I|cbn in LF; lia]. }
  pose proof (Bad _ _ Hw Iw B) as Iin. destruct (pass_side m c0 c1 y G0 G1 Fd (side 0%nat)) as (m1 & m' & c0' & c1' & y' & Es & A & G0' & G1' & Fd' & _ & _ & _ & Sub').
  destruct (IH (remove pt_dec (apex cs y) F) m' c0' c1' y' (fun i => side (S i))) as (z & Rz & Dz); auto.
  - pose proof (remove_shorter _ _ Iin). lia.
  - intros v g H I. destruct (Sub' v g H I) as (_ & H' & I'). now apply Sub.
  - intros v g H I Bv. destruct (Sub' v g H I) as (Nv & H' & I'). apply in_in_remove; auto. now apply (Bad v g).
  - exists z. split; auto. apply (R side m1 m' z); auto.
Qed.
End seen.

Lemma path_join v : forall l x l', path_ok n s v x l -> path_ok n s v (walk s x l) l' -> path_ok n s v x (l ++ l').
Proof.
  induction l as [|b l IH]; intros x l' P Q; cbn [app]; [exact Q|]. destruct P as (C & Nb & P). split; auto.
Qed.
(** A connection that is not too short is drawn after some others. *)
Lemma loop_toward v g : long v -> forall k m c0 c1 y, length c0 = (n / 2)%nat -> length c1 = (n / 2)%nat -> found_at m c0 c1 y ->
  (forall v g, hits s (fst y) (snd y) v g -> inside false (cv c0) (cv c1) v -> hits s (vv s h) (fF s h) v g) ->
  hits s (fst y) (snd y) v g -> inside false (cv c0) (cv c1) v ->
  (forall l, path_ok n s v y l -> (k <= length l)%nat -> let z := walk s y l in forall t, 0 <= t <= 1 -> pdot v v < pdot (padd (fst z) (pscale t (vv s (snd z)))) (padd (fst z) (pscale t (vv s (snd z))))) ->
  exists A, forall seen, (forall z, In z seen -> sc_valid n z /\ sc_surface z = s) -> is_new seen v ->
    exists side x, returns seen side m x /\ drawn seen x /\ In (sv n x) A.
Proof.
  intros Lv. induction k as [|k IH]; intros m c0 c1 y G0 G1 Fd Sub H I Deep; destruct (pass_inside m c0 c1 y Fd) as (Hw & Iw & Hy & Eq).
  all: assert (Cy : crossing n s v y).
  1, 3: destruct Fd as (c & f & e & st & tmp & _ & _ & _ & _ & _ & _ & N & _); pose proof (inside_cone s false (fst y) (snd y) _ _ v N I) as [X1 X2];
    split; auto; split; [apply N|]; split; [lra|]; split; [lra|]; intros ->; unfold pdet in X1; cbn in X1; lra.
  { exfalso. pose proof (outside_hits n s S0 _ _ _ _ (pdot v v) H Hy (proj1 (proj2 Cy)) (Deep [] (conj Cy Logic.I) (le_n 0))). lra. }
  set (w := apex cs y) in *.
  assert (Now : forall seen, (forall z, In z seen -> sc_valid n z /\ sc_surface z = s) -> forall x, sc_valid n x -> sc_surface x = s -> sc_source x = h -> sc_target x = fF s (fF s (neg (snd y))) -> sv n x = w -> long w -> is_new seen w -> drawn seen x).
  { intros seen Seen x X Sx Hx Tx Ex Lx Nx. split; auto. split; auto. split; auto. rewrite Tx, Ex. split; auto. }
  destruct (pt_dec v w) as [E|NE].
  - exists [w]. intros seen Seen Nv. destruct (pass seen Seen m c0 c1 y G0 G1 Fd Sub) as (x & X & Sx & Hx & Tx & Ex & [(Lx & Nx & R)|(B & _)]); [|rewrite E in Lv, Nv; exfalso; tauto].
    exists (fun _ => true), x. split; auto. split; [apply Now; auto|]. rewrite Ex. now left.
  - assert (Sd : exists b : bool, hits s (fst (child s b y)) (snd (child s b y)) v g /\ inside false (if b then w else cv c0) (if b then cv c1 else w) v).
    { destruct (proj1 (Eq v g) (conj H I)) as [[E _]|[[H' I']|[H' I']]]; [contradiction|exists false; auto|exists true; auto]. }
    destruct Sd as (b & Hb & Ib). destruct (pass_side m c0 c1 y G0 G1 Fd b) as (m1 & m' & c0' & c1' & y' & Es & A & G0' & G1' & Fd' & E0' & E1' & [Le Lp] & Sub').
    fold w in E0', E1'. rewrite <- E0', <- E1' in Ib. destruct (Lp v Ib) as (l1 & P1 & Ey).
    assert (Nb : fF s (neg (snd y)) <> neg (snd y)) by (apply Cl; now apply (neg_ltn n (fT s) W)).
    destruct (IH m' c0' c1' y' G0' G1' Fd') as (L & HL); auto.
    + intros v' g' H' I'. destruct (Sub' v' g' H' I') as (_ & X & Y). now apply Sub.
    + now apply Le.
    + intros l P Ll. rewrite Ey in P |- *. specialize (Deep (b :: l1 ++ l)). unfold walk in *. cbn [fold_left] in Deep. rewrite fold_left_app in Deep. apply Deep.
      * split; auto. split; auto. apply path_join; auto.
      * cbn [length]. rewrite app_length. lia.
    + exists (w :: L). intros seen Seen Nv. destruct (pass seen Seen m c0 c1 y G0 G1 Fd Sub) as (x & X & Sx & Hx & Tx & Ex & [(Lx & Nx & R)|(B & R)]).
      * exists (fun _ => true), x. split; auto. split; [apply Now; auto|]. rewrite Ex. now left.
      * destruct (HL seen Seen Nv) as (side & z & Rz & Dz & Iz). exists (fun i => match i with O => b | S i => side i end), z.
        split; [|split; auto; now right]. apply (R (fun i => match i with O => b | S i => side i end) m1 m' z); auto.
Qed.
End run.
