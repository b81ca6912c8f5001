(** * Hashes of points *)
From Coq Require Import ZArith Reals List Arith Bool Lia Lra Psatz Relations.
From Verif Require Import Base HalfEdge HalfEdgeFacts Perm PermSpec PermFacts PermCycles PermLemmas
  IndexedSet IndexedSetSpec IndexedSetFacts Combinatorial CombinatorialSpec CombinatorialFacts CombinatorialFlip
  CombinatorialHistory CombinatorialOps ExactReal Vector PlaneSpec Plane VectorFacts FlatTri FlatSpec FlatFacts FlatDelaunay
  Point PointSpec PointFacts PointOps PointEq.
Import ListNotations.
Local Open Scope nat_scope.

Section points.
Context {K : ExactReal}.
Variables (n : nat) (s : flat K).
Hypothesis S0 : flat_surface n s.
Hypothesis Cl : closed_surface n s.
Implicit Types (p q : point K) (h f : nat).
Let W : well_formed n (fT s) := fs_wf n s S0.
Notation F := (fF s).
Notation sp := (same_point n s).
Local Notation F_lt := (F_lt n s S0).
Local Notation FFF := (FFF n s S0).
Local Notation neg_lt := (neg_lt n s S0).
Local Notation F_ne := (F_ne n s Cl).
Local Notation FF_ne := (FF_ne n s S0 Cl).
Local Notation FF_F := (FF_F n s S0 Cl).
Local Notation F_neg := (F_neg n s S0 Cl).
Local Notation next_ok := (next_ok n s S0).
Local Notation prev_ok := (prev_ok n s S0).
Local Notation face_ok := (face_ok n s S0).
Local Notation source_ok := (source_ok n s S0).
Local Notation spread := (spread s).
Local Notation alike := (alike n s).
Local Notation touches := (touches s).
Variable H0 : hashing.
Variable quot : K -> K -> hash_size H0.
Hypothesis R : depends_on_ratio quot.
Local Notation hash := (point_hash H0 quot s).

Lemma rmax_den (x y : K) : den (rmax x y) = Rmax (den x) (den y).
Proof.
  unfold rmax. destruct (rltb_reflect x y) as [E|E].
  - rewrite Rmax_right; lra.
  - rewrite Rmax_left; lra.
Qed.
Definition max3 (a b c : K) : K := rmax (rmax a b) c.
Lemma max3_den (a b c : K) : den (max3 a b c) = Rmax (Rmax (den a) (den b)) (den c).
Proof. unfold max3. now rewrite !rmax_den. Qed.
Lemma is_max (a b c x : K) : (x =? max3 a b c)%X = true -> den x = Rmax (Rmax (den a) (den b)) (den c).
Proof. rewrite reqb_spec, max3_den. auto. Qed.

Lemma min3_rot x y z : min3 y z x = min3 x y z.
Proof.
  unfold min3. destruct (Nat.ltb_spec y x), (Nat.ltb_spec z y); try (destruct (Nat.ltb_spec z x)); try (destruct (Nat.ltb_spec x z)); try (destruct (Nat.ltb_spec x y)); lia.
Qed.

(** The hash of an interior point. *)
Definition hash_inner h (a b c : K) : hash_size H0 :=
  let m := max3 a b c in
  if (a =? m)%X && (b =? m)%X && (c =? m)%X then combine_he H0 (min3 h (F h) (F (F h))) (F (min3 h (F h) (F (F h))))
  else if (a =? m)%X && (b =? m)%X then combine1 H0 h (quot c m)
  else if (a =? m)%X && (c =? m)%X then combine1 H0 (F (F h)) (quot b m)
  else if (b =? m)%X && (c =? m)%X then combine1 H0 (F h) (quot a m)
  else if (a =? m)%X then combine2 H0 h (quot b m) (quot c m)
  else if (b =? m)%X then combine2 H0 (F h) (quot c m) (quot a m)
  else combine2 H0 (F (F h)) (quot a m) (quot b m).

Lemma min3_lt x y z : x < n -> y < n -> z < n -> min3 x y z < n.
Proof. intros. unfold min3. destruct (y <? x); [destruct (z <? y)|destruct (z <? x)]; auto. Qed.

Lemma coordinates_self p : normal n p -> coordinates s p (pface p) = Ok (pa p, pb p, pc p).
Proof.
  intros N. pose proof N as (H & _). unfold coordinates. destruct (in_ok n s S0 Cl p (pface p) N H) as (b & E & Q). rewrite E. cbn [bind].
  assert (b = true) as -> by (apply Q; unfold PointOps.touches; auto). cbn [negb]. rewrite face_ok by auto. cbn [bind].
  assert (X : existsb (Nat.eqb (pface p)) [pface p; F (pface p); F (F (pface p))] = true) by (apply existsb_face; auto). rewrite X. apply rotated_0.
Qed.

Lemma max_cases (a b c : K) : (a =? max3 a b c)%X = false -> (b =? max3 a b c)%X = false -> (c =? max3 a b c)%X = true.
Proof.
  intros A B. apply not_true_iff_false in A, B. rewrite reqb_spec in A, B. apply reqb_spec. rewrite max3_den in *.
  unfold Rmax in *. destruct (Rle_dec (den a) (den b)); [destruct (Rle_dec (den b) (den c))|destruct (Rle_dec (den a) (den c))]; congruence.
Qed.

Lemma hash_cases p : normal n p ->
  (den (pb p) = 0%R /\ den (pc p) = 0%R /\ hash p = Ok (hash_half_edge H0 (vrep s (pface p)))) \/
  ((0 < den (pb p))%R /\ den (pc p) = 0%R /\
    hash p = Ok (combine_edge H0 (edge_of (pface p)) (if (pa p =? max3 (pa p) (pb p) (pc p))%X then quot (pb p) (pa p) else quot (pa p) (pb p)))) \/
  ((0 < den (pb p))%R /\ (0 < den (pc p))%R /\ hash p = Ok (hash_inner (pface p) (pa p) (pb p) (pc p))).
Proof.
  intros N. pose proof N as (H & A & B & C & D). unfold point_hash.
  destruct (vertex_cases n s S0 p N) as [(Eb & Ec & v & Ev & V)|(Pb & Ev)]; rewrite Ev; cbn [bind].
  - left. rewrite (vrep_source n s _ _ H V). auto.
  - right. rewrite coordinates_self by auto. cbn [bind]. unfold point_edge. destruct (nz (pc p)) eqn:Ec.
    + apply nz_spec in Ec. right. split; auto. split; [lra|]. unfold face. rewrite next_ok, prev_ok by auto. cbn [bind].
      unfold hash_inner. fold (max3 (pa p) (pb p) (pc p)).
      pose proof (max_cases (pa p) (pb p) (pc p)) as M.
      destruct (pa p =? max3 (pa p) (pb p) (pc p))%X, (pb p =? max3 (pa p) (pb p) (pc p))%X; [| | |rewrite (M eq_refl eq_refl)];
        try destruct (pc p =? max3 (pa p) (pb p) (pc p))%X; cbn [andb]; try reflexivity.
      rewrite next_ok by (apply min3_lt; auto using F_lt). reflexivity.
    + apply nz_false in Ec. left. auto.
Qed.

Lemma max_pos (a b c : K) : (0 < den a -> 0 <= den b -> 0 <= den c -> 0 < den (max3 a b c) /\ den a <= den (max3 a b c) /\ den b <= den (max3 a b c) /\ den c <= den (max3 a b c))%R.
Proof.
  intros. rewrite max3_den. unfold Rmax. destruct (Rle_dec (den a) (den b)); [destruct (Rle_dec (den b) (den c))|destruct (Rle_dec (den a) (den c))]; lra.
Qed.

Lemma eqb_ext (x y x' y' : K) : (den x = den y <-> den x' = den y') -> (x =? y)%X = (x' =? y')%X.
Proof. intros E. apply Bool.eq_true_iff_eq. now rewrite !reqb_spec. Qed.

(** Turning the face. *)
Lemma hash_rot h a b c : h < n -> (0 < den a)%R -> (0 < den b)%R -> (0 < den c)%R -> hash_inner (F h) b c a = hash_inner h a b c.
Proof.
  intros H A B C. unfold hash_inner. rewrite !FFF by auto.
  replace (min3 (F h) (F (F h)) h) with (min3 h (F h) (F (F h))) by (symmetry; apply min3_rot).
  assert (M : den (max3 b c a) = den (max3 a b c)).
  { rewrite !max3_den. now rewrite Rmax_comm, Rmax_assoc. }
  destruct (max_pos a b c) as (M0 & Ma & Mb & Mc); try lra.
  rewrite (eqb_ext a (max3 b c a) a (max3 a b c)), (eqb_ext b (max3 b c a) b (max3 a b c)), (eqb_ext c (max3 b c a) c (max3 a b c)) by now rewrite M.
  assert (Qa : quot a (max3 b c a) = quot a (max3 a b c)) by (apply R; rewrite ?M; lra).
  assert (Qb : quot b (max3 b c a) = quot b (max3 a b c)) by (apply R; rewrite ?M; lra).
  assert (Qc : quot c (max3 b c a) = quot c (max3 a b c)) by (apply R; rewrite ?M; lra).
  rewrite Qa, Qb, Qc. pose proof (max_cases a b c) as X.
  destruct (a =? max3 a b c)%X, (b =? max3 a b c)%X, (c =? max3 a b c)%X; cbn [andb]; try reflexivity.
  discriminate X; auto.
Qed.
Lemma hash_scale h a b c a' b' c' r : (0 < den a)%R -> (0 < den b)%R -> (0 <= den c)%R -> (0 < r)%R ->
  den a' = (r * den a)%R -> den b' = (r * den b)%R -> den c' = (r * den c)%R -> hash_inner h a' b' c' = hash_inner h a b c.
Proof.
  intros A B C Hr Ea Eb Ec. unfold hash_inner.
  assert (M : den (max3 a' b' c') = (r * den (max3 a b c))%R).
  { rewrite !max3_den, Ea, Eb, Ec. rewrite <- !RmaxRmult by lra. reflexivity. }
  destruct (max_pos a b c) as (M0 & Ma & Mb & Mc); try lra.
  assert (L : forall x x', den x' = (r * den x)%R -> (x' =? max3 a' b' c')%X = (x =? max3 a b c)%X).
  { intros x x' E. apply eqb_ext. rewrite E, M. split; intros Y; [now apply Rmult_eq_reg_l in Y; [|lra]|now rewrite Y]. }
  rewrite (L a a' Ea), (L b b' Eb), (L c c' Ec).
  assert (Q : forall x x', den x' = (r * den x)%R -> (0 <= den x <= den (max3 a b c))%R -> quot x' (max3 a' b' c') = quot x (max3 a b c)).
  { intros x x' E [X1 X2]. apply R; rewrite ?E, ?M; try nra. }
  rewrite (Q a a' Ea), (Q b b' Eb), (Q c c' Ec) by lra. reflexivity.
Qed.

Lemma proportional a b c a' b' c' : (0 < a + b + c -> 0 < a' + b' + c' ->
  (a + b + c) * a' = (a' + b' + c') * a -> (a + b + c) * b' = (a' + b' + c') * b -> (a + b + c) * c' = (a' + b' + c') * c ->
  exists r, 0 < r /\ a' = r * a /\ b' = r * b /\ c' = r * c)%R.
Proof.
  intros T T' A B C. exists ((a' + b' + c') / (a + b + c))%R. split; [now apply Rdiv_lt_0_compat|].
  repeat split; apply (Rmult_eq_reg_l (a + b + c)); try lra; field_simplify; lra.
Qed.

Lemma kinds p : normal n p -> kind (location p) = (if Req_EM_T (den (pb p)) 0 then 1 else if Req_EM_T (den (pc p)) 0 then 2 else 3).
Proof.
  intros (H & A & B & C & D). unfold kind, location. assert (Za : zero (den (pa p)) = false) by (apply zero_false; lra). rewrite Za.
  unfold zero. destruct (Req_EM_T (den (pb p)) 0), (Req_EM_T (den (pc p)) 0); auto. lra.
Qed.

Lemma hash_ok p q : normal n p -> normal n q -> sp (location p) (location q) -> exists x, hash p = Ok x /\ hash q = Ok x.
Proof.
  intros N N' X. pose proof N as (H & A & B & C & D). pose proof N' as (H' & A' & B' & C' & D').
  assert (L := alike_same n s S0 Cl _ _ X). pose proof L as [Kd Sp]. rewrite !kinds in Kd by auto.
  assert (T : touches q (pface p)).
  { apply (touches_iff n s S0 Cl); auto. exists (den (pa p), den (pb p), den (pc p)). split; [apply (normal_weights n p N)|exact X]. }
  destruct (hash_cases p N) as [(Eb & Ec & E)|[(Pb & Ec & E)|(Pb & Pc & E)]];
  destruct (hash_cases q N') as [(Eb' & Ec' & E')|[(Pb' & Ec' & E')|(Pb' & Pc' & E')]];
  try (exfalso; repeat match type of Kd with context [Req_EM_T ?x ?y] => destruct (Req_EM_T x y); try lra end; discriminate);
  rewrite E, E'.
  - eexists. split; [reflexivity|]. do 2 f_equal. specialize (Sp _ H). unfold location, PointFacts.spread in Sp.
    assert (Za : zero (den (pa p)) = false) by (apply zero_false; lra). assert (Za' : zero (den (pa q)) = false) by (apply zero_false; lra).
    assert (Z : zero 0 = true) by now apply zero_true. rewrite Za, Za', Eb, Ec, Eb', Ec', Z, Nat.eqb_refl in Sp.
    destruct (Nat.eqb_spec (vrep s (pface p)) (vrep s (pface q))) as [Y|Y]; [now symmetry|lra].
  - eexists. split; [reflexivity|]. f_equal.
    assert (HH : (pface q = pface p /\ (den (pa p) * den (pb q) = den (pa q) * den (pb p))%R) \/ (pface q = neg (pface p) /\ (den (pa p) * den (pa q) = den (pb q) * den (pb p))%R)).
    { pose proof (Sp _ H) as S1. pose proof (Sp _ (neg_lt _ H)) as S2. unfold location, PointFacts.spread in S1, S2.
      assert (Za : zero (den (pa p)) = false) by (apply zero_false; lra). assert (Za' : zero (den (pa q)) = false) by (apply zero_false; lra).
      assert (Zb : zero (den (pb p)) = false) by (apply zero_false; lra). assert (Zb' : zero (den (pb q)) = false) by (apply zero_false; lra).
      assert (Z : zero 0 = true) by now apply zero_true. rewrite Za, Za', Zb, Zb', Ec, Ec', Z, Nat.eqb_refl in S1, S2.
      pose proof (neg_ne (pface p)) as NN. destruct (Nat.eqb_spec (neg (pface p)) (pface p)); [congruence|].
      assert (P1 : (0 < den (pa p) / (den (pa p) + den (pb p) + 0))%R) by (apply Rdiv_lt_0_compat; lra).
      assert (Cr : forall x y x' y', (0 < x + y -> 0 < x' + y' -> x / (x + y + 0) = x' / (x' + y' + 0) -> x * y' = x' * y)%R).
      { intros x y x' y' P Q Y. apply (f_equal (fun z => z * ((x + y) * (x' + y')))%R) in Y. rewrite !Rplus_0_r in Y. field_simplify in Y; lra. }
      destruct (Nat.eqb_spec (pface p) (pface q)) as [Y|Y].
      - left. split; auto. apply Cr in S1; lra.
      - destruct (Nat.eqb_spec (pface p) (neg (pface q))) as [Z1|Z1]; [|lra]. right. split; [now rewrite Z1, neg_neg|].
        rewrite (Rplus_comm (den (pa q))) in S1. apply Cr in S1; lra. }
    assert (Ed : edge_of (pface q) = edge_of (pface p)).
    { apply edge_of_eq. destruct HH as [[-> _]|[-> _]]; auto. }
    rewrite Ed. f_equal.
    assert (Mx : forall a b c : K, (0 < den a)%R -> (0 < den b)%R -> den c = 0%R -> (a =? max3 a b c)%X = negb (a <? b)%X).
    { intros a b c X1 X2 X3. apply Bool.eq_true_iff_eq. rewrite reqb_spec, max3_den, X3, (Rmax_left (Rmax _ _)) by (eapply Rle_trans; [|apply Rmax_l]; lra).
      destruct (rltb_reflect a b); cbn [negb]; split; intros Y; auto; try discriminate.
      - rewrite Rmax_right in Y; lra.
      - rewrite Rmax_left; lra. }
    rewrite !Mx by auto.
    destruct HH as [[_ HH]|[_ HH]]; destruct (rltb_reflect (pa p) (pb p)) as [Y|Y], (rltb_reflect (pa q) (pb q)) as [Y'|Y']; cbn [negb];
      try (exfalso; nra); apply R; try lra; try nra.
  - eexists. split; [reflexivity|]. f_equal.
    assert (Tq : exists q', turned s q q' /\ pface q' = pface p).
    { destruct T as [[T|[T|T]]|[(T & _)|(_ & T & _)]]; [| | |lra|lra].
      - exists q. split; [now left|auto].
      - exists (rot2 s q). split; [now right; right|]. unfold rot2. cbn [pface]. rewrite T. now apply FFF.
      - exists (rot1 s q). split; [now right; left|]. unfold rot1. cbn [pface]. rewrite T. now apply FFF. }
    destruct Tq as (q' & Tq & Fq).
    assert (Hq : hash_inner (pface q) (pa q) (pb q) (pc q) = hash_inner (pface q') (pa q') (pb q') (pc q')).
    { destruct Tq as [->|[->| ->]]; auto; unfold rot1, rot2; cbn [pface pa pb pc]; symmetry.
      - now apply hash_rot.
      - rewrite hash_rot by (auto using F_lt). now apply hash_rot. }
    rewrite Hq, Fq.
    assert (Y : alike (location p) (location q')).
    { apply (alike_same n s S0 Cl). eapply sp_trans; [exact X|]. apply (turned_sp n s S0); auto. apply (normal_weights n q N'). }
    unfold location in Y. rewrite Fq in Y.
    assert (Qq : weights (den (pa q'), den (pb q'), den (pc q'))) by (destruct Tq as [->|[->| ->]]; unfold weights; cbn; lra).
    destruct (same_face n s S0 Cl _ _ _ _ _ _ _ H (normal_weights n p N) Qq A Pb (or_introl Pc) Y) as (Y1 & Y2 & Y3).
    destruct (proportional (den (pa p)) (den (pb p)) (den (pc p)) (den (pa q')) (den (pb q')) (den (pc q'))) as (r & Hr & R1 & R2 & R3); auto; try lra.
    { apply Qq. }
    now apply (hash_scale (pface p) (pa p) (pb p) (pc p) (pa q') (pb q') (pc q') r).
Qed.
End points.

(** The binary expansion only depends on the ratio. *)
Lemma expand_ratio (K : ExactReal) k : forall (x y x' y' : K) h, (0 < den y)%R -> (0 < den y')%R -> (den x * den y' = den x' * den y)%R ->
  expand k x y h = expand k x' y' h.
Proof.
  induction k as [|k IH]; intros x y x' y' h Y Y' E; cbn [expand]; auto.
  destruct (rltb_reflect x y) as [A|A], (rltb_reflect x' y') as [B|B]; cbn [negb]; try (exfalso; nra);
    apply IH; rewrite ?den_mul, ?den_sub, ?den_ofZ; nra.
Qed.
Lemma quot_digits_ratio (K : ExactReal) : depends_on_ratio (@quot_digits K).
Proof. intros x y x' y' _ Y _ Y' E. unfold quot_digits. now apply expand_ratio. Qed.
