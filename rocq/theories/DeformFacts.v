(** * Facts about deformations *)
From Coq Require Import ZArith Reals List Arith Bool Lia Lra Psatz Relations Permutation.
From Verif Require Import Base HalfEdge HalfEdgeFacts Perm PermSpec PermFacts IndexedSet Combinatorial CombinatorialSpec CombinatorialFacts CombinatorialOps
  ExactReal Vector PlaneSpec Plane VectorFacts FlatTri FlatSpec FlatFacts FlatSum FlatLinear FlatOps FlatAngle FlatSector
  Point PointSpec PointFacts PointOps PointHash Linear LinearProps Chain ChainSpec ChainFacts Saddle SaddleSpec SaddleFacts Deform DeformSpec.
Import ListNotations.
Local Open Scope nat_scope.

Section facts.
Context {K : ExactReal}.
Implicit Types s u : flat K.

(** ** Sectors *)
Lemma pdet_nz (u v : pt) : (0 < pdet u v)%R -> u <> (0, 0)%R /\ v <> (0, 0)%R.
Proof. intros P. split; intros ->; unfold pdet in P; cbn in P; lra. Qed.
Lemma contains_signs n s h d : closed_flat n s -> h < n -> d <> (0, 0)%R ->
  (sector_contains s h d <-> (0 <= pdet (vv s h) d /\ 0 < pdet d (vv s (fV s h)))%R).
Proof.
  intros [S C] H D. unfold sector_contains. assert (P := corner_det n s h S H (C h H)). destruct (pdet_nz _ _ P).
  rewrite in_sector_signs; auto. unfold sector_by_signs. split; [intros [Q|[Q|[Q|Q]]]; lra|intros; left; lra].
Qed.
Lemma vv_nonzero n s h : closed_flat n s -> h < n -> vv s h <> (0, 0)%R.
Proof. intros [S C] H. assert (P := corner_det n s h S H (C h H)). now destruct (pdet_nz _ _ P). Qed.
Lemma contains_self n s h : closed_flat n s -> h < n -> sector_contains s h (vv s h).
Proof.
  intros S H. apply (contains_signs n); auto; [now apply (vv_nonzero n)|]. destruct S as [S C]. assert (P := corner_det n s h S H (C h H)). split; auto.
  unfold pdet. lra.
Qed.
Lemma iter_fV_lt n s h k : flat_surface n s -> h < n -> Nat.iter k (fV s) h < n.
Proof. intros S H. induction k as [|k IH]; [exact H|]. now apply (fV_lt n). Qed.
Lemma closed_inner_at n s h : closed_flat n s -> h < n -> inner_at s h.
Proof. intros [S C] H x (k & <-). apply C. now apply (iter_fV_lt n s h k). Qed.
Lemma turn_total n s h (d : vec K) fuel : closed_flat n s -> h < n -> vden d <> (0, 0)%R -> n + 1 < fuel ->
  exists e, sector_turn fuel s h COUNTERCLOCKWISE d false = Ok e /\ e < n /\ first_ccw s h (vden d) e.
Proof.
  intros S H D F. destruct (sector_turn_ccw n s h d fuel false (proj1 S) H (closed_inner_at n s h S H) D F) as (e & E & _ & T). exists e. split; auto.
  assert (X : first_ccw s h (vden d) e) by (apply T; intros [_ Q]; discriminate). split; auto. destruct X as (k & <- & _). apply (iter_fV_lt n s h k (proj1 S) H).
Qed.
Lemma turn_here n s h (d : vec K) fuel : closed_flat n s -> h < n -> vden d <> (0, 0)%R -> n + 1 < fuel -> sector_contains s h (vden d) ->
  sector_turn fuel s h COUNTERCLOCKWISE d false = Ok h.
Proof.
  intros S H D F T. destruct (turn_total n s h d fuel S H D F) as (e & -> & _ & k & E & _ & N). destruct k as [|k]; [now rewrite <- E|].
  exfalso. apply (N 0); [lia|exact T].
Qed.
Lemma turn_next n s h (d : vec K) fuel : closed_flat n s -> h < n -> vden d <> (0, 0)%R -> n + 1 < fuel ->
  ~ sector_contains s h (vden d) -> sector_contains s (fV s h) (vden d) ->
  sector_turn fuel s h COUNTERCLOCKWISE d false = Ok (fV s h).
Proof.
  intros S H D F T T'. destruct (turn_total n s h d fuel S H D F) as (e & -> & _ & k & E & X & N). destruct k as [|[|k]].
  - exfalso. apply T. change (Nat.iter 0 (fV s) h) with h in E. now subst e.
  - now rewrite <- E.
  - exfalso. apply (N 1); [lia|exact T'].
Qed.

(** ** Equal surfaces *)
Lemma same_refl n s : same_surface n s s. Proof. intros h H. auto. Qed.
Lemma same_sym n s u : same_surface n s u -> same_surface n u s.
Proof. intros E h H. destruct (E h H) as (A & B & C). auto. Qed.
Lemma same_trans n s u w : same_surface n s u -> same_surface n u w -> same_surface n s w.
Proof. intros E E' h H. destruct (E h H) as (A & B & C). destruct (E' h H) as (A' & B' & C'). now rewrite A', B', C'. Qed.
Lemma same_eqb n s u : closed_flat n s -> closed_flat n u -> flat_eqb s u = Ok true <-> same_surface n s u.
Proof.
  intros [S C] [U D]. destruct (flat_eqb_spec n n s u S U) as (b & E & B). rewrite E. split.
  - intros [= ->]. destruct (proj1 B eq_refl) as (_ & V & X). intros h H. split; [|split; [symmetry; now apply V|symmetry; now apply X]].
    assert (W := fs_wf n s S). assert (Wu := fs_wf n u U).
    assert (Q : forall w : flat K, flat_surface n w -> closed_surface n w -> forall k, k < n -> fV w (fF w k) = neg k).
    { intros w Sw Cw k Hk. assert (H1 := fF_lt n w k Sw Hk). rewrite (fV_eq n) by auto. f_equal. now apply (fF3 n). }
    apply (nV_inj n (fT s) W); [now apply (fF_lt n)|now apply (fF_lt n)|]. change (fV s (fF u h) = fV s (fF s h)). rewrite (Q s S C h H).
    unfold fV. rewrite V by now apply (fF_lt n). now apply Q.
  - intros X. f_equal. apply B. split; auto. split; intros e He; destruct (X e He) as (_ & Y & Z); auto.
Qed.
Lemma eqb_total n s u : closed_flat n s -> closed_flat n u -> exists b, flat_eqb s u = Ok b.
Proof. intros [S _] [U _]. destruct (flat_eqb_spec n n s u S U) as (b & E & _). eauto. Qed.
Lemma same_contains n s u h d : same_surface n s u -> closed_flat n s -> h < n -> sector_contains s h d <-> sector_contains u h d.
Proof.
  intros E S H. unfold sector_contains. destruct (E h H) as (_ & B & C). assert (H1 := fV_lt n s h (proj1 S) H). destruct (E _ H1) as (_ & _ & C').
  now rewrite B, C, C'.
Qed.
Lemma same_cvector n s u c : same_surface n s u -> flat_surface n s -> cvector n u c = cvector n s c.
Proof.
  intros E S. unfold cvector, chain_vector. f_equal. apply map_ext_in. intros i I. apply in_seq in I. f_equal. apply E. assert (X := n_even n s S). lia.
Qed.

(** ** Flips *)
(** The sides of the two triangles at an edge before and after a flip. *)
Definition diagonals (n : nat) s u (e : nat) : Prop :=
  exists a b c d x, (x = e \/ x = neg e) /\ NoDup [e; a; b; neg e; c; d] /\ e < n /\ a < n /\ b < n /\ c < n /\ d < n /\ neg e < n /\
    fF s e = a /\ fF s a = b /\ fF s b = e /\ fF s (neg e) = c /\ fF s c = d /\ fF s d = neg e /\
    fF u a = neg x /\ fF u (neg x) = d /\ fF u d = a /\ fF u c = x /\ fF u x = b /\ fF u b = c /\
    (forall i, i < n -> ~ In i [e; a; b; neg e; c; d] -> fF u i = fF s i) /\
    (forall i, i < n -> i <> e -> i <> neg e -> vv u i = vv s i).
Lemma diagonals_flip n s u e : flat_surface n s -> e < n -> fflip s e = (u, Ok tt) -> diagonals n s u e.
Proof.
  intros S He E. destruct (fflip_spec n s e u S He E) as (_ & _ & _ & Vo & _).
  destruct (flip_facts n s e u S He E) as (a & b & c & d & A1 & A2 & A3 & A4 & A5 & A6 & B1 & B2 & B3 & B4 & B5 & B6 & D & Ha & Hb & Hc & Hd & Hn & O & _).
  exists a, b, c, d, e. do 20 (split; [now auto|]). split; [intros i Hi N; now apply O|]. intros i Hi N1 N2. unfold vv. now rewrite Vo.
Qed.
Lemma diagonals_sym n s u e : diagonals n s u e -> diagonals n u s e.
Proof.
  intros (a & b & c & d & x & X & D & He & Ha & Hb & Hc & Hd & Hn & A1 & A2 & A3 & A4 & A5 & A6 & B1 & B2 & B3 & B4 & B5 & B6 & O & V).
  destruct X as [->| ->].
  - exists b, c, d, a, (neg e). rewrite neg_neg. split; auto. split.
    { eapply Permutation_NoDup; [|exact D]. constructor. change ([a; b; neg e; c; d]) with ([a] ++ [b; neg e; c; d]). change [b; c; neg e; d; a] with ([b; c; neg e; d] ++ [a]).
      eapply perm_trans; [apply Permutation_app_comm|]. apply Permutation_app_tail. constructor. apply perm_swap. }
    do 18 (split; [now auto|]). split.
    + intros i Hi N. symmetry. apply O; auto. intros I. apply N. revert I. cbn [In]. tauto.
    + intros i Hi N1 N2. symmetry. now apply V.
  - exists d, a, b, c, e. rewrite ?neg_neg in *. split; auto. split.
    { eapply Permutation_NoDup; [|exact D]. constructor. eapply perm_trans; [|apply (Permutation_app_comm [a; neg e; b; c] [d])].
      change ([a; b; neg e; c; d]) with ([a; b; neg e; c] ++ [d]). apply Permutation_app_tail. constructor. apply perm_swap. }
    do 18 (split; [now auto|]). split.
    + intros i Hi N. symmetry. apply O; auto. intros I. apply N. revert I. cbn [In]. tauto.
    + intros i Hi N1 N2. symmetry. now apply V.
Qed.

(** Between two directions that are less than half a turn apart. *)
Lemma beyond (p q r d : pt) : (0 < pdet p q -> 0 < pdet q r -> 0 < pdet p r -> 0 <= pdet q d -> 0 < pdet d r -> 0 < pdet p d)%R.
Proof.
  destruct p as [p1 p2], q as [q1 q2], r as [r1 r2], d as [d1 d2]. unfold pdet; cbn [fst snd]. intros A B C D E.
  assert (I : ((p1 * d2 - p2 * d1) * (q1 * r2 - q2 * r1) = (p1 * q2 - p2 * q1) * (d1 * r2 - d2 * r1) + (p1 * r2 - p2 * r1) * (q1 * d2 - q2 * d1))%R) by ring.
  assert (0 < (p1 * q2 - p2 * q1) * (d1 * r2 - d2 * r1))%R by (now apply Rmult_lt_0_compat).
  assert (0 <= (p1 * r2 - p2 * r1) * (q1 * d2 - q2 * d1))%R by (apply Rmult_le_pos; lra).
  apply (Rmult_lt_reg_r (q1 * r2 - q2 * r1)%R); auto. rewrite I. lra.
Qed.
Lemma before (p q r d : pt) : (0 < pdet p q -> 0 < pdet q r -> 0 < pdet p r -> 0 <= pdet p d -> 0 < pdet d q -> 0 < pdet d r)%R.
Proof.
  destruct p as [p1 p2], q as [q1 q2], r as [r1 r2], d as [d1 d2]. unfold pdet; cbn [fst snd]. intros A B C D E.
  assert (I : ((d1 * r2 - d2 * r1) * (p1 * q2 - p2 * q1) = (p1 * r2 - p2 * r1) * (d1 * q2 - d2 * q1) + (q1 * r2 - q2 * r1) * (p1 * d2 - p2 * d1))%R) by ring.
  assert (0 < (p1 * r2 - p2 * r1) * (d1 * q2 - d2 * q1))%R by (now apply Rmult_lt_0_compat).
  assert (0 <= (q1 * r2 - q2 * r1) * (p1 * d2 - p2 * d1))%R by (apply Rmult_le_pos; lra).
  apply (Rmult_lt_reg_r (p1 * q2 - p2 * q1)%R); auto. rewrite I. lra.
Qed.
Lemma pdet_swap' p q : pdet p q = (- pdet q p)%R. Proof. unfold pdet. ring. Qed.

(** Where to look for a direction after a flip. *)
Lemma flip_sector n s u e h (v : vec K) fuel : closed_flat n s -> closed_flat n u -> diagonals n s u e -> h < n -> vden v <> (0, 0)%R -> n + 1 < fuel ->
  sector_contains s h (vden v) ->
  exists h0 h', (if (h =? e) || (h =? neg e) then previousAtVertex (fT s) h else Ok h) = Ok h0 /\
    sector_turn fuel u h0 COUNTERCLOCKWISE v false = Ok h' /\ h' < n /\ same_corner s u e h h' (vden v).
Proof.
  intros S U D Hh Nv Fu T. pose proof S as [S0 Cs]. pose proof U as [U0 Cu].
  destruct D as (a & b & c & d & x & X & D & He & Ha & Hb & Hc & Hd & Hn & A1 & A2 & A3 & A4 & A5 & A6 & B1 & B2 & B3 & B4 & B5 & B6 & O & V).
  assert (W := fs_wf n s S0). set (w := vden v) in *.
  pose proof (nodup6 _ _ _ _ _ _ D) as ((D1 & D2 & D3 & D4 & D5) & (D7 & D8 & D9 & D10) & (D11 & D12 & D13) & (D14 & D15) & D16).
  assert (Hx : x < n) by (destruct X as [->| ->]; auto). assert (Hnx : neg x < n) by (destruct X as [->| ->]; rewrite ?neg_neg; auto).
  (* the next half edges at the vertices *)
  assert (Va : fV s a = neg e) by (rewrite (fV_eq n) by auto; now rewrite A2, A3).
  assert (Vb : fV s b = neg a) by (rewrite (fV_eq n) by auto; now rewrite A3, A1).
  assert (Ve : fV s e = neg b) by (rewrite (fV_eq n) by auto; now rewrite A1, A2).
  assert (Vc : fV s c = e) by (rewrite (fV_eq n) by auto; now rewrite A5, A6, neg_neg).
  assert (Vd : fV s d = neg c) by (rewrite (fV_eq n) by auto; now rewrite A6, A4).
  assert (Vn : fV s (neg e) = neg d) by (rewrite (fV_eq n) by auto; now rewrite A4, A5).
  assert (Ua : fV u a = neg d) by (rewrite (fV_eq n) by auto; now rewrite B1, B2).
  assert (Ub : fV u b = neg x) by (rewrite (fV_eq n) by auto; now rewrite B6, B4).
  assert (Uc : fV u c = neg b) by (rewrite (fV_eq n) by auto; now rewrite B4, B5).
  assert (Ud : fV u d = x) by (rewrite (fV_eq n) by auto; now rewrite B3, B1, neg_neg).
  assert (Ux : fV u x = neg c) by (rewrite (fV_eq n) by auto; now rewrite B5, B6).
  assert (Un : fV u (neg x) = neg a) by (rewrite (fV_eq n) by auto; now rewrite B2, B3).
  assert (Vv : forall y, In y [a; b; c; d] -> y < n /\ vv u y = vv s y /\ vv u (neg y) = vv s (neg y)).
  { assert (Q : forall y, y < n -> y <> e -> y <> neg e -> y < n /\ vv u y = vv s y /\ vv u (neg y) = vv s (neg y)).
    { intros y Hy Y1 Y2. split; auto. rewrite (fs_odd n u U0), (fs_odd n s S0) by auto. rewrite (V y) by auto. auto. }
    cbn [In]. intros y [<-|[<-|[<-|[<-|[]]]]]; apply Q; auto. }
  destruct (Vv a) as (_ & La & La'); [cbn; auto|]. destruct (Vv b) as (_ & Lb & Lb'); [cbn; auto|]. destruct (Vv c) as (_ & Lc & Lc'); [cbn; auto|]. destruct (Vv d) as (_ & Ld & Ld'); [cbn; auto|].
  assert (Cn := fun t y St Ht C => corner_det (K := K) n t y St Ht C).
  pose proof (Cn s e S0 He (Cs e He)) as Ke. pose proof (Cn s (neg e) S0 Hn (Cs _ Hn)) as Kn. pose proof (Cn s a S0 Ha (Cs _ Ha)) as Ka. pose proof (Cn s c S0 Hc (Cs _ Hc)) as Kc.
  pose proof (Cn u a U0 Ha (Cu _ Ha)) as Ja. pose proof (Cn u c U0 Hc (Cu _ Hc)) as Jc.
  rewrite Ve in Ke. rewrite Vn in Kn. rewrite Va in Ka. rewrite Vc in Kc. rewrite Ua, La, Ld' in Ja. rewrite Uc, Lc, Lb' in Jc.
  pose proof T as Ts. apply (contains_signs n) in Ts as [T1 T2]; auto.
  assert (Tu : forall k, k < n -> (0 <= pdet (vv u k) w)%R -> (0 < pdet w (vv u (fV u k)))%R -> sector_contains u k w).
  { intros k Hk Q1 Q2. apply (contains_signs n); auto. }
  clear Cn Vv.
  assert (Cases : h = e \/ h = neg e \/ h = a \/ h = c \/ h = b \/ h = d \/ ~ In h [e; a; b; neg e; c; d]).
  { destruct (in_dec Nat.eq_dec h [e; a; b; neg e; c; d]) as [I|I]; [|tauto]. cbn [In] in I. clear - I. intuition auto. }
  assert (Here : forall k, k < n -> sector_contains u k w -> sector_turn fuel u k COUNTERCLOCKWISE v false = Ok k) by (intros k Hk Q; now apply (turn_here n)).
  assert (Next : forall k, k < n -> ~ sector_contains u k w -> sector_contains u (fV u k) w -> sector_turn fuel u k COUNTERCLOCKWISE v false = Ok (fV u k)) by (intros k Hk Q; now apply (turn_next n)).
  assert (Pv : forall y k, y < n -> fV s y = k -> previousAtVertex (fT s) k = Ok y).
  { intros y k Hy <-. rewrite (prevV_Ok n) by (auto; now apply (fV_lt n)). f_equal. now apply (pV_nV n (fT s) W). }
  destruct Cases as [->|[->|[->|[->|[->|[->|N]]]]]].
  - exists c, c. rewrite Nat.eqb_refl. cbn [Datatypes.orb]. rewrite Ve in T2.
    assert (Q : sector_contains u c w).
    { apply Tu; auto; rewrite ?Uc, ?Lc, ?Lb'; auto. left. now apply (beyond (vv s c) (vv s e) (vv s (neg b)) w). }
    split; [now apply Pv|]. split; [now apply Here|]. split; [assumption|]. split; [assumption|]. split; [assumption|]. first [tauto | left; split; auto].
  - exists a, a. rewrite Nat.eqb_refl, orb_true_r. rewrite Vn in T2.
    assert (Q : sector_contains u a w).
    { apply Tu; auto; rewrite ?Ua, ?La, ?Ld'; auto. left. now apply (beyond (vv s a) (vv s (neg e)) (vv s (neg d)) w). }
    split; [now apply Pv|]. split; [now apply Here|]. split; [assumption|]. split; [assumption|]. split; [assumption|]. first [tauto | left; split; auto].
  - exists a, a. rewrite (proj2 (Nat.eqb_neq a e)) by auto. rewrite (proj2 (Nat.eqb_neq a (neg e))) by auto. cbn [Datatypes.orb]. rewrite Va in T2.
    assert (Q : sector_contains u a w).
    { apply Tu; auto; rewrite ?Ua, ?La, ?Ld'; auto. now apply (before (vv s a) (vv s (neg e)) (vv s (neg d)) w). }
    split; [auto|]. split; [now apply Here|]. split; [assumption|]. split; [assumption|]. split; [assumption|]. first [tauto | left; split; auto].
  - exists c, c. rewrite (proj2 (Nat.eqb_neq c e)) by auto. rewrite (proj2 (Nat.eqb_neq c (neg e))) by auto. cbn [Datatypes.orb]. rewrite Vc in T2.
    assert (Q : sector_contains u c w).
    { apply Tu; auto; rewrite ?Uc, ?Lc, ?Lb'; auto. now apply (before (vv s c) (vv s e) (vv s (neg b)) w). }
    split; [auto|]. split; [now apply Here|]. split; [assumption|]. split; [assumption|]. split; [assumption|]. first [tauto | left; split; auto].
  - rewrite (proj2 (Nat.eqb_neq b e)) by auto. rewrite (proj2 (Nat.eqb_neq b (neg e))) by auto. cbn [Datatypes.orb]. rewrite Vb in T2.
    destruct (Rlt_dec 0 (pdet w (vv u (neg x)))) as [Q|Q].
    + assert (Z : sector_contains u b w) by (apply Tu; auto; rewrite ?Ub, ?Lb; auto).
      exists b, b. split; auto. split; [now apply Here|]. split; [assumption|]. split; [assumption|]. split; [assumption|]. first [tauto | left; split; auto].
    + assert (Z : sector_contains u (neg x) w).
      { apply Tu; auto; rewrite ?Un, ?La'; auto. rewrite pdet_swap'. lra. }
      exists b, (neg x). split; auto. split; [|split; auto; split; auto; split; auto].
      * rewrite <- Ub. apply Next; auto; [|now rewrite Ub]. intros I. apply (contains_signs n) in I as [_ I]; auto. rewrite Ub in I. contradiction.
      * right. right. rewrite Ub. split; auto. destruct X as [->| ->]; rewrite ?neg_neg; auto.
  - rewrite (proj2 (Nat.eqb_neq d e)) by auto. rewrite (proj2 (Nat.eqb_neq d (neg e))) by auto. cbn [Datatypes.orb]. rewrite Vd in T2.
    destruct (Rlt_dec 0 (pdet w (vv u x))) as [Q|Q].
    + assert (Z : sector_contains u d w) by (apply Tu; auto; rewrite ?Ud, ?Ld; auto).
      exists d, d. split; auto. split; [now apply Here|]. split; [assumption|]. split; [assumption|]. split; [assumption|]. first [tauto | left; split; auto].
    + assert (Z : sector_contains u x w).
      { apply Tu; auto; rewrite ?Ux, ?Lc'; auto. rewrite pdet_swap'. lra. }
      exists d, x. split; auto. split; [|split; auto; split; auto; split; auto].
      rewrite <- Ud. apply Next; auto; [|now rewrite Ud]. intros I. apply (contains_signs n) in I as [_ I]; auto. rewrite Ud in I. contradiction.
  - assert (Ne : h <> e) by (intros ->; apply N; cbn; auto). assert (Nn : h <> neg e) by (intros ->; apply N; cbn; auto).
    rewrite (proj2 (Nat.eqb_neq h e)) by auto. rewrite (proj2 (Nat.eqb_neq h (neg e))) by auto. cbn [Datatypes.orb].
    assert (Fi : forall y, y < n -> In (fF s y) [e; a; b; neg e; c; d] -> In y [e; a; b; neg e; c; d]).
    { intros y Hy I. assert (J : forall z k, z < n -> fF s z = k -> fF s y = k -> y = z) by (intros z k Hz Q1 Q2; apply (nF_inj n (fT s) W); auto; unfold fF in *; congruence).
      cbn [In] in I. destruct I as [I|[I|[I|[I|[I|[I|[]]]]]]]; symmetry in I; [rewrite (J b e) by auto|rewrite (J e a) by auto|rewrite (J a b) by auto|rewrite (J d (neg e)) by auto|rewrite (J (neg e) c) by auto|rewrite (J c d) by auto]; cbn; auto 7. }
    assert (H1 := fF_lt n s h S0 Hh). assert (H2 := fF_lt n s _ S0 H1).
    assert (N1 : ~ In (fF s h) [e; a; b; neg e; c; d]) by (intros I; apply N; auto).
    assert (N2 : ~ In (fF s (fF s h)) [e; a; b; neg e; c; d]) by (intros I; apply N1; auto).
    assert (Eh : fV u h = fV s h) by (rewrite !(fV_eq n) by auto; now rewrite (O h Hh N), (O _ H1 N1)).
    assert (Lv : vv u (fV s h) = vv s (fV s h)).
    { rewrite (fV_eq n s h) by auto. rewrite (fs_odd n u U0), (fs_odd n s S0) by auto. f_equal. apply V; auto; intros Q; apply N2; rewrite Q; cbn; auto. }
    assert (Q : sector_contains u h w) by (apply Tu; auto; rewrite ?Eh, ?Lv, ?(V h Hh Ne Nn); auto).
    exists h, h. split; auto. split; [now apply Here|]. split; [assumption|]. split; [assumption|]. split; [assumption|]. first [tauto | left; split; auto].
Qed.
End facts.
