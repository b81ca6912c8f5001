(** * The walk over a surface that assigns labels to half edges *)
From Coq Require Import ZArith List Arith Bool Lia.
From Verif Require Import Base HalfEdge HalfEdgeFacts.
Import ListNotations.

(** ** Positions *)
Fixpoint pos_of (h : nat) (L : list nat) : option nat :=
  match L with
  | [] => None
  | x :: r => if x =? h then Some 0 else match pos_of h r with Some i => Some (S i) | None => None end
  end.
Lemma pos_of_Some h L i : pos_of h L = Some i -> i < length L /\ nth i L 0 = h.
Proof.
  revert i. induction L as [|x r IH]; cbn; intros i E; [discriminate|].
  destruct (Nat.eqb_spec x h) as [->|N]; [injection E as <-; split; auto; lia|].
  destruct (pos_of h r) as [j|]; [|discriminate]. injection E as <-. destruct (IH j eq_refl). split; auto; lia.
Qed.
Lemma pos_of_None h L : pos_of h L = None <-> ~ In h L.
Proof.
  induction L as [|x r IH]; cbn; [tauto|].
  destruct (Nat.eqb_spec x h) as [->|N]; [split; [discriminate|tauto]|].
  destruct (pos_of h r) as [j|]; split; intros H; try discriminate; intuition congruence.
Qed.
Lemma pos_of_nth L i : NoDup L -> i < length L -> pos_of (nth i L 0) L = Some i.
Proof.
  intros N. revert i. induction N as [|x r I N IH]; cbn; intros i H; [lia|].
  destruct i as [|i]; [now rewrite Nat.eqb_refl|].
  destruct (Nat.eqb_spec x (nth i r 0)) as [->|Q]; [exfalso; apply I, nth_In; lia|].
  rewrite IH by lia. reflexivity.
Qed.
Lemma pos_of_In h L : NoDup L -> In h L -> exists i, i < length L /\ nth i L 0 = h /\ pos_of h L = Some i.
Proof.
  intros N I. apply In_nth with (d := 0) in I as (i & Hi & <-). exists i. split; [auto|split; auto]. now apply pos_of_nth.
Qed.
Lemma pos_of_map (f : nat -> nat) L h : (forall x, In x L -> f x = f h -> x = h) -> pos_of (f h) (map f L) = pos_of h L.
Proof.
  induction L as [|x r IH]; cbn; intros H; auto.
  rewrite IH by auto. destruct (Nat.eqb_spec x h) as [->|N]; [now rewrite Nat.eqb_refl|].
  destruct (Nat.eqb_spec (f x) (f h)) as [E|_]; auto. exfalso. auto.
Qed.

(** ** The walk *)
(** The label of [h] when the half edges [L] have been labeled. *)
Definition lab (L : list nat) (h : nat) : Z :=
  match pos_of h L with
  | Some i => Z.of_nat i
  | None => match pos_of (neg h) L with Some i => (- Z.of_nat i)%Z | None => Z.of_nat (length L) end
  end.
(** The labeled half edges after [h] has been labeled. *)
Definition ext (L : list nat) (h : nat) : list nat :=
  match pos_of h L, pos_of (neg h) L with None, None => L ++ [h] | _, _ => L end.
(** Whether a label of a half edge indicates that its face has been visited before the half edge with index [k] is crossed. *)
Definition old (k : nat) (l : Z) : bool := ((0 <? l)%Z && (l <? Z.of_nat (S k))%Z) || ((l <? 0)%Z && (- l <? Z.of_nat k)%Z).
(** Crossing the half edge with index [k]; [G] is the map to the next half edge of a triangle. *)
Definition pstep (G : nat -> nat) (k : nat) (L : list nat) : list Z * list nat :=
  let p := G (neg (nth k L 0)) in
  let q := G p in
  if old k (lab L p) then ([], ext L p) else
  if old k (lab (ext L p) q) then ([], ext (ext L p) q) else
  ([lab L p; lab (ext L p) q], ext (ext L p) q).
Fixpoint prun (G : nat -> nat) (fuel k : nat) (L : list nat) : list (list Z) * list nat :=
  match fuel with
  | O => ([], L)
  | S j => if length L <=? k then ([], L) else let (c, L) := pstep G k L in let (cs, L) := prun G j (S k) L in (c :: cs, L)
  end.

(** [x] is in the triangle of [y]. *)
Definition in_face (G : nat -> nat) (x y : nat) : Prop := x = y \/ x = G y \/ x = G (G y).
(** Permutations all of whose cycles have length three. *)
Record triangles (n : nat) (G : nat -> nat) : Prop := {
  tg_neg : forall x, x < n -> neg x < n;
  tg_lt : forall x, x < n -> G x < n;
  tg_3 : forall x, x < n -> G (G (G x)) = x;
  tg_fix : forall x, x < n -> G x <> x
}.
(** At most one half edge of each edge has been labeled. *)
Record labeled_ok (n : nat) (L : list nat) : Prop := {
  lo_nodup : NoDup L;
  lo_lt : forall x, In x L -> x < n;
  lo_neg : forall x, In x L -> ~ In (neg x) L
}.
(** The face of [x] has been visited before the half edge with index [k] was crossed. *)
Definition visited (G : nat -> nat) (k : nat) (L : list nat) (x : nat) : Prop := exists j, j < k /\ in_face G x (neg (nth j L 0)).
Record walking (n : nat) (G : nat -> nat) (k : nat) (L : list nat) : Prop := {
  wk_ok : labeled_ok n L;
  wk_pos : 0 < length L;
  wk_k : k <= length L;
  wk_source : forall i, 0 < i < length L -> visited G k L (nth i L 0);
  wk_face : forall x, visited G k L x -> In x L \/ In (neg x) L;
  wk_first : 0 < k -> let s := neg (nth 0 L 0) in
    In (G s) L /\ (In (G (G s)) L \/ (1 < length L /\ G (G s) = neg (nth 1 L 0) /\ G s = nth 1 L 0))
}.

Lemma triangles_inj n G x y : triangles n G -> x < n -> y < n -> G x = G y -> x = y.
Proof. intros T Hx Hy E. rewrite <- (tg_3 n G T x Hx), <- (tg_3 n G T y Hy), E. reflexivity. Qed.
Lemma triangles_fix2 n G x : triangles n G -> x < n -> G (G x) <> x.
Proof. intros T Hx E. apply (tg_fix n G T x Hx). rewrite <- E at 1. now apply (tg_3 n G T). Qed.
Lemma in_face_lt n G x y : triangles n G -> y < n -> in_face G x y -> x < n.
Proof. intros T H [->|[->| ->]]; auto using (tg_lt n G T). Qed.
Lemma in_face_sym n G x y : triangles n G -> y < n -> in_face G x y -> in_face G y x.
Proof. intros T H [->|[->| ->]]; unfold in_face; rewrite ?(tg_3 n G T) by auto; auto. Qed.
Lemma in_face_trans n G x y z : triangles n G -> z < n -> in_face G x y -> in_face G y z -> in_face G x z.
Proof. intros T H A [->|[->| ->]]; destruct A as [->|[->| ->]]; unfold in_face; rewrite ?(tg_3 n G T z H); auto. Qed.
Lemma visited_next n G k L x : triangles n G -> labeled_ok n L -> k <= length L -> visited G k L x -> visited G k L (G x).
Proof.
  intros T O Hk (j & Hj & I). exists j. split; auto. eapply in_face_trans; eauto.
  - apply (tg_neg n G T), (lo_lt n L O), nth_In. lia.
  - unfold in_face. auto.
Qed.
Lemma visited_lt n G k L x : triangles n G -> labeled_ok n L -> k <= length L -> visited G k L x -> x < n.
Proof. intros T O Hk (j & Hj & I). eapply in_face_lt; eauto. apply (tg_neg n G T), (lo_lt n L O), nth_In. lia. Qed.
Lemma in_face_dec G x y : {in_face G x y} + {~ in_face G x y}.
Proof.
  unfold in_face. destruct (Nat.eq_dec x y); [auto|]. destruct (Nat.eq_dec x (G y)); [auto|]. destruct (Nat.eq_dec x (G (G y))); [auto|].
  right. tauto.
Qed.
Lemma visited_dec G k L x : {visited G k L x} + {~ visited G k L x}.
Proof.
  induction k as [|k [V|V]].
  - right. intros (j & Hj & _). lia.
  - left. destruct V as (j & Hj & I). exists j. auto.
  - destruct (in_face_dec G x (neg (nth k L 0))) as [I|I]; [left; exists k; auto|].
    right. intros (j & Hj & I'). destruct (Nat.eq_dec j k) as [->|N]; [auto|]. apply V. exists j. split; auto. lia.
Qed.

(** ** Labels *)
Lemma lab_pos n L i : labeled_ok n L -> i < length L -> lab L (nth i L 0) = Z.of_nat i.
Proof. intros O H. unfold lab. rewrite pos_of_nth; auto. apply O. Qed.
Lemma lab_neg n L i : labeled_ok n L -> i < length L -> lab L (neg (nth i L 0)) = (- Z.of_nat i)%Z.
Proof.
  intros O H. unfold lab. assert (N : pos_of (neg (nth i L 0)) L = None) by (apply pos_of_None, (lo_neg n L O), nth_In; auto).
  rewrite N, neg_neg, pos_of_nth; auto. apply O.
Qed.
Lemma lab_new L h : ~ In h L -> ~ In (neg h) L -> lab L h = Z.of_nat (length L).
Proof. intros A B. apply pos_of_None in A, B. unfold lab. now rewrite A, B. Qed.
Lemma ext_old L h : In h L \/ In (neg h) L -> ext L h = L.
Proof.
  unfold ext. intros [I|I].
  - destruct (pos_of h L) eqn:E; auto. now apply pos_of_None in E.
  - destruct (pos_of h L) eqn:E; auto. destruct (pos_of (neg h) L) eqn:E'; auto. now apply pos_of_None in E'.
Qed.
Lemma ext_new L h : ~ In h L -> ~ In (neg h) L -> ext L h = L ++ [h].
Proof. intros A B. apply pos_of_None in A, B. unfold ext. now rewrite A, B. Qed.
Lemma known_dec h L : {In h L \/ In (neg h) L} + {~ In h L /\ ~ In (neg h) L}.
Proof. destruct (in_dec Nat.eq_dec h L), (in_dec Nat.eq_dec (neg h) L); auto. Qed.
Lemma ext_known L h : In h (ext L h) \/ In (neg h) (ext L h).
Proof.
  destruct (known_dec h L) as [I|[A B]]; [now rewrite ext_old|]. rewrite ext_new by auto. left. apply in_or_app. right. now left.
Qed.
Lemma ext_ok n L h : (forall x, x < n -> neg x < n) -> labeled_ok n L -> h < n -> labeled_ok n (ext L h).
Proof.
  intros Hn O H. destruct (known_dec h L) as [I|[A B]]; [now rewrite ext_old|]. rewrite ext_new by auto. split.
  - assert (X : NoDup (rev (L ++ [h]))). { rewrite rev_app_distr. cbn. constructor; [now rewrite <- in_rev|]. apply NoDup_rev, O. }
    apply NoDup_rev in X. now rewrite rev_involutive in X.
  - intros x I. apply in_app_or in I as [I|[<-|[]]]; auto. now apply O.
  - intros x I J. apply in_app_or in I, J. cbn in I, J.
    destruct I as [I|[<-|[]]]; destruct J as [J|[E|[]]].
    + now apply (lo_neg n L O x).
    + apply B. rewrite E, neg_neg. auto.
    + auto.
    + symmetry in E. now apply neg_ne in E.
Qed.
Lemma ext_prefix L h : exists r, ext L h = L ++ r.
Proof. destruct (known_dec h L) as [I|[A B]]; [rewrite ext_old by auto; exists []; now rewrite app_nil_r|]. rewrite ext_new by auto. eauto. Qed.
Lemma ext_nth L h i : i < length L -> nth i (ext L h) 0 = nth i L 0.
Proof. intros H. destruct (ext_prefix L h) as (r & ->). now apply app_nth1. Qed.
Lemma ext_length L h : length L <= length (ext L h).
Proof. destruct (ext_prefix L h) as (r & ->). rewrite app_length. lia. Qed.
Lemma ext_incl L h x : In x L -> In x (ext L h).
Proof. destruct (ext_prefix L h) as (r & ->). intros I. apply in_or_app. auto. Qed.
(** What has been added. *)
Lemma ext_added L h i : length L <= i < length (ext L h) -> nth i (ext L h) 0 = h /\ i = length L.
Proof.
  destruct (known_dec h L) as [I|[A B]]; [rewrite ext_old by auto; lia|]. rewrite ext_new by auto. rewrite app_length. cbn. intros H.
  assert (i = length L) as -> by lia. split; auto. rewrite app_nth2, Nat.sub_diag by auto. reflexivity.
Qed.

Lemma old_neg k l : old k (- Z.of_nat l) = true <-> 0 < l < k.
Proof. unfold old. rewrite orb_true_iff, !andb_true_iff, !Z.ltb_lt. lia. Qed.
Lemma old_pos k l : old k (Z.of_nat l) = true <-> 0 < l <= k.
Proof. unfold old. rewrite orb_true_iff, !andb_true_iff, !Z.ltb_lt. lia. Qed.

(** ** One step *)
Section step.
Variables (n : nat) (G : nat -> nat).
Hypothesis T : triangles n G.

Lemma crossed_lt k L : walking n G k L -> k < length L -> neg (nth k L 0) < n.
Proof. intros W H. apply (tg_neg n G T), (lo_lt n L (wk_ok n G k L W)), nth_In. auto. Qed.

(** The faces that have been visited do not change when labels are added. *)
Lemma visited_ext k L r x : k <= length L -> visited G k (L ++ r) x <-> visited G k L x.
Proof. intros H. split; intros (j & Hj & I); exists j; split; auto; rewrite app_nth1 in * by lia; auto. Qed.
Lemma visited_S k L x : visited G (S k) L x <-> visited G k L x \/ in_face G x (neg (nth k L 0)).
Proof.
  split.
  - intros (j & Hj & I). destruct (Nat.eq_dec j k) as [->|N]; [auto|]. left. exists j. split; auto. lia.
  - intros [(j & Hj & I)|I]; [exists j; auto|exists k; auto].
Qed.

(** A face that has been visited. *)
Lemma pstep_visited k L : walking n G k L -> k < length L -> visited G k L (neg (nth k L 0)) ->
  pstep G k L = ([], L) /\ walking n G (S k) L.
Proof.
  intros W Hk V. assert (O := wk_ok n G k L W). assert (Hs := crossed_lt k L W Hk).
  set (s := neg (nth k L 0)) in *.
  assert (Vp := visited_next n G k L s T O (Nat.lt_le_incl _ _ Hk) V).
  assert (Vq := visited_next n G k L (G s) T O (Nat.lt_le_incl _ _ Hk) Vp).
  assert (Kp := wk_face n G k L W _ Vp). assert (Kq := wk_face n G k L W _ Vq).
  split.
  - unfold pstep. fold s. rewrite (ext_old L (G s)) by auto. rewrite (ext_old L (G (G s))) by auto.
    enough (X : old k (lab L (G s)) = true \/ old k (lab L (G (G s))) = true).
    { destruct X as [-> | ->]; auto. destruct (old k (lab L (G s))); auto. }
    destruct V as (j & Hj & I). apply (in_face_sym n G) in I; auto.
    2:{ apply (tg_neg n G T), (lo_lt n L O), nth_In. lia. }
    assert (Lj : old k (lab L (neg (nth j L 0))) = true \/ j = 0).
    { rewrite (lab_neg n) by (auto; lia). destruct j; [auto|]. left. apply old_neg. lia. }
    destruct I as [I|[I|I]].
    + (* crossing the same half edge *)
      exfalso. unfold s in I. apply neg_inj in I. assert (X := NoDup_nth L 0). destruct X as [X _]. specialize (X (lo_nodup n L O) j k).
      rewrite X in Hj by (auto; lia). lia.
    + rewrite <- I. destruct Lj as [Lj| ->]; auto.
      (* G s is the first half edge; so s is the second next half edge *)
      assert (F := wk_first n G k L W ltac:(lia)). cbn zeta in F. rewrite I in F. rewrite (tg_3 n G T) in F by auto.
      destruct F as (_ & [F|(F1 & F2 & F3)]).
      { exfalso. unfold s in F. refine (lo_neg n L O (nth k L 0) _ F). apply nth_In. auto. }
      right. rewrite I, F3. rewrite (lab_pos n) by auto. apply old_pos. destruct k as [|k]; lia.
    + rewrite <- I. destruct Lj as [Lj| ->]; auto.
      assert (F := wk_first n G k L W ltac:(lia)). cbn zeta in F. rewrite I in F. rewrite (tg_3 n G T) in F by auto.
      destruct F as (F & _). exfalso. unfold s in F. refine (lo_neg n L O (nth k L 0) _ F). apply nth_In. auto.
  - split; auto.
    + apply W.
    + intros i Hi. apply visited_S. left. now apply W.
    + intros x Vx. apply visited_S in Vx as [Vx|I]; [now apply (wk_face n G k L W)|]. fold s in I.
      apply (wk_face n G k L W). destruct V as (j & Hj & I'). exists j. split; auto. eapply in_face_trans; eauto.
      apply (tg_neg n G T), (lo_lt n L O), nth_In. lia.
    + intros _. apply (wk_first n G k L W). destruct V as (j & Hj & _). lia.
Qed.

(** How the label of a half edge tells what the half edge is. *)
Definition decoded (k : nat) (L : list nat) (l : Z) (p : nat) : Prop :=
  (l = Z.of_nat (length L) /\ ~ In p L /\ ~ In (neg p) L) \/ (l = 0%Z /\ p = nth 0 L 0) \/
  (exists i, k < i < length L /\ l = (- Z.of_nat i)%Z /\ p = neg (nth i L 0)).
Lemma decoded_old k L l p : k < length L -> decoded k L l p -> old k l = false.
Proof.
  intros Hk [(-> & _)|[(-> & _)|(i & Hi & -> & _)]]; apply not_true_iff_false.
  - rewrite old_pos. lia.
  - change 0%Z with (Z.of_nat 0). rewrite old_pos. lia.
  - rewrite old_neg. lia.
Qed.
Lemma decoded_ok k L p : labeled_ok n L -> k < length L -> p <> neg (nth k L 0) -> (forall i, i < k -> p <> neg (nth i L 0)) ->
  (forall i, 0 < i < length L -> p <> nth i L 0) -> decoded k L (lab L p) p.
Proof.
  intros O Hk A B C. destruct (in_dec Nat.eq_dec p L) as [I|I].
  - right. left. apply In_nth with (d := 0) in I as (i & Hi & E). destruct i as [|i].
    + rewrite <- E. rewrite (lab_pos n); auto.
    + exfalso. apply (C (S i)); auto. lia.
  - destruct (in_dec Nat.eq_dec (neg p) L) as [J|J].
    + right. right. apply In_nth with (d := 0) in J as (i & Hi & E). exists i.
      assert (Ep : p = neg (nth i L 0)) by (rewrite E, neg_neg; auto).
      split; [|split; auto].
      * split; auto. destruct (Nat.lt_trichotomy i k) as [H|[->|H]]; auto; exfalso; [exact (B i H Ep)|exact (A Ep)].
      * rewrite Ep. now apply (lab_neg n).
    + left. now rewrite lab_new.
Qed.

(** A new face. *)
Lemma pstep_new k L : walking n G k L -> k < length L -> ~ visited G k L (neg (nth k L 0)) ->
  let p := G (neg (nth k L 0)) in let q := G p in
  exists l m, pstep G k L = ([l; m], ext (ext L p) q) /\ decoded k L l p /\ decoded k (ext L p) m q /\ walking n G (S k) (ext (ext L p) q).
Proof.
  intros W Hk V p q. assert (O := wk_ok n G k L W). assert (Hs := crossed_lt k L W Hk).
  set (s := neg (nth k L 0)) in *.
  assert (Hp : p < n) by (now apply (tg_lt n G T)). assert (Hq : q < n) by (now apply (tg_lt n G T)).
  assert (Vp : forall x, in_face G x s -> ~ visited G k L x).
  { intros x I (j & Hj & J). apply V. exists j. split; auto. apply (in_face_sym n G) in I; auto. eapply in_face_trans; eauto.
    apply (tg_neg n G T), (lo_lt n L O), nth_In. lia. }
  assert (Np : p <> s) by (now apply (tg_fix n G T)). assert (Nq : q <> s) by (now apply (triangles_fix2 n G)).
  assert (Npq : q <> p) by (now apply (tg_fix n G T)).
  assert (Vx : forall x, in_face G x s -> (forall i, i < k -> x <> neg (nth i L 0)) /\ (forall i, 0 < i < length L -> x <> nth i L 0)).
  { intros x I. split; intros i Hi E; apply (Vp x I).
    - exists i. split; auto. left. auto.
    - rewrite E. now apply W. }
  assert (Fp : in_face G p s) by (unfold in_face; auto). assert (Fq : in_face G q s) by (unfold in_face; auto).
  assert (Dp : decoded k L (lab L p) p) by (apply decoded_ok; auto; now apply Vx).
  set (L1 := ext L p). assert (O1 : labeled_ok n L1) by (apply ext_ok; auto; apply T).
  assert (H1 : length L <= length L1) by apply ext_length.
  assert (Dq : decoded k L1 (lab L1 q) q).
  { apply decoded_ok; auto; try lia.
    - unfold L1. rewrite ext_nth by auto. exact Nq.
    - intros i Hi. unfold L1. rewrite ext_nth by lia. now apply Vx.
    - intros i Hi. destruct (Nat.lt_ge_cases i (length L)) as [H|H].
      + unfold L1. rewrite ext_nth by auto. apply Vx; auto. lia.
      + unfold L1. destruct (ext_added L p i ltac:(fold L1; lia)) as [-> _]. exact Npq. }
  exists (lab L p), (lab L1 q). split; [|split; [|split]]; auto.
  - unfold pstep. fold s p q L1. rewrite (decoded_old k L _ p), (decoded_old k L1 _ q); auto. lia.
  - set (L2 := ext L1 q). assert (O2 : labeled_ok n L2) by (apply ext_ok; auto; apply T).
    assert (H2 : length L1 <= length L2) by apply ext_length.
    destruct (ext_prefix L p) as (r1 & E1). fold L1 in E1. destruct (ext_prefix L1 q) as (r2 & E2). fold L2 in E2.
    assert (E : L2 = L ++ (r1 ++ r2)) by (now rewrite E2, E1, app_assoc).
    assert (Ek : nth k L2 0 = nth k L 0) by (rewrite E; now apply app_nth1).
    assert (Vq : forall x, visited G (S k) L2 x <-> visited G k L x \/ in_face G x s).
    { intros x. rewrite visited_S, Ek. fold s. rewrite E, visited_ext by lia. tauto. }
    split; auto; try lia.
    + intros i Hi. apply Vq. destruct (Nat.lt_ge_cases i (length L)) as [H|H].
      * left. rewrite E, app_nth1 by auto. apply W. lia.
      * right. destruct (Nat.lt_ge_cases i (length L1)) as [H'|H'].
        -- rewrite E2, app_nth1 by auto. destruct (ext_added L p i ltac:(fold L1; lia)) as [X _]. fold L1 in X. now rewrite X.
        -- destruct (ext_added L1 q i ltac:(fold L2; lia)) as [X _]. fold L2 in X. now rewrite X.
    + intros x Vx'. apply Vq in Vx' as [Vx'|I].
      * destruct (wk_face n G k L W x Vx') as [J|J]; [left|right]; apply ext_incl, ext_incl; auto.
      * destruct I as [->|[->| ->]].
        -- right. unfold s. rewrite neg_neg. apply ext_incl, ext_incl, nth_In. auto.
        -- fold p. destruct (ext_known L p) as [J|J]; [left|right]; apply ext_incl; auto.
        -- fold p q. apply ext_known.
    + intros _. cbn zeta. assert (E0 : nth 0 L2 0 = nth 0 L 0) by (rewrite E; apply app_nth1, W). rewrite E0.
      destruct k as [|k].
      * fold s p q. assert (Lp : In p L1).
        { destruct Dp as [(_ & A & B)|[(_ & ->)|(i & Hi & _ & Ei)]].
          - unfold L1. rewrite ext_new by auto. apply in_or_app. right. now left.
          - unfold L1. apply ext_incl, nth_In. apply W.
          - exfalso. assert (X := wk_source n G 0 L W i ltac:(lia)). destruct X as (j & Hj & _). lia. }
        split; [now apply ext_incl|].
        destruct Dq as [(_ & A & B)|[(_ & Eq)|(i & Hi & _ & Ei)]].
        -- left. unfold L2. rewrite ext_new by auto. apply in_or_app. right. now left.
        -- left. apply ext_incl. rewrite Eq. apply nth_In. lia.
        -- right. assert (L0 : length L = 1).
           { destruct (Nat.eq_dec (length L) 1) as [H|H]; auto. exfalso. assert (X := wk_source n G 0 L W 1 ltac:(lia)). destruct X as (j & Hj & _). lia. }
           destruct (ext_added L p i ltac:(fold L1; lia)) as [X Y]. fold L1 in X. assert (i = 1) as -> by lia.
           rewrite E2, app_nth1 by lia. rewrite X in *. split; [rewrite app_length; lia|auto].
      * assert (F := wk_first n G (S k) L W ltac:(lia)). cbn zeta in F. destruct F as [F1 F2]. split; [now apply ext_incl, ext_incl|].
        destruct F2 as [F2|(A & B & C)]; [left; now apply ext_incl, ext_incl|]. right.
        rewrite E, app_nth1 by auto. split; auto. rewrite app_length. lia.
Qed.

Lemma walking_step k L : walking n G k L -> k < length L -> exists c L', pstep G k L = (c, L') /\ walking n G (S k) L' /\ exists r, L' = L ++ r.
Proof.
  intros W Hk. destruct (visited_dec G k L (neg (nth k L 0))) as [V|V].
  - destruct (pstep_visited k L W Hk V) as (E & W'). exists [], L. rewrite E. split; auto. split; auto. exists []. now rewrite app_nil_r.
  - destruct (pstep_new k L W Hk V) as (l & m & E & _ & _ & W'). do 2 eexists. split; [exact E|]. split; auto.
    destruct (ext_prefix L (G (neg (nth k L 0)))) as (r1 & E1). destruct (ext_prefix (ext L (G (neg (nth k L 0)))) (G (G (neg (nth k L 0))))) as (r2 & E2).
    rewrite E2, E1. exists (r1 ++ r2). now rewrite app_assoc.
Qed.

(** ** The whole walk *)
Lemma same_edge x y : x / 2 = y / 2 -> x = y \/ x = neg y.
Proof.
  destruct (he_cases x) as (a & [->| ->]), (he_cases y) as (b & [->| ->]); rewrite ?div2_even, ?div2_odd, ?neg_even, ?neg_odd; intros ->; auto.
Qed.
Lemma walking_length k L : n mod 2 = 0 -> walking n G k L -> length L <= n / 2.
Proof.
  intros Ev W. assert (O := wk_ok n G k L W).
  assert (N : NoDup (map (fun x => x / 2) L)).
  { assert (X : forall L, labeled_ok n L -> NoDup (map (fun x => x / 2) L)); [|auto]. clear. intros L [N _ I].
    induction N as [|x r Ix N IH]; cbn; constructor.
    - intros J. apply in_map_iff in J as (y & E & J). assert (Q := same_edge y x E).
      destruct Q as [->| ->]; auto. apply (I x); cbn; auto.
    - apply IH. intros y J J'. apply (I y); cbn; auto. }
  assert (Inc : incl (map (fun x => x / 2) L) (seq 0 (n / 2))).
  { intros y J. apply in_map_iff in J as (x & <- & J). apply in_seq. assert (Hx := lo_lt n L O x J). split; [lia|]. rewrite Nat.add_0_l.
    apply Nat.div_lt_upper_bound; [lia|]. assert (D := Nat.div_mod_eq n 2). lia. }
  apply NoDup_incl_length in Inc; auto. now rewrite map_length, seq_length in Inc.
Qed.
Lemma walking_start h : h < n -> walking n G 0 [neg h].
Proof.
  intros Hh. split; cbn; try lia.
  - split.
    + constructor; auto. constructor.
    + intros x [<-|[]]. now apply (tg_neg n G T).
    + intros x [<-|[]] [E|[]]. symmetry in E. now apply neg_ne in E.
  - intros x (j & Hj & _). lia.
Qed.
(** The walk ends with everything labeled crossed. *)
Lemma prun_ok : n mod 2 = 0 -> forall j k L, walking n G k L -> n / 2 < k + j ->
  exists cs L', prun G j k L = (cs, L') /\ walking n G (length L') L' /\ length L' = k + length cs /\ exists r, L' = L ++ r.
Proof.
  intros Ev. induction j as [|j IH]; intros k L W H.
  - assert (A := walking_length k L Ev W). assert (B := wk_k n G k L W). lia.
  - cbn [prun]. destruct (Nat.leb_spec (length L) k) as [C|C].
    + exists [], L. assert (k = length L) as -> by (assert (B := wk_k n G k L W); lia). split; auto. split; auto. split; [cbn; lia|].
      exists []. now rewrite app_nil_r.
    + destruct (walking_step k L W C) as (c & L1 & E & W1 & r1 & ->). rewrite E.
      destruct (IH (S k) _ W1 ltac:(lia)) as (cs & L2 & E2 & W2 & H2 & r2 & ->). rewrite E2.
      do 2 eexists. split; [reflexivity|]. split; auto. split; [cbn; lia|]. exists (r1 ++ r2). now rewrite app_assoc.
Qed.
End step.
