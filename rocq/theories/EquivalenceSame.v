(** * Two walks with the same words *)
From Coq Require Import ZArith Reals List Arith Bool Lia Lra.
From Verif Require Import Base HalfEdge HalfEdgeFacts PermSpec CombinatorialSpec PlaneSpec Plane FlatSpec FlatSum EquivalenceWalk.
Import ListNotations.

(** ** Walks on isomorphic surfaces *)
Section iso.
Variables (n : nat) (G H : nat -> nat) (f : nat -> nat).
Hypothesis T : triangles n G.
Hypothesis Inj : forall x y, x < n -> y < n -> f x = f y -> x = y.
Hypothesis Neg : forall x, x < n -> f (neg x) = neg (f x).
Hypothesis Next : forall x, x < n -> f (G x) = H (f x).

Lemma pos_iso L h : (forall x, In x L -> x < n) -> h < n -> pos_of (f h) (map f L) = pos_of h L.
Proof. intros A B. apply pos_of_map. intros x I E. apply Inj in E; auto. Qed.
Lemma lab_iso L h : (forall x, In x L -> x < n) -> h < n -> lab (map f L) (f h) = lab L h.
Proof. intros A B. unfold lab. rewrite <- Neg, !pos_iso, map_length by (auto; now apply (tg_neg n G T)). reflexivity. Qed.
Lemma ext_iso L h : (forall x, In x L -> x < n) -> h < n -> ext (map f L) (f h) = map f (ext L h).
Proof.
  intros A B. unfold ext. rewrite <- Neg, !pos_iso by (auto; now apply (tg_neg n G T)).
  destruct (pos_of h L); auto. destruct (pos_of (neg h) L); auto. now rewrite map_app.
Qed.
Lemma pstep_iso k L : labeled_ok n L -> k < length L -> pstep H k (map f L) = (fst (pstep G k L), map f (snd (pstep G k L))).
Proof.
  intros O Hk. assert (A := lo_lt n L O).
  assert (Hn : nth k L 0 < n) by (apply A, nth_In; auto).
  assert (Hs : neg (nth k L 0) < n) by (now apply (tg_neg n G T)).
  assert (Hp := tg_lt n G T _ Hs). assert (Hq := tg_lt n G T _ Hp).
  unfold pstep. rewrite (nth_indep (map f L) 0 (f 0)) by (now rewrite map_length). rewrite map_nth, <- Neg, <- !Next by auto.
  assert (O1 : labeled_ok n (ext L (G (neg (nth k L 0))))) by (apply ext_ok; auto; apply T).
  rewrite !ext_iso, !lab_iso by (auto; apply O1).
  destruct (old k (lab L _)); [reflexivity|]. destruct (old k (lab (ext L _) _)); reflexivity.
Qed.
Lemma prun_iso : forall j k L, walking n G k L -> prun H j k (map f L) = (fst (prun G j k L), map f (snd (prun G j k L))).
Proof.
  induction j as [|j IH]; intros k L W; [reflexivity|]. cbn [prun]. rewrite map_length.
  destruct (Nat.leb_spec (length L) k) as [C|C]; [reflexivity|].
  rewrite pstep_iso by (auto; apply W). destruct (walking_step n G T k L W C) as (c & L1 & E & W1 & _). rewrite E. cbn [fst snd].
  rewrite IH by auto. destruct (prun G j (S k) L1). reflexivity.
Qed.
End iso.

(** ** The walk visits all of a connected surface *)
(** Vectors for the half edges such that all triangles close up. *)
Record closing (n : nat) (G : nat -> nat) (v : nat -> pt) : Prop := {
  cl_neg : forall x, x < n -> v (neg x) = pneg (v x);
  cl_sum : forall x, x < n -> padd (padd (v x) (v (G x))) (v (G (G x))) = (0, 0)%R;
  cl_zero : forall x, x < n -> v x <> (0, 0)%R
}.
(** All half edges can be reached from one half edge. *)
Definition reaches (n : nat) (G : nat -> nat) : Prop :=
  forall P : nat -> Prop, (exists x, x < n /\ P x) -> (forall x, x < n -> P x -> P (neg x) /\ P (G x)) -> forall x, x < n -> P x.

Section all.
Variables (n : nat) (G : nat -> nat) (v : nat -> pt).
Hypothesis T : triangles n G.
Hypothesis Cl : closing n G v.

Lemma bij_G : bijection n G (fun x => G (G x)).
Proof. split; intros x Hx; (split; [auto using (tg_lt n G T)|now apply (tg_3 n G T)]). Qed.
Lemma bij_neg : bijection n neg neg.
Proof. split; intros x Hx; rewrite neg_neg; split; auto; now apply (tg_neg n G T). Qed.

(** The vectors in a union of triangles add up to zero. *)
Lemma sum_triangles (P : nat -> bool) (g : pt -> R) : g (0, 0)%R = 0%R -> (forall p q, g (padd p q) = g p + g q)%R ->
  (forall x, x < n -> P (G x) = P x) -> rsum (map (fun x => if P x then g (v x) else 0%R) (seq 0 n)) = 0%R.
Proof.
  intros Z A I. set (h := fun x => if P x then g (v x) else 0%R).
  assert (E1 := reindex n G (fun x => G (G x)) h bij_G).
  assert (E2 := reindex n G (fun x => G (G x)) (fun x => h (G x)) bij_G). cbn beta in E2.
  assert (E3 : (rsum (map (fun x => h x + (h (G x) + h (G (G x)))) (seq 0 n)) = 0)%R).
  { apply rsum_zero. intros x J. apply in_seq in J. assert (Hx : x < n) by lia. unfold h. rewrite (I (G x) (tg_lt n G T x Hx)), (I x Hx). destruct (P x); [|lra].
    assert (S := cl_sum n G v Cl x Hx). apply (f_equal g) in S. rewrite !A, Z in S. lra. }
  rewrite rsum_plus, rsum_plus in E3. rewrite E2, E1 in E3. lra.
Qed.

Lemma first_visited L : walking n G (length L) L -> visited G (length L) L (nth 0 L 0).
Proof.
  intros W. destruct (visited_dec G (length L) L (nth 0 L 0)) as [V|V]; auto. exfalso.
  assert (O := wk_ok n G _ L W). set (a := nth 0 L 0) in *. assert (Ia : In a L) by (apply nth_In, W). assert (Ha := lo_lt n L O a Ia).
  assert (Hna : neg a < n) by (now apply (tg_neg n G T)).
  set (P := fun x => if visited_dec G (length L) L x then true else false).
  assert (PG : forall x, x < n -> P (G x) = P x).
  { intros x Hx. unfold P. destruct (visited_dec G (length L) L x) as [A|A], (visited_dec G (length L) L (G x)) as [B|B]; auto; exfalso.
    - apply B. now apply (visited_next n).
    - apply A. rewrite <- (tg_3 n G T x Hx). apply (visited_next n G _ L _ T O (le_n _)). now apply (visited_next n). }
  assert (Vn : forall i, i < length L -> visited G (length L) L (neg (nth i L 0))) by (intros i Hi; exists i; split; auto; left; auto).
  assert (Pa : P a = false) by (unfold P; destruct (visited_dec G (length L) L a); tauto).
  assert (Pna : P (neg a) = true).
  { unfold P. destruct (visited_dec G (length L) L (neg a)) as [A|A]; auto. exfalso. apply A, Vn. apply W. }
  assert (Px : forall x, x < n -> x <> a -> x <> neg a -> P (neg x) = P x).
  { assert (Q : forall x, x < n -> x <> neg a -> visited G (length L) L x -> visited G (length L) L (neg x)).
    { intros x Hx Nx Vx. destruct (wk_face n G _ L W x Vx) as [J|J]; apply In_nth with (d := 0) in J as (i & Hi & E).
      - rewrite <- E. auto.
      - destruct i as [|i].
        + exfalso. apply Nx. fold a in E. now rewrite E, neg_neg.
        + rewrite <- E. apply W. lia. }
    intros x Hx N1 N2. unfold P.
    destruct (visited_dec G (length L) L x) as [A|A], (visited_dec G (length L) L (neg x)) as [B|B]; auto; exfalso; auto.
    apply A. rewrite <- (neg_neg x). apply Q; auto. - now apply (tg_neg n G T). - intros E. apply neg_inj in E. auto. }
  assert (Z : forall g : pt -> R, g (0, 0)%R = 0%R -> (forall p q, g (padd p q) = g p + g q)%R -> (forall p, g (pneg p) = - g p)%R -> g (v (neg a)) = 0%R).
  { intros g g0 ga gn. assert (E := sum_triangles P g g0 ga PG). set (h := fun x => if P x then g (v x) else 0%R) in *.
    assert (E1 := reindex n neg neg h bij_neg).
    assert (E2 : (rsum (map (fun x => h x + h (neg x)) (seq 0 n)) = 0)%R) by (rewrite rsum_plus, E1; lra).
    rewrite (rsum_support _ [a; neg a]) in E2.
    - cbn [map rsum] in E2. unfold h in E2. rewrite neg_neg, Pa, Pna in E2. lra.
    - constructor; [|constructor; [intros []|constructor]]. intros [X|[]]. now apply neg_ne in X.
    - apply seq_NoDup.
    - intros x [<-|[<-|[]]]; apply in_seq; lia.
    - intros x J N. apply in_seq in J. unfold h. rewrite Px by (cbn in N; auto; lia). rewrite (cl_neg n G v Cl) by lia. destruct (P x); [rewrite gn|]; lra. }
  assert (X := Z fst eq_refl (fun _ _ => eq_refl) (fun _ => eq_refl)). assert (Y := Z snd eq_refl (fun _ _ => eq_refl) (fun _ => eq_refl)).
  apply (cl_zero n G v Cl (neg a) Hna). destruct (v (neg a)) as [p q]. cbn in X, Y. now rewrite X, Y.
Qed.

Lemma all_visited L : reaches n G -> walking n G (length L) L -> forall x, x < n -> visited G (length L) L x.
Proof.
  intros C W. assert (O := wk_ok n G _ L W). apply C.
  - exists (nth 0 L 0). split; [apply (lo_lt n L O), nth_In, W|now apply first_visited].
  - intros x Hx V. split; [|now apply (visited_next n)].
    destruct (wk_face n G _ L W x V) as [J|J]; apply In_nth with (d := 0) in J as (i & Hi & E).
    + rewrite <- E. exists i. split; auto. left. auto.
    + rewrite <- E. destruct i as [|i]; [now apply first_visited|]. apply W. lia.
Qed.
Lemma all_known L : reaches n G -> walking n G (length L) L -> forall x, x < n -> In x L \/ In (neg x) L.
Proof. intros C W x Hx. apply (wk_face n G _ L W). now apply all_visited. Qed.
Lemma all_length L : n mod 2 = 0 -> reaches n G -> walking n G (length L) L -> length L = n / 2.
Proof.
  intros Ev C W. assert (A := walking_length n G _ L Ev W). enough (n <= 2 * length L).
  { assert (D := Nat.div_mod_eq n 2). lia. }
  assert (I : incl (seq 0 n) (L ++ map neg L)).
  { intros x J. apply in_seq in J. apply in_or_app. destruct (all_known L C W x ltac:(lia)) as [K|K]; auto. right.
    rewrite <- (neg_neg x). now apply in_map. }
  apply NoDup_incl_length in I; [|apply seq_NoDup]. rewrite seq_length, app_length, map_length in I. lia.
Qed.
End all.

(** ** Walks with the same word *)
Section same.
Variables (n : nat) (G : nat -> nat) (m : nat) (H : nat -> nat).
Hypothesis T : triangles n G.
Hypothesis U : triangles m H.

(** Half edges with the same label. *)
Definition alike (L M : list nat) (x y : nat) : Prop :=
  exists i, i < length L /\ ((x = nth i L 0 /\ y = nth i M 0) \/ (x = neg (nth i L 0) /\ y = neg (nth i M 0))).
(** The triangles that have been visited look alike. *)
Definition alike_faces (k : nat) (L M : list nat) : Prop :=
  forall j, j < k -> alike L M (G (neg (nth j L 0))) (H (neg (nth j M 0))) /\ alike L M (G (G (neg (nth j L 0)))) (H (H (neg (nth j M 0)))).

Lemma alike_app L M r t x y : length L = length M -> alike L M x y -> alike (L ++ r) (M ++ t) x y.
Proof. intros E (i & Hi & C). exists i. rewrite app_length, !app_nth1 by lia. split; auto. lia. Qed.
Lemma alike_neg L M x y : alike L M x y -> alike L M (neg x) (neg y).
Proof. intros (i & Hi & [(-> & ->)|(-> & ->)]); exists i; rewrite ?neg_neg; auto. Qed.
Lemma alike_fun L M x y z : labeled_ok n L -> alike L M x y -> alike L M x z -> y = z.
Proof.
  intros O (i & Hi & A) (j & Hj & B). assert (N := proj1 (NoDup_nth L 0) (lo_nodup n L O)).
  assert (Q : forall i j, i < length L -> j < length L -> nth i L 0 <> neg (nth j L 0)).
  { intros a b Ha Hb E. apply (lo_neg n L O (nth b L 0)); [now apply nth_In|]. rewrite <- E. now apply nth_In. }
  destruct A as [(-> & ->)|(-> & ->)], B as [(E & ->)|(E & ->)].
  - apply N in E; auto. now subst.
  - now apply Q in E.
  - symmetry in E. now apply Q in E.
  - apply neg_inj, N in E; auto. now subst.
Qed.
Lemma alike_sym L M x y : length L = length M -> alike L M x y -> alike M L y x.
Proof. intros E (i & Hi & A). exists i. split; [lia|]. tauto. Qed.

Lemma same_label k L M p q l : length L = length M -> k < length L -> decoded k L l p -> decoded k M l q ->
  alike (ext L p) (ext M q) p q /\ length (ext L p) = length (ext M q).
Proof.
  intros E Hk A B.
  assert (Z : forall L p l, k < length L -> decoded k L l p ->
     (l = Z.of_nat (length L) /\ ext L p = L ++ [p]) \/ (l = 0%Z /\ p = nth 0 L 0 /\ ext L p = L) \/
     (exists i, k < i < length L /\ l = (- Z.of_nat i)%Z /\ p = neg (nth i L 0) /\ ext L p = L)).
  { clear. intros L p l Hk [(-> & A & B)|[(-> & ->)|(i & Hi & -> & ->)]].
    - left. now rewrite ext_new.
    - right. left. split; auto. split; auto. apply ext_old. left. apply nth_In. lia.
    - right. right. exists i. split; auto. split; auto. split; auto. apply ext_old. right. rewrite neg_neg. apply nth_In. lia. }
  apply Z in A; auto. apply Z in B; [|lia]. clear Z.
  destruct A as [(A & ->)|[(A & -> & ->)|(i & Hi & A & -> & ->)]]; destruct B as [(B & ->)|[(B & -> & ->)|(j & Hj & B & -> & ->)]]; try (exfalso; lia).
  - split; [|rewrite !app_length; cbn; lia]. exists (length L). rewrite app_length. split; [cbn; lia|]. left.
    rewrite !app_nth2, E, Nat.sub_diag by lia. auto.
  - split; auto. exists 0. split; [lia|auto].
  - split; auto. assert (j = i) as -> by lia. exists i. split; [lia|auto].
Qed.

Lemma same_step k L M : walking n G k L -> walking m H k M -> length L = length M -> k < length L -> alike_faces k L M ->
  fst (pstep G k L) = fst (pstep H k M) ->
  length (snd (pstep G k L)) = length (snd (pstep H k M)) /\ alike_faces (S k) (snd (pstep G k L)) (snd (pstep H k M)).
Proof.
  intros W X E Hk A C. assert (Hk' : k < length M) by lia.
  assert (Sk : alike L M (neg (nth k L 0)) (neg (nth k M 0))) by (exists k; auto).
  destruct (visited_dec G k L (neg (nth k L 0))) as [V|V].
  - destruct (pstep_visited n G T k L W Hk V) as (E1 & W1).
    destruct (visited_dec H k M (neg (nth k M 0))) as [V'|V'].
    2:{ destruct (pstep_new m H U k M X Hk' V') as (? & ? & E2 & _). rewrite E1, E2 in C. discriminate. }
    destruct (pstep_visited m H U k M X Hk' V') as (E2 & X1). rewrite E1, E2. cbn [snd]. split; auto.
    intros j Hj. destruct (Nat.eq_dec j k) as [->|N]; [|apply A; lia].
    destruct V as (i & Hi & I). destruct (A i Hi) as [A1 A2].
    assert (O := wk_ok n G k L W). assert (O' := wk_ok m H k M X).
    assert (Hs : neg (nth i L 0) < n) by (apply (tg_neg n G T), (lo_lt n L O), nth_In; lia).
    assert (Hs' : neg (nth i M 0) < m) by (apply (tg_neg m H U), (lo_lt m M O'), nth_In; lia).
    assert (Si : alike L M (neg (nth i L 0)) (neg (nth i M 0))) by (exists i; split; [lia|auto]).
    destruct I as [I|[I|I]]; rewrite I in Sk |- *.
    + rewrite (alike_fun L M _ _ _ O Sk Si). auto.
    + rewrite (alike_fun L M _ _ _ O Sk A1). rewrite (tg_3 n G T), (tg_3 m H U) by auto. auto.
    + rewrite (alike_fun L M _ _ _ O Sk A2). rewrite (tg_3 n G T), (tg_3 m H U) by auto. auto.
  - destruct (visited_dec H k M (neg (nth k M 0))) as [V'|V'].
    { destruct (pstep_new n G T k L W Hk V) as (? & ? & E1 & _). destruct (pstep_visited m H U k M X Hk' V') as (E2 & _). rewrite E1, E2 in C. discriminate. }
    destruct (pstep_new n G T k L W Hk V) as (l1 & l2 & E1 & D1 & D2 & W1). destruct (pstep_new m H U k M X Hk' V') as (l1' & l2' & E2 & D1' & D2' & X1).
    rewrite E1, E2 in C |- *. cbn [fst snd] in *. injection C as <- <-.
    set (p := G (neg (nth k L 0))) in *. set (p' := H (neg (nth k M 0))) in *.
    destruct (same_label k L M p p' l1 E Hk D1 D1') as (B1 & E1').
    destruct (same_label k (ext L p) (ext M p') (G p) (H p') l2 E1') as (B2 & E2'); auto.
    { assert (Q := ext_length L p). lia. }
    split; auto.
    destruct (ext_prefix L p) as (r1 & P1). destruct (ext_prefix (ext L p) (G p)) as (r2 & P2).
    destruct (ext_prefix M p') as (t1 & Q1). destruct (ext_prefix (ext M p') (H p')) as (t2 & Q2).
    assert (N1 : forall j, j < length L -> nth j (ext (ext L p) (G p)) 0 = nth j L 0) by (intros j Hj; rewrite P2, P1, !app_nth1; rewrite ?app_length; auto; lia).
    assert (N2 : forall j, j < length L -> nth j (ext (ext M p') (H p')) 0 = nth j M 0) by (intros j Hj; rewrite Q2, Q1, !app_nth1; rewrite ?app_length; auto; lia).
    intros j Hj. rewrite N1, N2 by lia. destruct (Nat.eq_dec j k) as [->|Nj].
    + fold p p'. split; auto. rewrite P2, Q2. now apply alike_app.
    + destruct (A j ltac:(lia)) as [A1 A2]. rewrite P2, Q2. split; apply alike_app; auto; rewrite P1, Q1; apply alike_app; auto.
Qed.

Lemma same_run : n mod 2 = 0 -> forall j k L M, walking n G k L -> walking m H k M -> length L = length M -> alike_faces k L M ->
  n / 2 < k + j -> fst (prun G j k L) = fst (prun H j k M) ->
  length (snd (prun G j k L)) = length (snd (prun H j k M)) /\ alike_faces (length (snd (prun G j k L))) (snd (prun G j k L)) (snd (prun H j k M)).
Proof.
  intros Ev. induction j as [|j IH]; intros k L M W X E A B C.
  - assert (P := walking_length n G k L Ev W). assert (Q := wk_k n G k L W). lia.
  - cbn [prun] in *. rewrite <- E in C |- *. destruct (Nat.leb_spec (length L) k) as [D|D].
    + cbn [snd]. split; auto. assert (Q := wk_k n G k L W). assert (k = length L) as <- by lia. auto.
    + destruct (walking_step n G T k L W D) as (c & L1 & E1 & W1 & _). destruct (walking_step m H U k M X ltac:(lia)) as (d & M1 & E2 & X1 & _).
      pose proof (same_step k L M W X E D A) as S. rewrite E1, E2 in *. cbn [fst snd] in S.
      specialize (IH (Datatypes.S k) L1 M1 W1 X1).
      destruct (prun G j (Datatypes.S k) L1) as [cs L2]. destruct (prun H j (Datatypes.S k) M1) as [ds M2]. cbn [fst snd] in *.
      injection C as <- <-. destruct (S eq_refl) as (S1 & S2). apply IH; auto. lia.
Qed.
End same.

(** The number of steps that are allowed does not matter if it is large enough. *)
Lemma prun_fuel n G : triangles n G -> n mod 2 = 0 -> forall j i k L, walking n G k L -> n / 2 < k + j -> prun G (j + i) k L = prun G j k L.
Proof.
  intros T Ev. induction j as [|j IH]; intros i k L W B.
  - assert (P := walking_length n G k L Ev W). assert (Q := wk_k n G k L W). lia.
  - cbn [prun Nat.add]. destruct (Nat.leb_spec (length L) k) as [D|D]; auto.
    destruct (walking_step n G T k L W D) as (c & L1 & E1 & W1 & _). rewrite E1, IH; auto. lia.
Qed.
(** The word that is found from the half edge [h], and the half edges in the order of their labels. *)
Definition walk_word (n : nat) (G : nat -> nat) (h : nat) : list (list Z) := fst (prun G (S n) 0 [neg h]).
Definition walk_list (n : nat) (G : nat -> nat) (h : nat) : list nat := snd (prun G (S n) 0 [neg h]).

Lemma half_le n : n / 2 < S n.
Proof. assert (n / 2 <= n) by (apply Nat.div_le_upper_bound; lia). lia. Qed.

Lemma walk_ok n G h : triangles n G -> n mod 2 = 0 -> h < n ->
  walking n G (length (walk_list n G h)) (walk_list n G h) /\ length (walk_word n G h) = length (walk_list n G h) /\ nth 0 (walk_list n G h) 0 = neg h.
Proof.
  intros T Ev Hh. destruct (prun_ok n G T Ev (S n) 0 [neg h] (walking_start n G T h Hh) (half_le n)) as (cs & L & E & W & A & r & R).
  unfold walk_word, walk_list. rewrite E. cbn [fst snd]. split; auto. split; [lia|]. now rewrite R.
Qed.

(** A map of half edges that respects edges and triangles. *)
Record triangle_map (n : nat) (G : nat -> nat) (m : nat) (H : nat -> nat) (f : nat -> nat) : Prop := {
  tm_lt : forall x, x < n -> f x < m;
  tm_inj : forall x y, x < n -> y < n -> f x = f y -> x = y;
  tm_neg : forall x, x < n -> f (neg x) = neg (f x);
  tm_next : forall x, x < n -> f (G x) = H (f x)
}.

Lemma iso_same_word n G m H f h : triangles n G -> triangles m H -> n mod 2 = 0 -> n = m -> triangle_map n G m H f -> h < n ->
  walk_word m H (f h) = walk_word n G h /\ walk_list m H (f h) = map f (walk_list n G h).
Proof.
  intros T U Ev <- M Hh. unfold walk_word, walk_list. rewrite <- (tm_neg _ _ _ _ f M h Hh).
  assert (E := prun_iso n G H f T (tm_inj _ _ _ _ f M) (tm_neg _ _ _ _ f M) (tm_next _ _ _ _ f M) (S n) 0 [neg h] (walking_start n G T h Hh)).
  cbn [map] in E. rewrite E. auto.
Qed.

Definition match_lists (L M : list nat) (x : nat) : nat :=
  match pos_of x L with
  | Some i => nth i M 0
  | None => match pos_of (neg x) L with Some i => neg (nth i M 0) | None => 0 end
  end.
Lemma match_alike L M x : In x L \/ In (neg x) L -> alike L M x (match_lists L M x).
Proof.
  intros I. unfold match_lists. destruct (pos_of x L) as [i|] eqn:E.
  - apply pos_of_Some in E as (Hi & <-). exists i. auto.
  - apply pos_of_None in E. destruct I as [I|I]; [contradiction|]. destruct (pos_of (neg x) L) as [i|] eqn:E'.
    + apply pos_of_Some in E' as (Hi & E'). exists i. rewrite E', neg_neg. auto.
    + now apply pos_of_None in E'.
Qed.

Lemma same_word_iso n G v m H w h g : triangles n G -> triangles m H -> closing n G v -> closing m H w -> reaches n G -> reaches m H ->
  n mod 2 = 0 -> m mod 2 = 0 -> h < n -> g < m -> walk_word n G h = walk_word m H g ->
  n = m /\ exists f, triangle_map n G m H f /\ f h = g /\ walk_list m H g = map f (walk_list n G h).
Proof.
  intros T U Cv Cw Rv Rw Ev Ew Hh Hg E.
  destruct (walk_ok n G h T Ev Hh) as (W & A & Z). destruct (walk_ok m H g U Ew Hg) as (X & B & Y).
  assert (F : alike_faces G H (length (walk_list n G h)) (walk_list n G h) (walk_list m H g)).
  { unfold walk_word, walk_list in *.
    rewrite <- (prun_fuel n G T Ev (S n) (S m) 0 [neg h] (walking_start n G T h Hh) (half_le n)) in *.
    rewrite <- (prun_fuel m H U Ew (S m) (S n) 0 [neg g] (walking_start m H U g Hg) (half_le m)) in *.
    rewrite (Nat.add_comm (S m)) in *.
    destruct (same_run n G m H T U Ev (S n + S m) 0 [neg h] [neg g]) as (_ & S); auto.
    - now apply walking_start. - now apply walking_start. - intros j Hj. lia. - assert (Q := half_le n). lia. }
  set (L := walk_list n G h) in *. set (M := walk_list m H g) in *.
  assert (EL : length L = length M) by (rewrite <- A, <- B, E; auto).
  assert (Hn := all_length n G v T Cv L Ev Rv W). assert (Hm := all_length m H w U Cw M Ew Rw X).
  assert (Enm : n = m). { assert (D := Nat.div_mod_eq n 2). assert (D' := Nat.div_mod_eq m 2). lia. }
  split; auto.
  assert (O := wk_ok n G _ L W). assert (O' := wk_ok m H _ M X).
  assert (Kn := all_known n G v T Cv L Rv W). assert (Km := all_known m H w U Cw M Rw X).
  set (f := match_lists L M).
  assert (Al : forall x, x < n -> alike L M x (f x)) by (intros x Hx; apply match_alike; auto).
  assert (Flt : forall x, x < n -> f x < m).
  { intros x Hx. destruct (Al x Hx) as (i & Hi & [(_ & ->)|(_ & ->)]); [|apply (tg_neg m H U)]; apply (lo_lt m M O'), nth_In; lia. }
  assert (Fu : forall x y, x < n -> alike L M x y -> y = f x) by (intros x y Hx Q; apply (alike_fun n L M x y (f x) O Q (Al x Hx))).
  exists f. split; [|split].
  - split; auto.
    + intros x y Hx Hy Q. assert (P1 := alike_sym L M x (f x) EL (Al x Hx)). assert (P2 := alike_sym L M y (f y) EL (Al y Hy)). rewrite Q in P1.
      apply (alike_fun m M L _ _ _ O' P1 P2).
    + intros x Hx. symmetry. apply Fu; [now apply (tg_neg n G T)|]. now apply alike_neg, Al.
    + intros x Hx. symmetry. apply Fu; [now apply (tg_lt n G T)|].
      destruct (all_visited n G v T Cv L Rv W x Hx) as (j & Hj & I).
      destruct (F j Hj) as [F1 F2]. assert (F0 : alike L M (neg (nth j L 0)) (neg (nth j M 0))) by (exists j; auto).
      assert (Hs : neg (nth j L 0) < n) by (apply (tg_neg n G T), (lo_lt n L O), nth_In; auto).
      assert (Hs' : neg (nth j M 0) < m) by (apply (tg_neg m H U), (lo_lt m M O'), nth_In; lia).
      destruct I as [->|[->| ->]].
      * now rewrite <- (Fu _ _ Hs F0).
      * now rewrite <- (Fu _ _ (tg_lt n G T _ Hs) F1).
      * rewrite <- (Fu _ _ (tg_lt n G T _ (tg_lt n G T _ Hs)) F2). now rewrite (tg_3 n G T), (tg_3 m H U).
  - symmetry. apply Fu; auto. exists 0. split; [apply W|]. right. rewrite Z, Y, !neg_neg. auto.
  - apply nth_ext with (d := 0) (d' := f 0); [now rewrite map_length|]. intros i Hi. rewrite map_nth.
    apply Fu; [apply (lo_lt n L O), nth_In; lia|]. exists i. split; [lia|auto].
Qed.
