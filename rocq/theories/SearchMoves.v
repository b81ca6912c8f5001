(** * Moves of the search *)
From Coq Require Import ZArith Reals List Arith Bool Lia Lra.
From Verif Require Import Base HalfEdge HalfEdgeFacts Perm PermSpec PermFacts IndexedSet Combinatorial CombinatorialSpec
  CombinatorialFacts CombinatorialHistory CombinatorialOps ExactReal Vector PlaneSpec Plane VectorFacts
  FlatTri FlatSpec FlatFacts FlatSum Chain ChainSpec ChainFacts Saddle SaddleSpec SaddleFacts Search SearchSpec PointFacts.
Import ListNotations.
Local Open Scope nat_scope.

Section moves.
Context {K : ExactReal} (n : nat) (cs : conns K).
Local Notation s := (cn_surface cs).
Hypothesis S0 : flat_surface n s.
Let W := fs_wf n s S0.

Lemma apply_move_Ok e c m : e < n -> length c = n / 2 -> possible s [m] (e, cvector n s c) ->
  exists f d, apply_move cs e c m = Ok (f, d) /\ f < n /\ length d = n / 2 /\ (f, cvector n s d) = moved s m (e, cvector n s c).
Proof.
  intros He Lc [P _]. assert (Hn : neg e < n) by now apply (neg_ltn n (fT s) W). destruct m; cbn [apply_move moved fst snd].
  - destruct (zc_add_he_Ok n s S0 c (neg e) Lc Hn) as (d & E & L & D & _). rewrite E. cbn [bind]. exists (neg e), d. repeat (split; auto). now rewrite D.
  - assert (Hf : nF (fT s) e < n) by now apply (nF_lt n _ W). rewrite (next_Ok n) by auto. cbn [bind].
    destruct (zc_add_he_Ok n s S0 c (nF (fT s) e) Lc Hf) as (d & E & L & D & _). rewrite E. cbn [bind]. exists (nF (fT s) e), d. repeat (split; auto). now rewrite D.
  - destruct (zc_sub_he_Ok n s S0 c e Lc He) as (d & E & L & D & _). rewrite E. cbn [bind]. rewrite (nextV_Ok n) by auto. cbn [bind].
    rewrite (nV_link' n _ W e He P), neg_neg. exists (nF (fT s) (nF (fT s) e)), d. repeat (split; auto); [now do 2 apply (nF_lt n _ W)|]. now rewrite D.
Qed.

Lemma moved_lt m x : fst x < n -> fst (moved s m x) < n.
Proof. intros H. destruct m; cbn [moved fst]; [now apply (neg_ltn n (fT s) W)|now apply (nF_lt n _ W)|now do 2 apply (nF_lt n _ W)]. Qed.

Lemma tri_sum e : e < n -> fF s e <> e -> padd (padd (vv s e) (vv s (fF s e))) (vv s (fF s (fF s e))) = (0, 0)%R.
Proof. intros He Ne. apply (fs_flat n s S0 e He Ne). Qed.

Lemma moves_loop_Ok : forall fuel l e c, 2 * length l + match l with GOTO_PREVIOUS_EDGE :: _ => 1 | _ => 0 end < fuel -> e < n -> length c = n / 2 -> possible s l (e, cvector n s c) ->
  exists f d, moves_loop cs fuel e c l = Ok (f, d) /\ f < n /\ length d = n / 2 /\ (f, cvector n s d) = moved_all s l (e, cvector n s c).
Proof.
  induction fuel as [|fuel IH]; intros l e c Lf He Lc P; [lia|]. cbn [moves_loop].
  destruct l as [|m [|m' l]]; [exists e, c; auto| |].
  { destruct (apply_move_Ok e c m He Lc P) as (f & d & E & H). exists f, d. rewrite E. split; auto. }
  assert (Hn : neg e < n) by now apply (neg_ltn n (fT s) W).
  assert (Step : forall e' c' l', 2 * length l' + match l' with GOTO_PREVIOUS_EDGE :: _ => 1 | _ => 0 end < fuel -> e' < n -> length c' = n / 2 -> 
    (possible s (m :: m' :: l) (e, cvector n s c) -> possible s l' (e', cvector n s c') /\ moved_all s l' (e', cvector n s c') = moved_all s (m :: m' :: l) (e, cvector n s c)) ->
    exists f d, moves_loop cs fuel e' c' l' = Ok (f, d) /\ f < n /\ length d = n / 2 /\ (f, cvector n s d) = moved_all s (m :: m' :: l) (e, cvector n s c)).
  { intros e' c' l' L' H' Lc' Q. destruct (Q P) as [Q1 <-]. now apply IH. }
  clear IH. set (x := (e, cvector n s c)) in *.
  assert (F3 : forall h, h < n -> fF s (fF s (fF s h)) = h) by (intros h Hh; now apply (fF3 n)).
  assert (Nb : forall h, h < n -> fF s h <> h -> fF s (fF s h) <> fF s h) by (intros h Hh; now apply (fF_nb n)).
  assert (Odd : forall h, h < n -> vv s (neg h) = pneg (vv s h)) by (apply (fs_odd n s S0)).
  assert (Lt : forall h, h < n -> fF s h < n) by (intros h Hh; now apply (fF_lt n)).
  assert (P1 : possible s l (moved s m' (moved s m x))) by (apply P). assert (Pm := proj1 P). assert (Pm' := proj1 (proj2 P)).
  assert (Sum := tri_sum e He). 
  destruct m, m'; cbn [moved_all fold_left] in *; fold (moved_all s l) in *.
  - (* OTHER OTHER *)
    apply Step; auto; [destruct l as [|[]]; cbn in Lf |- *; lia|]. intros _.
    assert (E : moved s GOTO_OTHER_FACE (moved s GOTO_OTHER_FACE x) = x).
    { unfold x; cbn [moved fst snd]. rewrite neg_neg. f_equal. rewrite Odd by auto. unfold padd, pneg; cbn. apply pt_eq; cbn [fst snd]; lra. }
    rewrite E in P1. fold x. split; auto. unfold moved_all. cbn [fold_left]. now rewrite E.
  - (* OTHER NEXT *)
    cbn [moved fst snd x] in Pm'. rewrite (nextV_Ok n) by auto. cbn [bind]. rewrite (nV_link' n _ W (neg e) Hn Pm'), neg_neg. fold (fF s (neg e)). fold (fF s (fF s (neg e))).
    assert (Sum' := tri_sum (neg e) Hn Pm').
    apply Step; auto; [cbn in Lf |- *; lia|]. intros _.
    assert (E : moved s GOTO_PREVIOUS_EDGE (fF s (fF s (neg e)), cvector n s c) = moved s GOTO_NEXT_EDGE (moved s GOTO_OTHER_FACE x)).
    { unfold x; cbn [moved fst snd]. rewrite F3 by auto. f_equal. destruct (vv s (neg e)), (vv s (fF s (neg e))), (vv s (fF s (fF s (neg e)))).
      unfold padd, pneg in *; cbn [fst snd] in *. injection Sum' as A B. apply pt_eq; cbn [fst snd]; lra. }
    split.
    + split; [cbn [fst]; now apply Nb; [auto|apply Nb]|]. now rewrite E.
    + unfold moved_all. cbn [fold_left]. now rewrite E.
  - (* OTHER PREVIOUS *)
    cbn [moved fst snd x] in Pm'. rewrite (nextV_Ok n) by auto. cbn [bind]. rewrite (nV_link' n _ W (neg e) Hn Pm'), neg_neg. fold (fF s (neg e)). fold (fF s (fF s (neg e))).
    apply Step; auto; [destruct l as [|[]]; cbn in Lf |- *; lia|]. intros _.
    assert (E : (fF s (fF s (neg e)), cvector n s c) = moved s GOTO_PREVIOUS_EDGE (moved s GOTO_OTHER_FACE x)).
    { unfold x; cbn [moved fst snd]. f_equal. unfold padd, pneg; cbn. apply pt_eq; cbn [fst snd]; lra. }
    rewrite E. split; auto.
  - (* NEXT OTHER *)
    rewrite (next_Ok n) by auto. cbn [bind]. fold (fF s e). apply Step; auto; [destruct l as [|[]]; cbn in Lf |- *; lia|apply (neg_ltn n (fT s) W); auto|]. intros _.
    assert (E : (neg (fF s e), cvector n s c) = moved s GOTO_OTHER_FACE (moved s GOTO_NEXT_EDGE x)).
    { unfold x; cbn [moved fst snd]. f_equal. rewrite Odd by auto. unfold padd, pneg; cbn. apply pt_eq; cbn [fst snd]; lra. }
    rewrite E. split; auto.
  - (* NEXT NEXT *)
    cbn [fst x] in Pm. apply Step; auto; [cbn in Lf |- *; lia|]. intros _.
    assert (E : moved s GOTO_PREVIOUS_EDGE x = moved s GOTO_NEXT_EDGE (moved s GOTO_NEXT_EDGE x)).
    { unfold x; cbn [moved fst snd]. f_equal. specialize (Sum Pm). destruct (vv s e), (vv s (fF s e)), (vv s (fF s (fF s e))). unfold padd, pneg in *; cbn [fst snd] in *.
      injection Sum as A B. apply pt_eq; cbn [fst snd]; lra. }
    fold x. split; [split; auto; now rewrite E|]. unfold moved_all. cbn [fold_left]. now rewrite E.
  - (* NEXT PREVIOUS *)
    cbn [fst x] in Pm. apply Step; auto; [destruct l as [|[]]; cbn in Lf |- *; lia|]. intros _.
    assert (E : x = moved s GOTO_PREVIOUS_EDGE (moved s GOTO_NEXT_EDGE x)).
    { unfold x; cbn [moved fst snd]. rewrite F3 by auto. f_equal. unfold padd, pneg; cbn. apply pt_eq; cbn [fst snd]; lra. }
    fold x. unfold moved_all. cbn [fold_left]. rewrite <- E. rewrite <- E in P1. split; auto.
  - (* PREVIOUS OTHER *)
    cbn [fst x] in Pm. destruct (apply_move_Ok e c GOTO_NEXT_EDGE He Lc) as (f & d & E & Hf & Ld & Em); [split; auto|]. rewrite E. cbn [bind].
    apply Step; auto; [cbn in Lf |- *; lia|]. intros _. rewrite Em. fold x.
    assert (E1 : moved s GOTO_NEXT_EDGE (moved s GOTO_NEXT_EDGE x) = moved s GOTO_PREVIOUS_EDGE x).
    { unfold x; cbn [moved fst snd]. f_equal. specialize (Sum Pm). destruct (vv s e), (vv s (fF s e)), (vv s (fF s (fF s e))). unfold padd, pneg in *; cbn [fst snd] in *.
      injection Sum as A B. apply pt_eq; cbn [fst snd]; lra. }
    unfold moved_all. cbn [fold_left possible]. rewrite E1. split; auto. split; [unfold x; cbn [moved fst]; now apply Nb|auto].
  - (* PREVIOUS NEXT *)
    cbn [fst x] in Pm. apply Step; auto; [destruct l as [|[]]; cbn in Lf |- *; lia|]. intros _.
    assert (E : x = moved s GOTO_NEXT_EDGE (moved s GOTO_PREVIOUS_EDGE x)).
    { unfold x; cbn [moved fst snd]. rewrite F3 by auto. f_equal. unfold padd, pneg; cbn. apply pt_eq; cbn [fst snd]; lra. }
    fold x. unfold moved_all. cbn [fold_left]. rewrite <- E. rewrite <- E in P1. split; auto.
  - (* PREVIOUS PREVIOUS *)
    cbn [fst x] in Pm. apply Step; auto; [cbn in Lf |- *; lia|]. intros _.
    assert (E : moved s GOTO_NEXT_EDGE x = moved s GOTO_PREVIOUS_EDGE (moved s GOTO_PREVIOUS_EDGE x)).
    { unfold x; cbn [moved fst snd]. rewrite F3 by auto. f_equal. specialize (Sum Pm). destruct (vv s e), (vv s (fF s e)), (vv s (fF s (fF s e))). unfold padd, pneg in *; cbn [fst snd] in *.
      injection Sum as A B. apply pt_eq; cbn [fst snd]; lra. }
    fold x. split; [split; auto; now rewrite E|]. unfold moved_all. cbn [fold_left]. now rewrite E.
Qed.

(** Where the search is when the pending moves have been applied. *)
Definition place (m : iter K) : nat * pt := moved_all s (it_moves m) (it_next m, cvector n s (it_end m)).
Definition placed (m : iter K) : Prop := it_next m < n /\ length (it_end m) = n / 2 /\ possible s (it_moves m) (it_next m, cvector n s (it_end m)).

Lemma apply_moves_Ok m : placed m -> exists e c, apply_moves cs m = Ok (set_position m e c []) /\ e < n /\ length c = n / 2 /\ (e, cvector n s c) = place m.
Proof.
  intros (He & Lc & P). destruct (moves_loop_Ok (2 * length (it_moves m) + 2) (it_moves m) (it_next m) (it_end m)) as (f & d & E & H); auto.
  { destruct (it_moves m) as [|[]]; lia. }
  unfold apply_moves. rewrite E. cbn [bind]. exists f, d. split; auto.
Qed.
End moves.
