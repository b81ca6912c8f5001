(** * The smallest of several words *)
From Coq Require Import List Arith Bool Lia.
From Verif Require Import Base Equivalence.
Import ListNotations.

Section word.
Context {W C X : Type}.
Variable step : W -> outcome (option C * W).
Variable cmp : C -> C -> comparison.
Variable key : C -> X.
Hypothesis cmp_eq : forall a b, cmp a b = Eq <-> key a = key b.
Hypothesis cmp_flip : forall a b, cmp b a = CompOpp (cmp a b).
Hypothesis cmp_trans : forall a b c, cmp a b = Lt -> cmp b c = Lt -> cmp a c = Lt.

Lemma cmp_left a a' b : key a = key a' -> cmp a b = cmp a' b.
Proof.
  intros E. apply cmp_eq in E. assert (E' : cmp a' a = Eq) by (rewrite cmp_flip, E; reflexivity).
  destruct (cmp a b) eqn:A, (cmp a' b) eqn:B; auto; exfalso.
  - apply cmp_eq in A, E. rewrite A in E. symmetry in E. apply cmp_eq in E. congruence.
  - apply cmp_eq in A, E. rewrite A in E. symmetry in E. apply cmp_eq in E. congruence.
  - apply cmp_eq in B, E. rewrite B in E. apply cmp_eq in E. congruence.
  - assert (Y : cmp b a' = Lt) by (rewrite cmp_flip, B; reflexivity). assert (Z := cmp_trans a b a' A Y). congruence.
  - apply cmp_eq in B, E. rewrite B in E. apply cmp_eq in E. congruence.
  - assert (Y : cmp b a = Lt) by (rewrite cmp_flip, A; reflexivity). assert (Z := cmp_trans a' b a B Y). congruence.
Qed.
Lemma cmp_right a b b' : key b = key b' -> cmp a b = cmp a b'.
Proof. intros E. rewrite (cmp_flip b), (cmp_flip b'). f_equal. now apply cmp_left. Qed.

(** The lexicographic order. *)
Fixpoint lex (a b : list C) : comparison :=
  match a, b with
  | [], [] => Eq
  | [], _ :: _ => Lt
  | _ :: _, [] => Gt
  | x :: a, y :: b => match cmp x y with Eq => lex a b | o => o end
  end.
Lemma lex_eq a b : lex a b = Eq <-> map key a = map key b.
Proof.
  revert b. induction a as [|x a IH]; intros [|y b]; cbn; split; intros E; try discriminate; auto.
  - destruct (cmp x y) eqn:D; try discriminate. apply cmp_eq in D. f_equal; auto. now apply IH.
  - injection E as E1 E2. apply cmp_eq in E1. rewrite E1. now apply IH.
Qed.
Lemma lex_flip a b : lex b a = CompOpp (lex a b).
Proof.
  revert b. induction a as [|x a IH]; intros [|y b]; cbn; auto. rewrite (cmp_flip x y). destruct (cmp x y); cbn; auto.
Qed.
Lemma lex_right a b b' : map key b = map key b' -> lex a b = lex a b'.
Proof.
  revert b b'. induction a as [|x a IH]; intros [|y b] [|z c]; cbn; intros E; try discriminate; auto.
  injection E as E1 E2. rewrite (cmp_right x y z E1). destruct (cmp x z); auto.
Qed.

(** The walker [w] produces the characters [cs] and ends as [w']. *)
Inductive emits : W -> list C -> W -> Prop :=
| emits_nil w : step w = Ok (None, w) -> emits w [] w
| emits_cons w c w1 cs w' : step w = Ok (Some c, w1) -> emits w1 cs w' -> emits w (c :: cs) w'.

(** What remains to be done: a walker, the characters it is going to produce and its final state. *)
Record job := mkJob { j_walker : W; j_chars : list C; j_final : W }.
Definition runs (j : job) : Prop := emits (j_walker j) (j_chars j) (j_final j).
Definition winner (cs : list C) (j : job) : bool := match lex cs (j_chars j) with Eq => true | _ => false end.

(** One round, when all walkers produce a character; [f] is the walker after its step and [hd] its character. *)
Lemma round_ok (f : W -> W) (hd : W -> C) : forall ws stepped still best,
  (forall w, In w ws -> step w = Ok (Some (hd w), f w)) -> ws <> [] ->
  exists c, round step cmp ws stepped still best =
    Ok (stepped ++ map f ws, (match best with Some b => match cmp c b with Eq => still | _ => [] end | None => [] end) ++
        map f (filter (fun w => match cmp c (hd w) with Eq => true | _ => false end) ws), Some c) /\
    (best = Some c \/ In c (map hd ws)) /\
    (forall w, In w ws -> cmp c (hd w) <> Gt) /\ (forall b, best = Some b -> cmp c b <> Gt).
Proof.
  induction ws as [|w r IH]; intros stepped still best S N; [congruence|]. clear N. cbn [round map filter].
  rewrite (S w (or_introl eq_refl)). cbn [bind].
  assert (Sr : forall w, In w r -> step w = Ok (Some (hd w), f w)) by (intros x I; apply S; now right).
  assert (Base : forall stepped still b, r = [] -> round step cmp r stepped still (Some b) = Ok (stepped, still, Some b)) by (intros ? ? ? ->; reflexivity).
  (* the rest with some best character *)
  assert (Rest : forall stepped still b, exists c, round step cmp r stepped still (Some b) =
      Ok (stepped ++ map f r, (match cmp c b with Eq => still | _ => [] end) ++
          map f (filter (fun w => match cmp c (hd w) with Eq => true | _ => false end) r), Some c) /\
      (b = c \/ In c (map hd r)) /\ (forall w, In w r -> cmp c (hd w) <> Gt) /\ cmp c b <> Gt).
  { intros st sl b. destruct r as [|w' r'].
    - exists b. cbn. rewrite app_nil_r. assert (Z : cmp b b = Eq) by (now apply cmp_eq). rewrite Z, app_nil_r. split; auto. split; auto. split; [tauto|congruence].
    - destruct (IH st sl (Some b) Sr ltac:(discriminate)) as (c & E & A & B & D). exists c. split; auto. split; [|split; auto].
      destruct A as [A|A]; auto. left. congruence. }
  clear IH Base. set (h := hd w). unfold cmp_optional. destruct best as [b|].
  - destruct (cmp h b) eqn:Q.
    + destruct (Rest (stepped ++ [f w]) (still ++ [f w]) b) as (c & E & A & B & D). exists c. rewrite E. clear E Rest.
      assert (Y : cmp c h = cmp c b) by (apply cmp_right; now apply cmp_eq). rewrite Y.
      split; [|split; [|split]].
      * rewrite <- app_assoc. cbn [app]. destruct (cmp c b); cbn [map app]; [now rewrite <- app_assoc|reflexivity|reflexivity].
      * destruct A as [->|A]; cbn; auto.
      * intros x [<-|I]; auto. change (cmp c h <> Gt). now rewrite Y.
      * intros b' [= <-]. auto.
    + destruct (Rest (stepped ++ [f w]) [f w] h) as (c & E & A & B & D). exists c. rewrite E. clear E Rest.
      assert (Y : cmp c b = Lt).
      { destruct (cmp c h) eqn:P; [|eauto|congruence]. rewrite (cmp_left c h b); auto. now apply cmp_eq. }
      rewrite Y. split; [|split; [|split]].
      * rewrite <- app_assoc. cbn [app]. destruct (cmp c h); reflexivity.
      * right. cbn. destruct A as [<-|A]; auto.
      * intros x [<-|I]; auto.
      * intros b' [= <-]. congruence.
    + destruct (Rest (stepped ++ [f w]) still b) as (c & E & A & B & D). exists c. rewrite E. clear E Rest.
      assert (Y : cmp c h = Lt).
      { assert (Z : cmp b h = Lt) by (rewrite cmp_flip, Q; reflexivity). destruct (cmp c b) eqn:P; [|eauto|congruence].
        rewrite (cmp_left c b h); auto. now apply cmp_eq. }
      rewrite Y. split; [|split; [|split]].
      * rewrite <- app_assoc. reflexivity.
      * destruct A as [->|A]; cbn; auto.
      * intros x [<-|I]; auto. change (cmp c h <> Gt). congruence.
      * intros b' [= <-]. auto.
  - destruct (Rest (stepped ++ [f w]) [f w] h) as (c & E & A & B & D). exists c. rewrite E. clear E Rest.
    split; [|split; [|split]].
    + rewrite <- app_assoc. cbn [app]. destruct (cmp c h); reflexivity.
    + right. cbn. destruct A as [<-|A]; auto.
    + intros x [<-|I]; auto.
    + discriminate.
Qed.

(** The last round. *)
Lemma round_last ws stepped : (forall w, In w ws -> step w = Ok (None, w)) -> round step cmp ws stepped [] None = Ok (stepped ++ ws, [], None).
Proof.
  revert stepped. induction ws as [|w r IH]; intros stepped S; cbn; [now rewrite app_nil_r|].
  rewrite (S w (or_introl eq_refl)). cbn. rewrite IH by (intros x I; apply S; now right). now rewrite <- app_assoc.
Qed.

(** Pairs of a walker and the characters that it is going to produce. *)
Lemma emits_hd w cs w' n : emits w cs w' -> length cs = S n -> exists c w1 r, step w = Ok (Some c, w1) /\ emits w1 r w' /\ cs = c :: r /\ length r = n.
Proof. intros E L. inversion E as [|? c w1 r ? A B]; subst; cbn in L; [discriminate|]. exists c, w1, r. repeat split; auto. Qed.

Definition after_step (w : W) : W := match step w with Ok (_, w) => w | _ => w end.
Definition emitted (d : C) (w : W) : C := match step w with Ok (Some c, _) => c | _ => d end.

(** The word is the smallest of the words of the walkers, and the walkers that remain are those that produce it. *)
Lemma word_ok : forall n js fuel acc, js <> [] -> (forall j, In j js -> runs j /\ length (j_chars j) = n) -> n < fuel ->
  exists cs, word step cmp fuel (map j_walker js) acc = Ok (acc ++ cs, map j_final (filter (winner cs) js)) /\
    (exists j, In j js /\ map key (j_chars j) = map key cs) /\ (forall j, In j js -> lex cs (j_chars j) <> Gt).
Proof.
  induction n as [|n IH]; intros js fuel acc N R F; (destruct fuel as [|fuel]; [lia|]); cbn [word].
  - exists []. assert (Z : forall j, In j js -> step (j_walker j) = Ok (None, j_walker j) /\ j_chars j = [] /\ j_final j = j_walker j).
    { intros j I. destruct (R j I) as (E & L). destruct j as [w cs w']. cbn in *. red in E. cbn in E. destruct cs; [|discriminate]. inversion E; subst. auto. }
    rewrite round_last by (intros w I; apply in_map_iff in I as (j & <- & I); now apply Z). cbn [bind app]. rewrite app_nil_r.
    split; [|split].
    + f_equal. f_equal. clear - Z. induction js as [|j r IH]; cbn; auto. destruct (Z j (or_introl eq_refl)) as (_ & A & B). unfold winner. rewrite A. cbn. rewrite B.
      f_equal. apply IH. intros x I. apply Z. now right.
    + destruct js as [|j r]; [congruence|]. exists j. split; [now left|]. destruct (Z j (or_introl eq_refl)) as (_ & -> & _). reflexivity.
    + intros j I. destruct (Z j I) as (_ & -> & _). discriminate.
  - assert (Hd : exists d : C, True).
    { destruct js as [|j r]; [congruence|]. destruct (R j (or_introl eq_refl)) as (E & L). destruct (emits_hd _ _ _ n E L) as (c & _). exists c. auto. }
    destruct Hd as (d & _).
    assert (Z : forall j, In j js -> step (j_walker j) = Ok (Some (emitted d (j_walker j)), after_step (j_walker j)) /\
       emits (after_step (j_walker j)) (tl (j_chars j)) (j_final j) /\ j_chars j = emitted d (j_walker j) :: tl (j_chars j) /\ length (tl (j_chars j)) = n).
    { intros j I. destruct (R j I) as (E & L). destruct (emits_hd _ _ _ n E L) as (c & w1 & r & A & B & D & Lr). unfold emitted, after_step. rewrite A, D. cbn. auto. }
    destruct (round_ok after_step (emitted d) (map j_walker js) [] [] None) as (c & E & A & B & _).
    { intros w I. apply in_map_iff in I as (j & <- & I). now apply Z. }
    { destruct js; [congruence|discriminate]. }
    rewrite E. clear E. cbn [bind app].
    set (next := fun j => mkJob (after_step (j_walker j)) (tl (j_chars j)) (j_final j)).
    set (best := fun j => match cmp c (emitted d (j_walker j)) with Eq => true | _ => false end).
    assert (Ef : map after_step (filter (fun w => match cmp c (emitted d w) with Eq => true | _ => false end) (map j_walker js)) = map j_walker (map next (filter best js))).
    { clear. induction js as [|j r IH]; cbn; auto. unfold best at 1. destruct (cmp c (emitted d (j_walker j))); cbn; now rewrite IH. }
    rewrite Ef. clear Ef.
    destruct (IH (map next (filter best js)) fuel (acc ++ [c])) as (cs & E & P & Q); [| |lia|].
    { destruct A as [A|A]; [discriminate|]. rewrite map_map in A. apply in_map_iff in A as (j & Ej & I).
      assert (J : In j (filter best js)). { apply filter_In. split; auto. unfold best. rewrite Ej. assert (X1 : cmp c c = Eq) by (now apply cmp_eq). now rewrite X1. }
      destruct (filter best js); [destruct J|discriminate]. }
    { intros j' I. apply in_map_iff in I as (j & <- & I). apply filter_In in I as (I & _). destruct (Z j I) as (_ & Z2 & _ & Z4). auto. }
    exists (c :: cs). rewrite E. split; [|split].
    + f_equal. f_equal; [now rewrite <- app_assoc|]. clear - Z. induction js as [|j r IH]; cbn; auto.
      assert (Zr := IH (fun x I => Z x (or_intror I))). destruct (Z j (or_introl eq_refl)) as (_ & _ & Z3 & _).
      unfold best at 1. unfold winner at 2. rewrite Z3. cbn [lex]. destruct (cmp c (emitted d (j_walker j))) eqn:D; cbn [map filter]; auto.
      change (winner cs (next j)) with (match lex cs (tl (j_chars j)) with Eq => true | _ => false end).
      destruct (lex cs (tl (j_chars j))); cbn [map]; rewrite <- ?Zr; reflexivity.
    + destruct P as (j' & I & P). apply in_map_iff in I as (j & <- & I). apply filter_In in I as (I & Bj). exists j. split; auto.
      destruct (Z j I) as (_ & _ & Z3 & _). rewrite Z3. cbn. f_equal; auto. unfold best in Bj. symmetry. apply cmp_eq.
      destruct (cmp c (emitted d (j_walker j))); auto; discriminate.
    + intros j I. destruct (Z j I) as (_ & _ & Z3 & _). rewrite Z3. cbn [lex]. destruct (cmp c (emitted d (j_walker j))) eqn:D.
      * change (tl (j_chars j)) with (j_chars (next j)). apply Q. apply in_map. apply filter_In. split; auto. unfold best. now rewrite D.
      * discriminate.
      * exfalso. apply (B (j_walker j)); auto. now apply in_map.
Qed.
End word.
