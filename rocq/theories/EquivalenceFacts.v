(** * The walkers of the library follow the walk of EquivalenceWalk.v *)
From Coq Require Import ZArith Reals List Arith Bool Lia Lra Permutation.
From Verif Require Import Base HalfEdge HalfEdgeFacts Perm PermSpec PermFacts PermCycles IndexedSet Combinatorial CombinatorialSpec CombinatorialFacts CombinatorialOps
  ExactReal Vector PlaneSpec Plane VectorFacts FlatTri FlatSpec FlatFacts FlatSum FlatLinear FlatOps FlatAngle
  Point PointSpec Linear Saddle Deform DeformSpec DeformFacts DeformPath DeformGood DeformCompose
  Equivalence EquivalenceWalk EquivalenceSame EquivalenceWord EquivalenceSpec.
Import ListNotations.
Local Open Scope nat_scope.

(** ** Labels *)
Definition number (L : list nat) : list (nat * Z) := combine L (map Z.of_nat (seq 0 (length L))).
Lemma find_numbered h : forall L i, find_label (combine L (map Z.of_nat (seq i (length L)))) h = option_map (fun j => Z.of_nat (i + j)) (pos_of h L).
Proof.
  induction L as [|x r IH]; intros i; [reflexivity|]. cbn [length seq map combine]. unfold find_label in *. cbn [find fst pos_of].
  destruct (Nat.eqb_spec x h) as [->|N]; [cbn [option_map]; now rewrite Nat.add_0_r|]. rewrite (IH (S i)). destruct (pos_of h r) as [j|]; cbn [option_map]; auto.
  f_equal. f_equal. lia.
Qed.
Lemma find_number h L : find_label (number L) h = option_map Z.of_nat (pos_of h L).
Proof. unfold number. now rewrite find_numbered. Qed.
Lemma number_length L : length (number L) = length L.
Proof. unfold number. rewrite combine_length, map_length, seq_length. lia. Qed.
Lemma number_snoc L h : number (L ++ [h]) = number L ++ [(h, Z.of_nat (length L))].
Proof.
  unfold number. rewrite app_length, seq_app, map_app. cbn [length seq map Nat.add]. 
  enough (G : forall (A B : Type) (l : list A) (k : list B) x y, length l = length k -> combine (l ++ [x]) (k ++ [y]) = combine l k ++ [(x, y)]).
  { apply G. now rewrite map_length, seq_length. }
  intros A B. induction l as [|a l IH]; intros [|b k] x y E; try discriminate; cbn; auto. f_equal. apply IH. now injection E.
Qed.

Section facts.
Context {K : ExactReal}.
Implicit Types s u : flat K.

(** The next half edge in a triangle of the surface, or of its mirror image. *)
Definition gF s (o : Z) (h : nat) : nat := if (0 <? o)%Z then fF s h else neg (pV (fT s) (neg (pV (fT s) h))).
(** A walker that has labeled [L] and crossed [k] half edges. *)
Definition cw_at s (o : Z) (k : nat) (L : list nat) : cwalker := mkCW s (number L) L o k.

Lemma pV_closed n s h : closed_flat n s -> h < n -> pV (fT s) h = fF s (neg h).
Proof.
  intros [S C] H. assert (W := fs_wf n s S). assert (Hn := neg_ltn n _ W h H). assert (H1 := fF_lt n s _ S Hn).
  apply (nV_inj n _ W); [now apply (pV_lt n)|auto|]. rewrite (nV_pV n) by auto.
  rewrite (nV_link' n _ W _ H1) by (apply (C _ H1)). symmetry. change (neg (fF s (fF s (fF s (neg h)))) = h). rewrite (fF3 n) by auto. apply neg_neg.
Qed.
Lemma gF_neg n s h : closed_flat n s -> h < n -> neg (pV (fT s) (neg (pV (fT s) h))) = neg (fF s (fF s (neg h))).
Proof.
  intros S H. assert (W := fs_wf n s (proj1 S)). assert (Hn := neg_ltn n _ W h H). assert (H1 := fF_lt n s _ (proj1 S) Hn).
  rewrite (pV_closed n s h S H), (pV_closed n s _ S) by (now apply (neg_ltn n _ W)). now rewrite neg_neg.
Qed.
Lemma gF_eq n s o h : closed_flat n s -> h < n -> gF s o h = if (0 <? o)%Z then fF s h else neg (fF s (fF s (neg h))).
Proof. intros S H. unfold gF. destruct (0 <? o)%Z; auto. now apply (gF_neg n). Qed.
Lemma gF_triangles n s o : closed_flat n s -> triangles n (gF s o).
Proof.
  intros S. pose proof S as [S0 C]. assert (W := fs_wf n s S0). assert (N := neg_ltn n _ W).
  assert (L := fun h => fF_lt n s h S0).
  assert (Lt : forall h, h < n -> gF s o h < n) by (intros h H; rewrite (gF_eq n) by auto; destruct (0 <? o)%Z; auto).
  constructor; auto.
  - intros x H. rewrite (gF_eq n s o (gF s o (gF s o x))), (gF_eq n s o (gF s o x)), (gF_eq n s o x) by auto. destruct (0 <? o)%Z; [now apply (fF3 n)|].
    rewrite !neg_neg. assert (H1 := N x H). assert (H2 := L _ H1). assert (H3 := L _ H2).
    rewrite (fF3 n s (neg x)) by auto. rewrite (fF3 n s (neg x)) by auto. apply neg_neg.
  - intros x H. rewrite (gF_eq n) by auto. destruct (0 <? o)%Z; [now apply C|]. intros E. apply (f_equal neg) in E. rewrite neg_neg in E.
    assert (H1 := N x H). apply (f_equal (fF s)) in E. rewrite (fF3 n) in E by auto. symmetry in E. now apply (C _ H1).
Qed.
Lemma gF_closing n s o : closed_flat n s -> closing n (gF s o) (vv s).
Proof.
  intros S. pose proof S as [S0 C]. assert (W := fs_wf n s S0). assert (N := neg_ltn n _ W). assert (T := gF_triangles n s o S).
  assert (L := fun h => fF_lt n s h S0). constructor.
  - intros x H. now apply (fs_odd n).
  - intros x H. assert (H1 := tg_lt _ _ T x H). rewrite (gF_eq n s o (gF s o x)), (gF_eq n s o x) by auto. destruct (0 <? o)%Z.
    + now apply (fs_flat n s S0 x H (C x H)).
    + rewrite neg_neg. assert (H2 := N x H). destruct (fs_flat n s S0 _ H2 (C _ H2)) as [Z _].
      rewrite (fF3 n s (neg x)) by auto. rewrite !(fs_odd n s S0) in * by auto.
      destruct (vv s x) as [a b], (vv s (fF s (neg x))) as [a' b'], (vv s (fF s (fF s (neg x)))) as [a'' b''].
      cbn in Z |- *. injection Z as Z1 Z2. apply pt_eq; cbn; lra.
  - intros x H E. destruct (fs_flat n s S0 x H (C x H)) as [_ D]. rewrite E in D. unfold pdet in D. cbn in D. lra.
Qed.
Lemma gF_reaches n s o : closed_flat n s -> connected n s -> reaches n (gF s o).
Proof.
  intros S Cn P E Q. apply Cn; auto. intros x H Px. destruct (Q x H Px) as [A B]. split; auto.
  rewrite (gF_eq n) in B by auto. destruct (0 <? o)%Z eqn:Eo; auto.
  pose proof S as [S0 C]. assert (W := fs_wf n s S0). assert (N := neg_ltn n _ W). assert (L := fun h => fF_lt n s h S0).
  assert (R : forall y, y < n -> P y -> P (fF s (fF s y))).
  { intros y Hy Py. destruct (Q y Hy Py) as [Pn _]. destruct (Q (neg y) (N y Hy) Pn) as [_ B']. rewrite (gF_eq n), Eo, neg_neg in B' by auto.
    apply Q in B'; [|auto]. now rewrite neg_neg in B'. }
  assert (P1 := R x H Px). assert (P2 := R _ (L _ (L x H)) P1). now rewrite (fF3 n) in P2 by auto.
Qed.

(** ** Steps *)
Lemma cw_label_at s o k L h : 0 < length L -> cw_label (cw_at s o k L) h = Ok (lab L h, cw_at s o k (ext L h)).
Proof.
  intros P. destruct L as [|a r]; [cbn in P; lia|]. unfold cw_label. cbn [cw_labeled cw_at cw_labels].
  assert (E0 : vat (a :: r) 0 = Ok a) by reflexivity. rewrite E0. cbn [bind].
  destruct (Nat.eqb_spec h a) as [->|N].
  - unfold lab, ext. cbn [pos_of]. now rewrite Nat.eqb_refl.
  - rewrite !find_number. unfold lab, ext. destruct (pos_of h (a :: r)) as [i|]; cbn [option_map]; auto. destruct (pos_of (neg h) (a :: r)) as [i|]; cbn [option_map]; auto.
    unfold cw_at. rewrite number_length, number_snoc. reflexivity.
Qed.
Lemma cw_next_at n s o k L h : closed_flat n s -> h < n -> cw_next (cw_at s o k L) h = Ok (gF s o h).
Proof.
  intros S H. assert (W := fs_wf n s (proj1 S)). unfold cw_next, gF. cbn [cw_orientation cw_at cw_surface]. destruct (0 <? o)%Z; [now apply (next_Ok n)|].
  assert (H1 := pV_lt n _ W h H). assert (H2 := neg_ltn n _ W _ H1).
  rewrite (prevV_Ok n) by auto. cbn [bind]. rewrite (prevV_Ok n) by auto. reflexivity.
Qed.
Variable fuel : nat.
Hypothesis Hfuel : 2 < fuel.
Lemma cw_step_at n s o k L : closed_flat n s -> walking n (gF s o) k L -> k < length L ->
  cw_step fuel (cw_at s o k L) = Ok (Some (fst (pstep (gF s o) k L)), cw_at s o (S k) (snd (pstep (gF s o) k L))).
Proof.
  intros S W Hk. assert (T := gF_triangles n s o S). assert (O := wk_ok _ _ _ _ W). unfold cw_step. cbn [cw_labeled cw_steps cw_labels cw_surface cw_orientation cw_at].
  destruct (Nat.leb_spec (length L) k) as [Q|_]; [lia|]. rewrite (vget_nth L k 0) by auto. cbn [bind].
  assert (Ik : In (nth k L 0) L) by (now apply nth_In). rewrite find_number.
  rewrite (proj2 (pos_of_None (neg (nth k L 0)) L)) by (now apply (lo_neg n L O)). cbn [option_map].
  change (mkCW s (number L) L o (Datatypes.S k)) with (cw_at s o (Datatypes.S k) L).
  set (st := neg (nth k L 0)). assert (Hst : st < n) by (apply (tg_neg _ _ T), (lo_lt n L O); auto).
  assert (H1 := tg_lt _ _ T st Hst). assert (H2 := tg_lt _ _ T _ H1).
  destruct fuel as [|[|[|fl]]]; [clear - Hfuel; lia..|]. unfold pstep. fold st.
  cbn [cw_face]. rewrite (cw_next_at n) by auto. cbn [bind].
  destruct (Nat.eqb_spec (gF s o st) st) as [E|_]; [now apply (tg_fix _ _ T) in E|].
  assert (P : 0 < length L) by lia. rewrite cw_label_at by auto. cbn [bind cw_steps cw_at].
  assert (Old : forall l A (x y z : A), (if ((0 <? l) && (l <? Z.of_nat (Datatypes.S k)))%Z then x else if ((l <? 0) && (- l <? Z.of_nat (Datatypes.S k) - 1))%Z then x else y)
     = if old k l then x else y).
  { intros l A x y _. unfold old. replace (Z.of_nat (Datatypes.S k) - 1)%Z with (Z.of_nat k) by lia. destruct ((0 <? l)%Z && _); auto. }
  rewrite Old by exact (Ok (Some [], cw_at s o k L)). destruct (old k (lab L (gF s o st))); [reflexivity|].
  change (mkCW s (number (ext L (gF s o st))) (ext L (gF s o st)) o (Datatypes.S k)) with (cw_at s o (Datatypes.S k) (ext L (gF s o st))).
  rewrite (cw_next_at n) by auto. cbn [bind].
  destruct (Nat.eqb_spec (gF s o (gF s o st)) st) as [E|_]; [now apply (triangles_fix2 n) in E|].
  assert (P1 : 0 < length (ext L (gF s o st))) by (destruct (ext_prefix L (gF s o st)) as (r & ->); rewrite app_length; lia).
  rewrite cw_label_at by auto. cbn [bind cw_steps cw_at]. rewrite Old by exact (Ok (Some [], cw_at s o k L)).
  destruct (old k (lab (ext L (gF s o st)) (gF s o (gF s o st)))); [reflexivity|].
  fold (cw_at s o (Datatypes.S k) (ext (ext L (gF s o st)) (gF s o (gF s o st)))).
  rewrite (cw_next_at n) by auto. cbn [bind]. rewrite (tg_3 _ _ T) by auto. rewrite Nat.eqb_refl. reflexivity.
Qed.
Lemma cw_step_end s o L : cw_step fuel (cw_at s o (length L) L) = Ok (None, cw_at s o (length L) L).
Proof. unfold cw_step. cbn [cw_labeled cw_steps cw_at]. now rewrite Nat.leb_refl. Qed.

Lemma cw_emits_run n s o : closed_flat n s -> n mod 2 = 0 -> forall j k L, walking n (gF s o) k L -> n / 2 < k + j ->
  emits (cw_step fuel) (cw_at s o k L) (fst (prun (gF s o) j k L)) (cw_at s o (length (snd (prun (gF s o) j k L))) (snd (prun (gF s o) j k L))).
Proof.
  intros S Ev. assert (T := gF_triangles n s o S). induction j as [|j IH]; intros k L W B.
  - assert (P := walking_length n _ k L Ev W). assert (Q := wk_k _ _ _ _ W). lia.
  - cbn [prun]. destruct (Nat.leb_spec (length L) k) as [D|D].
    + cbn [fst snd]. assert (k = length L) as -> by (assert (Q := wk_k _ _ _ _ W); lia). apply emits_nil. apply cw_step_end.
    + assert (E := cw_step_at n s o k L S W D). destruct (walking_step n _ T k L W D) as (c & L1 & E1 & W1 & _). rewrite E1 in E |- *. cbn [fst snd] in E.
      specialize (IH (Datatypes.S k) L1 W1). destruct (prun (gF s o) j (Datatypes.S k) L1) as [cs L2]. cbn [fst snd] in IH |- *.
      eapply emits_cons; [exact E|]. apply IH. lia.
Qed.
Lemma cw_emits n s o h : closed_flat n s -> h < n ->
  emits (cw_step fuel) (make_cwalker s h o) (walk_word n (gF s o) h) (cw_at s o (length (walk_list n (gF s o) h)) (walk_list n (gF s o) h)).
Proof.
  intros S H. assert (T := gF_triangles n s o S). apply (cw_emits_run n s o S (wf_mod n _ (fs_wf n s (proj1 S))) (Datatypes.S n) 0 [neg h] (walking_start n _ T h H)).
  apply half_le.
Qed.
End facts.
