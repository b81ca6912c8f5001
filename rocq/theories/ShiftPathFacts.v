(** * Proofs about images of paths when vertices are shifted *)
From Coq Require Import ZArith Reals List Arith Bool Lia Lra.
From Verif Require Import Base HalfEdge HalfEdgeFacts Perm PermSpec PermFacts PermCycles IndexedSet Combinatorial CombinatorialSpec
  CombinatorialFacts CombinatorialHistory CombinatorialOps ExactReal Vector PlaneSpec Plane VectorFacts
  FlatTri FlatSpec FlatFacts FlatProps FlatSum ChainSpec Saddle SaddleSpec
  Search SearchSpec SearchPlane PointFacts Intersection Crossings CrossingsSpec CrossingsFacts CrossingsProps Path ShiftPath ShiftPathSpec.
Import ListNotations.

Lemma last_cons {A} (a d : A) l : last (a :: l) d = last l a.
Proof. revert a d. induction l as [|b l IH]; intros a d; auto. change (last (b :: l) d = last (b :: l) a). now rewrite !IH. Qed.

(** ** Groups *)
Section group.
Context {G : Type} (mul : G -> G -> G) (one : G) (inv : G -> G).
Hypothesis Gr : group mul one inv.
Local Infix "*" := mul.
Let As := proj1 Gr.
Let Ol := proj1 (proj2 Gr).
Let Or := proj1 (proj2 (proj2 Gr)).
Let Il := proj1 (proj2 (proj2 (proj2 Gr))).
Let Ir := proj2 (proj2 (proj2 (proj2 Gr))).
Lemma product_app l l' : product mul one (l ++ l') = product mul one l * product mul one l'.
Proof. induction l as [|a l IH]; cbn [app product fold_right]; [now rewrite Ol|]. change (a * product mul one (l ++ l') = (a * product mul one l) * product mul one l'). rewrite IH. apply As. Qed.
Lemma cancel a b : a * b = one -> b = inv a.
Proof. intros E. rewrite <- (Ol b), <- (Il a), <- As, E. apply Or. Qed.
Lemma inv_inv a : inv (inv a) = a.
Proof. symmetry. apply cancel. apply Il. Qed.
Context {K : ExactReal} (n : nat) (s : flat K) (d : nat -> G).
Hypothesis C : cocycle mul one inv n s d.
Lemma two_sides h : (h < n)%nat -> (neg h < n)%nat -> d (fF s (neg h)) * d (fF s (fF s (neg h))) = d h.
Proof. intros Hh Hn. destruct C as [Od Cl]. assert (E := cancel _ _ (Cl (neg h) Hn)). rewrite E, (Od h Hh). apply inv_inv. Qed.
Lemma last_side h b : (h < n)%nat -> (neg h < n)%nat -> b = fF s (fF s (neg h)) -> (b < n)%nat -> d h * d (neg b) = d (fF s (neg h)).
Proof. intros Hh Hn -> Hb. destruct C as [Od Cl]. rewrite (Od _ Hb), <- (two_sides h Hh Hn), <- As, Ir. apply Or. Qed.
End group.

(** ** Following the triangles *)
Section follow.
Context {K : ExactReal} (n : nat) (s : flat K).
Hypothesis S0 : flat_surface n s.
Hypothesis Cl : closed_surface n s.
Let W := fs_wf n s S0.
Local Notation F := (fF s).
Local Notation after := (fun h => F (F (neg h))).

Lemma hits_through p h v g : hits s p h v g -> exists c, through s p h v c /\ g = F (F (neg (last (map snd c) h))).
Proof.
  induction 1 as [p h Nb C|p h v g Nb C H (c & T & E)|p h v g Nb C H (c & T & E)].
  - exists []. split; [constructor|reflexivity].
  - exists ((p, F (neg h)) :: c). split; [constructor; auto; now apply (hits_crosses s) in H|]. cbn [map snd]. now rewrite E, last_cons.
  - exists ((padd p (vv s (F (neg h))), F (F (neg h))) :: c). split; [apply through_left; auto; now apply (hits_crosses s) in H|]. cbn [map snd]. now rewrite E, last_cons.
Qed.

Lemma step_next h : (h < n)%nat -> same_vertex (fT s) h (neg (F (F h))).
Proof. intros Hh. exists 1%nat. change (nV (fT s) h = neg (F (F h))). apply (nV_link' n _ W); auto. now apply Cl. Qed.
Lemma step_side h : (h < n)%nat -> same_vertex (fT s) (neg h) (F h).
Proof.
  intros Hh. assert (Hf : (F h < n)%nat) by now apply (fF_lt n). apply (same_vertex_sym n (fT s)); auto. exists 1%nat.
  change (nV (fT s) (F h) = neg h). now apply (nV_F n s S0 Cl).
Qed.
Lemma route_app a l b l' c : route n s a l b -> route n s b l' c -> route n s a (l ++ l') c.
Proof.
  revert a. induction l as [|h l IH]; intros a; cbn [route app].
  - intros A R. destruct l' as [|g l']; cbn [route] in *; [now apply (same_vertex_trans _ a b c)|]. destruct R as (Hg & B & R). split; auto. split; auto. now apply (same_vertex_trans _ a b g).
  - intros (Hh & A & R) R'. auto.
Qed.

Context (shifted : list (path K)).
Hypothesis Ls : length shifted = n.
Definition image_of (h : nat) : path K := nth h shifted [].
Definition images (l : list nat) : path K := flat_map image_of l.
Lemma get_image h : (h < n)%nat -> vget shifted h = Ok (image_of h).
Proof. intros Hh. apply vget_nth. now rewrite Ls. Qed.
Lemma append_image (p q : path K) : path_append false p q = Ok (p ++ q).
Proof. unfold path_append. f_equal. revert p. induction q as [|x q IH]; intros p; cbn [fold_left]; [now rewrite app_nil_r|]. rewrite IH. unfold push_back. now rewrite <- app_assoc. Qed.

Lemma steps_next h cr image : (h < n)%nat ->
  shift_steps s shifted h (F h :: cr) image = shift_steps s shifted (neg (F h)) cr ((image ++ image_of h) ++ image_of (F h)).
Proof.
  intros Hh. assert (Hf : (F h < n)%nat) by now apply (fF_lt n). cbn [shift_steps]. rewrite (prev_ok n s S0 h Hh). cbn [bind].
  assert (Ne : F h <> F (F h)) by (intros E; symmetry in E; now apply (FF_F n s S0 Cl h Hh) in E). apply Nat.eqb_neq in Ne. rewrite Ne.
  rewrite (next_ok n s S0 h Hh). cbn [bind]. rewrite Nat.eqb_refl. rewrite (get_image h Hh). cbn [bind]. rewrite append_image. cbn [bind]. rewrite (get_image _ Hf). cbn [bind]. rewrite append_image. reflexivity.
Qed.
Lemma steps_previous h cr image : (h < n)%nat -> shift_steps s shifted h (F (F h) :: cr) image = shift_steps s shifted (neg (F (F h))) cr image.
Proof. intros Hh. cbn [shift_steps]. rewrite (prev_ok n s S0 h Hh). cbn [bind]. now rewrite Nat.eqb_refl. Qed.

Lemma follow p h v c : through s p h v c -> (h < n)%nat -> exists l, let g := last (map snd c) h in (g < n)%nat /\ route n s (neg h) l (neg g) /\
  (forall (G : Type) (mul : G -> G -> G) one inv d w, group mul one inv -> cocycle mul one inv n s d ->
     unfolded mul s d w h (map snd c) = mul w (mul (d h) (mul (product mul one (map d l)) (d (neg (F (F (neg g)))))))) /\
  forall image, shift_steps s shifted (neg h) (map snd c) image = Ok (image ++ images l).
Proof.
  induction 1 as [p h|p h v c Cr T IH|p h v c q b Cr T IH]; intros Hh; assert (Hn : (neg h < n)%nat) by (now apply (neg_ltn n (fT s) W));
    assert (Ha : (F (neg h) < n)%nat) by (now apply (fF_lt n)); assert (Hb : (F (F (neg h)) < n)%nat) by (now apply (fF_lt n)).
  - exists []. cbn [map last]. split; auto. split; [now exists 0%nat|]. split; [|intros image; cbn; now rewrite app_nil_r].
    intros G mul one inv d w Gr Co. cbn [unfolded map product fold_right]. pose proof Gr as (_ & Ol & _). rewrite Ol. now rewrite (last_side mul one inv Gr n s d Co h _ Hh Hn eq_refl Hb).
  - destruct (IH Ha) as (l & Hg & R & U & E). exists (neg h :: F (neg h) :: l). cbn [map snd]. replace (last (F (neg h) :: map snd c) h) with (last (map snd c) (F (neg h))) by (now rewrite last_cons).
    split; auto. split.
    { cbn [route]. split; auto. split; [now exists 0%nat|]. split; auto. split; [|exact R]. apply step_side. auto. }
    split.
    + intros G mul one inv d w Gr Co. cbn [unfolded]. rewrite Nat.eqb_refl, (U G mul one inv d w Gr Co). pose proof Gr as (As & Ol & _ & _ & Ir). destruct Co as [Od _].
      cbn [map product fold_right]. rewrite (Od h Hh). f_equal. rewrite !As, Ir, Ol. reflexivity.
    + intros image. rewrite steps_next by auto. rewrite E. f_equal. unfold images. cbn [flat_map]. now rewrite !app_assoc.
  - destruct (IH Hb) as (l & Hg & R & U & E). exists l. cbn [map snd]. replace (last (b :: map snd c) h) with (last (map snd c) b) by (now rewrite last_cons).
    split; auto. split.
    { replace l with ([] ++ l) by reflexivity. apply (route_app _ _ (neg b)); auto. cbn [route]. apply step_next. auto. }
    split.
    + intros G mul one inv d w Gr Co. cbn [unfolded]. assert (Ne : b <> F (neg h)) by (intros X; now apply (FF_F n s S0 Cl (neg h) Hn)). apply Nat.eqb_neq in Ne. rewrite Ne.
      rewrite (U G mul one inv d _ Gr Co). pose proof Gr as (As & _). rewrite <- (two_sides mul one inv Gr n s d Co h Hh Hn). fold b. now rewrite !As.
    + intros image. unfold b. rewrite steps_previous by auto. apply E.
Qed.

(** One saddle connection. *)
Lemma segment_image x : segment_of n s x -> exists l N, route n s (sc_source x) l (sc_target x) /\ homotopic n s (sc_source x) (sv n x) l /\
  forall fuel image, (N <= fuel)%nat -> shift_segment fuel shifted image x = Ok (image ++ images l).
Proof.
  intros (Es & X & Cn). pose proof X as (_ & Hs & Ht & _). set (h := sc_source x) in *. set (t := sc_target x) in *.
  destruct (C76_path K n x X) as (c & r & N & Cr & _ & Run); rewrite ?Es; auto. rewrite Es in Cr. fold h in Cr.
  assert (Last : forall image, (do p <- vget shifted (neg t); path_append false image p) = Ok (image ++ image_of (neg t))) by (intros image; rewrite get_image by (now apply (neg_ltn n (fT s) W)); cbn [bind]; apply append_image).
  assert (Go : forall l, (forall image, shift_steps s shifted h (map snd c) image = Ok (image ++ images l)) ->
     forall fuel image, (N <= fuel)%nat -> shift_segment fuel shifted image x = Ok (image ++ images (l ++ [neg t]))).
  { intros l E fuel image Hf. unfold shift_segment. destruct (Run fuel Hf) as [_ ->]. cbn [bind]. rewrite Es. fold h t. rewrite E. cbn [bind]. rewrite Last. unfold images. rewrite flat_map_app. cbn [flat_map]. now rewrite app_nil_r, app_assoc. }
  destruct Cn as [_ [[Ev Et]|Hi]].
  - assert (Ec : c = []). { destruct Cr as [[_ ->]|(c' & _ & Cx & _)]; auto. exfalso. rewrite Ev in Cx. destruct Cx as [Cx _]. unfold pdet in Cx. lra. }
    exists [h], N. split; [cbn [route]; split; auto; split; [now exists 0%nat|]; rewrite Et; now exists 0%nat|]. split.
    { exists c. split; auto. intros G mul one inv d (_ & _ & Or & _) _. rewrite Ec. cbn. apply Or. }
    intros fuel image Hf. rewrite (Go [] ltac:(intros i; rewrite Ec; cbn; now rewrite app_nil_r) fuel image Hf). cbn [app]. rewrite Et, neg_neg. reflexivity.
  - assert (Hc := hits_crosses s _ _ _ _ Hi). destruct (hits_through _ _ _ _ Hi) as (c1 & T1 & Et).
    assert (Ec : exists c', c = (vv s h, F h) :: c' /\ through s (vv s h) (F h) (sv n x) c').
    { destruct Cr as [[Ev _]|(c' & Ec & _ & T)]; [|eauto]. exfalso. rewrite Ev in Hc. destruct Hc as [Hc _]. unfold pdet in Hc. lra. }
    destruct Ec as (c' & Ec & T). assert (c1 = c') by now apply (through_unique s (vv s h) (F h) (sv n x)). subst c1.
    assert (Hf : (F h < n)%nat) by now apply (fF_lt n). destruct (follow _ _ _ _ T Hf) as (l & Hg & R & U & E). cbn zeta in *. set (g := last (map snd c') (F h)) in *.
    assert (Hgn : (neg g < n)%nat) by now apply (neg_ltn n (fT s) W).
    exists ((h :: F h :: l) ++ [neg t]), N. split; [|split].
    + apply (route_app _ _ (neg g)).
      * cbn [route]. split; auto. split; [now exists 0%nat|]. split; auto. split; [now apply step_side|exact R].
      * cbn [route]. split; [now apply (neg_ltn n (fT s) W)|]. split; [rewrite Et; now apply step_next|]. rewrite neg_neg. now exists 0%nat.
    + exists c. split; auto. intros G mul one inv d Gr Co. rewrite Ec. cbn [map snd unfolded_end]. rewrite (U G mul one inv d _ Gr Co), Et, map_app, (product_app mul one inv Gr).
      pose proof Gr as (As & Ol & Or & _). cbn [map product fold_right]. rewrite Or, !As. reflexivity.
    + apply Go. intros image. rewrite Ec. cbn [map snd]. rewrite steps_next by auto. rewrite E. unfold images. cbn [flat_map]. now rewrite !app_assoc.
Qed.

(** Paths. *)
Lemma loop_image p : Forall (segment_of n s) p -> exists ls N, Forall2 (fun x l => route n s (sc_source x) l (sc_target x) /\ homotopic n s (sc_source x) (sv n x) l) p ls /\
  forall fuel image, (N <= fuel)%nat -> shift_loop fuel shifted p image = Ok (image ++ images (concat ls)).
Proof.
  induction 1 as [|x p X Xs (ls & N & Fs & E)].
  - exists [], 0%nat. split; [constructor|]. intros fuel image _. cbn. now rewrite app_nil_r.
  - destruct (segment_image x X) as (l & M & R & H & E'). exists (l :: ls), (max M N). split; [constructor; auto|].
    intros fuel image Hf. cbn [shift_loop concat]. rewrite E' by lia. cbn [bind]. rewrite E by lia. unfold images. now rewrite flat_map_app, app_assoc.
Qed.
End follow.
