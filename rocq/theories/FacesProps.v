(** * Property C77: triangulations from faces *)
From Coq Require Import List Arith Bool Lia Permutation Relations.
From Verif Require Import Base HalfEdge HalfEdgeFacts Perm PermSpec PermFacts PermCycles IndexedSet Combinatorial CombinatorialSpec
  CombinatorialFacts CombinatorialFlip CombinatorialHistory Faces FacesSpec FacesFacts.
Import ListNotations.

(** The constructor accepts all the triangles that can be glued, whatever the
    order in which the entries of its map are visited.  The triangles are the
    faces of the result; the other half edges are its boundary. *)
Theorem C77_faces : forall order n fs, (forall m, Permutation (order m) m) -> gluable n fs ->
  exists t, from_faces order fs = Ok t /\ well_formed n t /\
    (forall a b c, In (a, b, c) fs -> nF t a = b /\ nF t b = c /\ nF t c = a) /\
    (forall e, e < n -> (nF t e = e <-> ~ In e (flat_map sides fs))).
Proof.
  intros order n fs O G. destruct (from_faces_Ok n fs G order O) as (t & E & W & F & _).
  exists t. split; auto. split; auto.
  assert (R : forall a b c, rot fs a b c -> nF t a = b).
  { intros a b c H. rewrite F; [eapply (fnext_rot n); eauto|]. eapply (ss_lt n); eauto. eapply rot_side; eauto. }
  assert (L : forall a b c, In (a, b, c) fs -> nF t a = b /\ nF t b = c /\ nF t c = a).
  { intros a b c H. assert (Q : rot fs a b c) by now left. split; [eauto|]. apply rot_next in Q. split; [eauto|].
    apply rot_next in Q. eauto. }
  split; auto. intros e He. split.
  - intros B I. destruct (side_rot fs e I) as (b & c & H). rewrite (R _ _ _ H) in B. subst b.
    destruct G as (_ & N & _). apply in_split in I.
    assert (D : exists x y z, In (x, y, z) fs /\ (x = y \/ y = z \/ z = x)).
    { destruct H as [H|[H|H]]; eauto 8. }
    destruct D as (x & y & z & D & Q). apply in_split in D as (l1 & l2 & ->).
    rewrite flat_map_app in N. apply NoDup_app_inv in N as (_ & N & _). cbn [flat_map sides app] in N.
    apply NoDup_cons_iff in N as [N1 N]. apply NoDup_cons_iff in N as [N2 _]. cbn in N1, N2.
    destruct Q as [Q|[Q|Q]]; subst; tauto.
  - intros I. rewrite F by auto. now apply (fnext_out fs).
Qed.
Print Assumptions C77_faces.

(** The vertices of the result: half edges leave the same vertex exactly if the
    triangles force them to, and there is at most one boundary half edge at a vertex. *)
Theorem C77_vertices : forall order n fs t, (forall m, Permutation (order m) m) -> gluable n fs ->
  from_faces order fs = Ok t ->
  (forall x y, corner fs x y -> nV t x = y) /\
  (forall x y, x < n -> (same_vertex t x y <-> glued fs x y)) /\
  (forall x y, x < n -> nF t x = x -> nF t y = y -> same_vertex t x y -> x = y).
Proof.
  intros order n fs t O G Et. destruct (C77_faces order n fs O G) as (t1 & E1 & _ & _ & HB).
  destruct (from_faces_Ok n fs G order O) as (t' & E & W & F & V1 & V2).
  rewrite Et in E, E1. inv E. inv E1. rename t1 into t.
  set (P := flat_map face_records fs) in *.
  assert (Lt : forall x y, corner fs x y -> x < n /\ y < n).
  { intros x y H. apply corner_pair in H. split.
    - apply (in_map fst) in H. rewrite keys_sides in H. now apply (ss_lt n fs G).
    - apply (in_map snd) in H. apply (values_In fs) in H. apply (ss_lt n fs G) in H.
      apply (neg_n n fs G) in H. now rewrite neg_neg in H. }
  assert (Cg : forall i x, chain P i x -> glued fs i x).
  { induction 1 as [|x y _ IH I]; [apply rst_refl|]. eapply rst_trans; [exact IH|]. apply rst_step. now apply corner_pair. }
  assert (Step : forall x, x < n -> glued fs x (nV t x)).
  { intros x Hx. destruct (side_dec fs x) as [I|I].
    - destruct (side_rot fs x I) as (b & c & H). apply rot_pair in H. rewrite (V1 _ _ H).
      apply rst_step. now apply corner_pair.
    - apply rst_sym. apply Cg. now apply V2. }
  split; [|split].
  - intros x y H. apply V1. now apply corner_pair.
  - intros x y Hx. split.
    + intros (k & <-). induction k as [|k IH]; [apply rst_refl|].
      change (Nat.iter (S k) (nV t) x) with (nV t (Nat.iter k (nV t) x)).
      eapply rst_trans; [exact IH|]. apply Step. apply (same_vertex_lt n t x); auto. now exists k.
    + assert (H : forall x y, glued fs x y -> (x < n <-> y < n) /\ (x < n -> same_vertex t x y)).
      { clear x y Hx. induction 1 as [x y H|x|x y _ [IH1 IH2]|x y z _ [IH1 IH2] _ [IH3 IH4]].
        - destruct (Lt x y H). split; [tauto|]. intros _. exists 1. apply V1. now apply corner_pair.
        - split; [tauto|]. intros _. now exists 0.
        - split; [tauto|]. intros Hy. apply (same_vertex_sym n); auto; [tauto|]. apply IH2. tauto.
        - split; [tauto|]. intros Hx. eapply same_vertex_trans; [apply IH2; auto|]. apply IH4. tauto. }
      intros Q. now apply (H x y Q).
  - intros x y Hx Bx By (k & <-).
    assert (Ix : ~ In x (flat_map sides fs)) by now apply HB.
    assert (Cx := V2 x Hx Ix).
    assert (Q : forall k, k = 0 \/ chain P (nV t x) (Nat.iter k (nV t) x)).
    { induction k0 as [|j [Q0|IH]]; auto; right.
      - subst j. constructor.
      - change (Nat.iter (S j) (nV t) x) with (nV t (Nat.iter j (nV t) x)).
        set (z := Nat.iter j (nV t) x) in *. destruct (side_dec fs z) as [I|I].
        + destruct (side_rot fs z I) as (b & c & H). apply rot_pair in H. rewrite (V1 _ _ H).
          eapply chain_step; eauto.
        + assert (z = x) as ->; [|constructor].
          apply (chain_ends P (Nkeys n fs G) (nV t x)); auto; unfold P; rewrite keys_sides; auto. }
    destruct (Q k) as [Q0|C]; [now subst k|].
    apply (chain_ends P (Nkeys n fs G) (nV t x)); auto; unfold P; rewrite keys_sides; auto.
    apply HB; auto. apply (same_vertex_lt n t x); auto. now exists k.
Qed.
Print Assumptions C77_vertices.

(** A surface without boundary is recovered from its faces. *)
Theorem C77_closed : forall order n t fs, (forall m, Permutation (order m) m) -> well_formed n t ->
  (forall e, e < n -> nF t e <> e) -> NoDup (flat_map sides fs) ->
  (forall e, In e (flat_map sides fs) <-> e < n) ->
  (forall a b c, In (a, b, c) fs -> nF t a = b /\ nF t b = c) ->
  exists t', from_faces order fs = Ok t' /\ tV t' = tV t /\ tF t' = tF t.
Proof.
  intros order n t fs O W Cl N I H.
  assert (G : gluable n fs).
  { split; [apply (wf_even n t W)|]. split; auto. split; [apply I|]. intros e He. left. now apply I. }
  destruct (C77_faces order n fs O G) as (t' & E & W' & F & _). exists t'. split; auto.
  assert (Eq : forall e, e < n -> nF t' e = nF t e).
  { intros e He. apply I in He as Hs. destruct (side_rot fs e Hs) as (b & c & R).
    destruct R as [R|[R|R]]; destruct (F _ _ _ R) as (F1 & F2 & F3); destruct (H _ _ _ R) as (H1 & H2); try congruence.
    rewrite F3. rewrite <- (wf_triangle n t W b); [congruence|]. apply I. apply in_flat_map. eexists. split; [exact R|]. cbn; auto. }
  assert (EqV : forall e, e < n -> nV t' e = nV t e).
  { intros e He. rewrite (nV_link' n t' W') by (auto; rewrite (Eq e He); auto). rewrite (nV_link' n t W) by auto.
    f_equal. rewrite (Eq e He). apply Eq. now apply (nF_lt n t W). }
  split.
  - apply (wfp_ext n); [apply is_perm_wfp, W'|apply is_perm_wfp, W|exact EqV].
  - apply (wfp_ext n); [apply is_perm_wfp, W'|apply is_perm_wfp, W|exact Eq].
Qed.
Print Assumptions C77_closed.

(** A pair of disc: two triangles that share one side, four boundary half edges; with a third triangle that shares two sides, three. *)
Definition disc : list (nat * nat * nat) := [(0, 2, 4); (5, 6, 8); (3, 1, 10)].
Lemma disc_gluable : gluable 12 disc.
Proof.
  split; [now exists 6|]. split; [repeat (constructor; [cbn; lia|]); constructor|]. split.
  - cbn. intros e H. lia.
  - intros e H. do 12 (destruct e as [|e]; [cbn; tauto|]). lia.
Qed.
Example C77_ex :
  (forall m, Permutation ((@rev (nat * nat)) m) m) /\ gluable 12 disc /\
  (exists t, from_faces (@rev _) disc = Ok t /\ map (nF t) (seq 0 12) = [2; 10; 4; 1; 0; 6; 8; 7; 5; 9; 3; 11] /\
    map (nV t) (seq 0 12) = [5; 2; 1; 11; 3; 9; 4; 8; 7; 10; 0; 6]) /\
  glued disc 10 9 /\ ~ gluable 12 [(0, 2, 4); (1, 3, 0)].
Proof.
  split; [intros m; apply Permutation_sym, Permutation_rev|]. split; [exact disc_gluable|]. split.
  - assert (E : match from_faces (@rev _) disc with Ok t => (map (nF t) (seq 0 12), map (nV t) (seq 0 12)) | _ => ([], []) end
      = ([2; 10; 4; 1; 0; 6; 8; 7; 5; 9; 3; 11], [5; 2; 1; 11; 3; 9; 4; 8; 7; 10; 0; 6])) by (vm_compute; reflexivity).
    destruct (from_faces (@rev _) disc) as [t| | |]; try discriminate. apply pair_equal_spec in E as [E1 E2]. now exists t.
  - split.
    + eapply rst_trans; [|eapply rst_trans]; apply rst_step.
      * exists 3, 1, 10. split; [cbn; auto|]. right. right. split; reflexivity.
      * exists 0, 2, 4. split; [cbn; auto|]. left. split; reflexivity.
      * exists 5, 6, 8. split; [cbn; auto|]. left. split; reflexivity.
    + intros (_ & N & _). cbn in N. apply NoDup_cons_iff in N as [N _]. cbn in N. tauto.
Qed.

(** The torus. *)
Example C77_torus :
  exists t t', make_from_cycles torus_cycles [] = Ok t /\ well_formed 6 t /\ (forall e, e < 6 -> nF t e <> e) /\
    from_faces (fun m => m) [(0, 2, 4); (1, 3, 5)] = Ok t' /\ tV t' = tV t /\ tF t' = tF t.
Proof.
  assert (E : match make_from_cycles torus_cycles [] with Ok t => map (nF t) (seq 0 6) | _ => [] end = [2; 3; 4; 5; 0; 1]) by (vm_compute; reflexivity).
  destruct (make_from_cycles torus_cycles []) as [t| | |] eqn:Et; try discriminate E.
  assert (W : well_formed 6 t).
  { unfold make_from_cycles in Et. apply bind_Ok in Et as (V & EV & Et). apply bind_Ok in Et as (t' & Et' & Et).
    destruct (forallb _ _); [|discriminate]. inv Et. apply perm_of_cycles_Ok in EV as (_ & W & _). now apply (make_tri_spec _ _ _ _ W Et'). }
  injection E as E0 E1 E2 E3 E4 E5.
  assert (Cl : forall e, e < 6 -> nF t e <> e).
  { intros e He. do 6 (destruct e as [|e]; [congruence|]). lia. }
  destruct (C77_closed (fun m => m) 6 t [(0, 2, 4); (1, 3, 5)]) as (t' & E' & EV & EF); auto.
  - repeat (constructor; [cbn; lia|]). constructor.
  - intros e. cbn. lia.
  - intros a b c [Q|[Q|[]]]; injection Q as <- <- <-; auto.
  - exists t, t'. auto 10.
Qed.
