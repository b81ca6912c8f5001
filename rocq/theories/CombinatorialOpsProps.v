(** * Properties C10, C11, C12, C13: clone, reversal, relabel, insertAt, slit *)
From Coq Require Import List Arith Bool Lia Permutation.
From Verif Require Import Base HalfEdge HalfEdgeFacts Perm PermSpec PermFacts PermCycles IndexedSet Combinatorial
  CombinatorialSpec CombinatorialFacts CombinatorialFlip CombinatorialHistory CombinatorialOps CombinatorialInsert
  CombinatorialSlit.
Import ListNotations.

(** ** C10 *)

(** [clone()] succeeds, compares equal, and has the same faces and boundary. *)
Theorem C10_clone : forall n t, well_formed n t ->
  exists t', clone t = Ok t' /\ well_formed n t' /\ tri_eqb t' t = true /\
    forall e, e < n -> nF t' e = nF t e /\ nV t' e = nV t e.
Proof.
  intros n t W. destruct (clone_Ok n t W) as (t' & E & W' & EV & EF). exists t'. split; auto. split; auto. split.
  - now apply (tri_eqb_spec n).
  - intros e He. unfold nF, nV. now rewrite EV, EF.
Qed.
Print Assumptions C10_clone.

(** [~s] turns the other way around vertices and walks the faces, read from the
    other side, backwards; the boundary is on the other side. *)
Theorem C10_reversed : forall n t, well_formed n t ->
  exists t', reverse t = Ok t' /\ well_formed n t' /\
    (forall e, e < n -> nV t' (nV t e) = e) /\
    (forall e, e < n -> nF t' (neg (nF t e)) = neg e) /\
    (forall e, e < n -> (nF t' (neg e) = neg e <-> nF t e = e)).
Proof.
  intros n t W. destruct (reverse_Ok n t W) as (t' & E & W' & A & B). exists t'. do 4 (split; [assumption|]).
  intros e He. split; intros Q.
  - pose proof (pF_lt n t W e He) as Hp. specialize (B _ Hp). rewrite (nF_pF n t W) in B by auto. rewrite Q in B.
    apply neg_inj in B. rewrite B at 1. apply (nF_pF n t W); auto.
  - specialize (B e He). now rewrite Q in B.
Qed.
Print Assumptions C10_reversed.

(** [~~s == s], and they have the same faces. *)
Theorem C10_involution : forall n t, well_formed n t ->
  exists t' t'', reverse t = Ok t' /\ reverse t' = Ok t'' /\ tri_eqb t'' t = true /\
    forall e, e < n -> nF t'' e = nF t e /\ nV t'' e = nV t e.
Proof.
  intros n t W. destruct (reverse_reverse n t W) as (t' & t'' & E1 & E2 & EV & EF).
  exists t', t''. split; auto. split; auto. destruct (reverse_unique n t t' W E1) as (W' & _).
  destruct (reverse_unique n t' t'' W' E2) as (W'' & _). split.
  - now apply (tri_eqb_spec n).
  - intros e He. unfold nF, nV. now rewrite EV, EF.
Qed.
Print Assumptions C10_involution.

(** Triangulations that compare equal and have the same boundary have the same faces.
    What is missing: [operator==] does not compare the boundary itself, see below. *)
Theorem C10_equality_partial : forall n t u, well_formed n t -> well_formed n u ->
  (tri_eqb t u = true <-> forall e, e < n -> nV t e = nV u e) /\
  (tri_eqb t u = true -> (forall e, e < n -> (nF t e = e <-> nF u e = e)) -> forall e, e < n -> nF t e = nF u e).
Proof.
  intros n t u W U. split.
  - rewrite (tri_eqb_spec n t u W U). split; [intros E e He; unfold nV; now rewrite E|].
    intros E. apply (wfp_ext n); [eapply wfV; eauto|eapply wfV; eauto|exact E].
  - intros E B e He. unfold nF. rewrite (faces_of_boundary n t u W U) with (2 := B); auto. now apply (tri_eqb_spec n).
Qed.
Print Assumptions C10_equality_partial.

(** A triangle with boundary compares equal to the sphere glued from two triangles. *)
Theorem C10_equality_refuted : exists t u, make_from_cycles triangle_cycles [1; 3; 5] = Ok t /\
  make_from_cycles triangle_cycles [] = Ok u /\ well_formed 6 t /\ well_formed 6 u /\
  tri_eqb t u = true /\ nF t 1 = 1 /\ nF u 1 = 5.
Proof.
  assert (P : forall b t, make_from_cycles triangle_cycles b = Ok t -> well_formed 6 t).
  { intros b t E. unfold make_from_cycles in E. apply bind_Ok in E as (V & EV & E).
    apply bind_Ok in E as (t' & Et & E). destruct (forallb _ _); [|discriminate]. inv E.
    apply perm_of_cycles_Ok in EV as (P & W & C). now destruct (make_tri_spec _ _ _ _ W Et) as (Wt & _). }
  eexists. eexists. split; [vm_compute; reflexivity|]. split; [vm_compute; reflexivity|].
  split; [apply (P [1; 3; 5]); vm_compute; reflexivity|]. split; [apply (P []); vm_compute; reflexivity|].
  vm_compute. auto.
Qed.
Print Assumptions C10_equality_refuted.

Example C10_ex : exists t t', make_from_cycles triangle_cycles [1; 3; 5] = Ok t /\ reverse t = Ok t' /\
  map (nF t) [0; 1; 2; 3; 4; 5] = [2; 1; 4; 3; 0; 5] /\ map (nF t') [0; 1; 2; 3; 4; 5] = [0; 5; 2; 1; 4; 3] /\
  tri_eqb t t' = true.
Proof. eexists. eexists. split; [vm_compute; reflexivity|]. split; [vm_compute; reflexivity|]. vm_compute. auto. Qed.

(** ** C11 *)

(** The relabelled surface is the old one with [e] called [r(e)]. *)
Theorem C11_renames : forall n t r, well_formed n t -> is_perm n r -> respects_edges n (fun e => nth e (fwd r) 0) ->
  (forall e, e < n -> nF t e <> e) ->
  exists t', relabel t r = Ok t' /\ well_formed n t' /\
    forall e, e < n -> nF t' (nth e (fwd r) 0) = nth (nF t e) (fwd r) 0 /\
                       nV t' (nth e (fwd r) 0) = nth (nV t e) (fwd r) 0.
Proof.
  intros n t r W R EM NB. apply is_perm_wfp in R. destruct (relabel_Ok n t r W R EM NB) as (t' & E & W' & A & B).
  exists t'. split; auto. split; auto. intros e He. split; [now apply A|now apply B].
Qed.
Print Assumptions C11_renames.

(** Relabelling by the identity changes nothing. *)
Theorem C11_identity : forall n t r, well_formed n t -> is_perm n r -> (forall e, e < n -> nth e (fwd r) 0 = e) ->
  (forall e, e < n -> nF t e <> e) ->
  exists t', relabel t r = Ok t' /\ tri_eqb t' t = true /\ forall e, e < n -> nF t' e = nF t e.
Proof.
  intros n t r W R I NB. apply is_perm_wfp in R.
  destruct (relabel_Ok n t r W R) as (t' & E & W' & A & B); auto.
  { intros e He. unfold fw. rewrite !I; auto. now apply (neg_ltn n t W). }
  exists t'. split; auto. unfold fw in A, B. split.
  - apply (C10_equality_partial n t' t W' W). intros e He. rewrite <- (I e He) at 1. rewrite B by auto.
    apply I. now apply (nV_lt n t W).
  - intros e He. rewrite <- (I e He) at 1. rewrite A by auto. apply I. now apply (nF_lt n t W).
Qed.
Print Assumptions C11_identity.

(** Relabelling by [p] and then by [q] is relabelling by the product [q * p]. *)
Theorem C11_action : forall n t p q, well_formed n t -> is_perm n p -> is_perm n q ->
  respects_edges n (fun e => nth e (fwd p) 0) -> respects_edges n (fun e => nth e (fwd q) 0) ->
  (forall e, e < n -> nF t e <> e) ->
  exists t1 t2 r t3, relabel t p = Ok t1 /\ relabel t1 q = Ok t2 /\ pmul q p = Ok r /\ relabel t r = Ok t3 /\
    tri_eqb t2 t3 = true /\ forall e, e < n -> nF t2 e = nF t3 e.
Proof.
  intros n t p q W P Q EP EQ NB. apply is_perm_wfp in P, Q.
  destruct (relabel_Ok n t p W P EP NB) as (t1 & E1 & W1 & A1 & B1).
  assert (S : forall e, e < n -> exists x, x < n /\ fw p x = e).
  { intros e He. exists (bw p e). destruct P as (_ & _ & _ & P). apply P in He. tauto. }
  assert (NB1 : forall e, e < n -> nF t1 e <> e).
  { intros e He F. destruct (S e He) as (x & Hx & <-). rewrite A1 in F by auto. apply (fw_inj _ _ P) in F; auto.
    - now apply (NB x). - now apply (nF_lt n t W). }
  destruct (relabel_Ok n t1 q W1 Q EQ NB1) as (t2 & E2 & W2 & A2 & B2).
  destruct (pmul_Ok n q p Q P) as (r & Er & R & Fr & _).
  assert (NL := neg_ltn n t W). assert (PL := fw_lt _ _ P).
  destruct (relabel_Ok n t r W R) as (t3 & E3 & W3 & A3 & B3); auto.
  { intros e He. rewrite !Fr by auto. rewrite EP by auto. now apply EQ, PL. }
  exists t1, t2, r, t3. do 4 (split; [assumption|]).
  assert (T : forall e, e < n -> exists x, x < n /\ fw q (fw p x) = e).
  { intros e He. destruct Q as (_ & _ & _ & Q). destruct (Q e He) as (H1 & H2). destruct (S _ H1) as (x & Hx & Ex).
    exists x. split; auto. congruence. }
  split.
  - apply (C10_equality_partial n t2 t3 W2 W3). intros e He. destruct (T e He) as (x & Hx & <-).
    rewrite B2 by auto. rewrite B1 by auto. rewrite <- !Fr by (auto; now apply (nV_lt n t W)). now rewrite B3.
  - intros e He. destruct (T e He) as (x & Hx & <-).
    rewrite A2 by auto. rewrite A1 by auto. rewrite <- !Fr by (auto; now apply (nF_lt n t W)). now rewrite A3.
Qed.
Print Assumptions C11_action.

(** Everything else is rejected: surfaces with boundary, permutations of the wrong
    size, and permutations that tear edges apart. *)
Theorem C11_rejects : forall n t r m, well_formed n t -> is_perm m r ->
  (exists e, e < n /\ nF t e = e) \/ m <> n \/ ~ respects_edges n (fun e => nth e (fwd r) 0) -> relabel t r = Throw.
Proof. intros n t r m W R H. apply is_perm_wfp in R. now apply (relabel_throws n t r m). Qed.
Print Assumptions C11_rejects.

Example C11_ex : exists t r t', make_from_cycles torus_cycles [] = Ok t /\
  perm_of_vector [3; 2; 4; 5; 1; 0] = Ok r /\ relabel t r = Ok t' /\
  map (nF t) [0; 1; 2; 3; 4; 5] = [2; 3; 4; 5; 0; 1] /\ map (nF t') [0; 1; 2; 3; 4; 5] = [2; 3; 5; 4; 1; 0].
Proof.
  eexists. eexists. eexists. split; [vm_compute; reflexivity|]. split; [vm_compute; reflexivity|].
  split; [vm_compute; reflexivity|]. vm_compute. auto.
Qed.

(** ** C12 *)

(** [insertAt(e)] puts a vertex of degree three into the face of [e]: three new
    edges, the face becomes three faces, the other faces and vertices stay. *)
Theorem C12_insert : forall n t e, well_formed n t -> e < n -> nF t e <> e ->
  exists t', insert_at t e = Ok t' /\ well_formed (n + 6) t' /\
    inserted_faces n t t' e /\
    (forall x, x < n + 6 -> (same_vertex t' n x <-> x = n \/ x = n + 2 \/ x = n + 4)) /\
    (forall x y, x < n -> y < n -> (same_vertex t' x y <-> same_vertex t x y)) /\
    same_vertex t' (neg n) e /\ same_vertex t' (neg (n + 2)) (nF t e) /\ same_vertex t' (neg (n + 4)) (nF t (nF t e)).
Proof.
  intros n t e W He NB. destruct (insert_at_Ok n t e W He NB) as (t' & E & W' & EF & EV).
  exists t'. split; auto. split; auto.
  destruct (six_names t e) as (f & g & Fe & Ff). unfold inserted_faces. rewrite Fe, Ff.
  assert (Hf : f < n) by (rewrite <- Fe; apply (nF_lt n t W); auto).
  assert (Hg : g < n) by (rewrite <- Ff; apply (nF_lt n t W); auto).
  assert (Fg : nF t g = e) by (rewrite <- Ff, <- Fe; apply (wf_triangle _ _ W); auto).
  assert (ef : e <> f) by congruence.
  assert (fg : f <> g) by (intros Q; apply ef; apply (nF_inj n t W); auto; congruence).
  assert (eg : e <> g) by (intros Q; rewrite <- Q in Fg; congruence).
  destruct (wf_even _ _ W) as (k & Hk).
  assert (N0 : neg n = n + 1) by (rewrite Hk, neg_even; lia).
  assert (N2 : neg (n + 2) = n + 3). { replace (n + 2) with (2 * (k + 1)) by lia. rewrite neg_even. lia. }
  assert (N4 : neg (n + 4) = n + 5). { replace (n + 4) with (2 * (k + 2)) by lia. rewrite neg_even. lia. }
  rewrite N0, N2, N4. unfold insert_F, insert_V in EF, EV. rewrite Fe, Ff in EF, EV.
  destruct (insF_spec (nF t) e f g n He Hf Hg ef eg fg) as (I1 & I2 & I3 & I4 & I5 & I6 & I7 & I8 & I9 & IO).
  destruct (insV_spec (nV t) e f g n He Hf Hg ef eg fg) as (J1 & J2 & J3 & J4 & J5 & J6 & J7 & J8 & J9 & JO).
  split.
  { rewrite !EF by lia. do 9 (split; [assumption|]). intros i Hi N. rewrite EF by lia. cbn in N.
    apply IO; auto; intros ->; tauto. }
  assert (V0 : nV t' n = n + 2) by (rewrite EV by lia; auto).
  assert (V2 : nV t' (n + 2) = n + 4) by (rewrite EV by lia; auto).
  assert (V4 : nV t' (n + 4) = n) by (rewrite EV by lia; auto).
  split.
  { intros x Hx. split.
    - intros (j & <-). clear Hx. induction j as [|j IH]; [auto|].
      change (Nat.iter (S j) (nV t') n) with (nV t' (Nat.iter j (nV t') n)).
      destruct IH as [-> | [-> | ->]]; auto.
    - intros [-> | [-> | ->]]; [exists 0|exists 1|exists 2]; cbn; congruence. }
  split.
  { intros x y Hx Hy.
    apply (insert_orbits n (nV t) (nV t') (new_after e f g n (n + 2) (n + 4))); auto.
    - apply (nV_lt n t W).
    - intros z Hz. unfold new_after. rewrite N0, N2, N4. rewrite !EV by lia.
      destruct (Nat.eqb_spec z e) as [->|]; [rewrite !EV by lia; split; [lia|auto]|].
      destruct (Nat.eqb_spec z f) as [->|]; [rewrite !EV by lia; split; [lia|auto]|].
      destruct (Nat.eqb_spec z g) as [->|]; [rewrite !EV by lia; split; [lia|auto]|]. auto. }
  assert (Sy : forall x y, y < n + 6 -> nV t' y = x -> same_vertex t' x y).
  { intros x y Hy Q. apply (same_vertex_sym (n + 6) t' y x); auto. now exists 1. }
  split; [|split]; apply Sy; try lia; rewrite EV by lia; auto.
Qed.
Print Assumptions C12_insert.

(** There is no face to insert into at the boundary. *)
Theorem C12_rejects : forall n t e, well_formed n t -> e < n -> nF t e = e -> insert_at t e = Throw.
Proof.
  intros n t e W He B. unfold insert_at, boundary. rewrite (papp_Ok n) by (auto; apply (fwd_len _ _ (wfF _ _ W))).
  cbn [bind]. change (fw (tF t) e) with (nF t e). now rewrite B, Nat.eqb_refl.
Qed.
Print Assumptions C12_rejects.

(** The half edges of the face may be glued to each other: a sphere from two
    triangles, each of which is glued to itself. *)
Example C12_ex : exists t t', make_from_cycles [[0; 2; 1; 4]; [3]; [5]] [] = Ok t /\
  map (nF t) [0; 1; 2; 3; 4; 5] = [2; 4; 3; 0; 5; 1] /\
  insert_at t 0 = Ok t' /\ map (nF t') [0; 2; 3; 6; 7; 8; 9; 10; 11] = [9; 11; 7; 0; 10; 2; 6; 3; 8] /\
  length (tverts t') = length (tverts t) + 1.
Proof.
  eexists. eexists. split; [vm_compute; reflexivity|]. split; [vm_compute; reflexivity|].
  split; [vm_compute; reflexivity|]. vm_compute. auto.
Qed.

(** ** C13 *)

(** [slit(e)] opens the edge unless both its ends see the same boundary corner
    first.  What is missing is that exceptional case, see below. *)
Theorem C13_slit_partial : forall n t e, well_formed n t -> e < n -> nF t e <> e -> nF t (neg e) <> neg e ->
  (forall b, first_boundary t e b -> first_boundary t (neg e) b -> False) ->
  exists t', slit t e = Ok t' /\ well_formed (n + 2) t' /\ slit_faces n t t' e.
Proof. exact slit_Ok. Qed.
Print Assumptions C13_slit_partial.

(** In particular this covers all surfaces without boundary. *)
Theorem C13_closed : forall n t e, well_formed n t -> (forall x, x < n -> nF t x <> x) -> e < n ->
  exists t', slit t e = Ok t' /\ well_formed (n + 2) t' /\ slit_faces n t t' e.
Proof.
  intros n t e W NB He. apply slit_Ok; auto.
  - apply NB. now apply (neg_ltn n t W).
  - intros b H _. destruct (first_boundary_lt n t e b W He H) as (Hb & Bb). now apply (NB b).
Qed.
Print Assumptions C13_closed.

(** An edge with a boundary side is rejected. *)
Theorem C13_rejects : forall n t e, well_formed n t -> e < n -> nF t e = e \/ nF t (neg e) = neg e -> slit t e = Throw.
Proof.
  intros n t e W He B. unfold slit, boundary. assert (NL := neg_ltn n t W e He).
  assert (LF := fwd_len _ _ (wfF _ _ W)). rewrite !(papp_Ok n) by auto. cbn [bind].
  change (fw (tF t)) with (nF t). destruct B as [-> | ->]; rewrite Nat.eqb_refl; cbn; auto.
  now rewrite Bool.orb_true_r.
Qed.
Print Assumptions C13_rejects.

(** Slitting a loop at a vertex with a single boundary corner fails although no
    side of it is boundary: the faces (1 2 3)(-1 -2 4)(-3 -4 5), boundary -5. *)
Theorem C13_loop_refuted : exists n t e, well_formed n t /\ e < n /\ nF t e <> e /\ nF t (neg e) <> neg e /\
  slit t e = Throw.
Proof.
  exists 10. destruct (make_from_cycles [[8; 6; 2; 1; 7; 4; 3; 0; 5; 9]] [9]) as [t| | |] eqn:E; try (vm_compute in E; discriminate).
  exists t, 0. split.
  - unfold make_from_cycles in E. apply bind_Ok in E as (V & EV & E).
    apply bind_Ok in E as (t' & Et & E). destruct (forallb _ _); [|discriminate]. inv E.
    apply perm_of_cycles_Ok in EV as (P & W & C). now destruct (make_tri_spec _ _ _ _ W Et) as (Wt & _).
  - vm_compute in E. inv E. split; [lia|]. vm_compute. repeat split; discriminate.
Qed.
Print Assumptions C13_loop_refuted.

(** The comment in the code wants to rule out surfaces that are connected only in a
    point.  On a closed surface slitting a loop makes a vertex with two boundary corners. *)
Theorem C13_pinched_refuted : exists n t e t' x y, well_formed n t /\ (forall x, x < n -> nF t x <> x) /\ e < n /\
  slit t e = Ok t' /\ x < n + 2 /\ y < n + 2 /\ x <> y /\ nF t' x = x /\ nF t' y = y /\ same_vertex t' x y.
Proof.
  exists 6. destruct (make_from_cycles torus_cycles []) as [t| | |] eqn:E; try (vm_compute in E; discriminate).
  exists t, 0. destruct (slit t 0) as [t'| | |] eqn:S; try (vm_compute in E; inv E; vm_compute in S; discriminate).
  exists t', 0, 7. split.
  - unfold make_from_cycles in E. apply bind_Ok in E as (V & EV & E).
    apply bind_Ok in E as (t'' & Et & E). destruct (forallb _ _); [|discriminate]. inv E.
    apply perm_of_cycles_Ok in EV as (P & W & C). now destruct (make_tri_spec _ _ _ _ W Et) as (Wt & _).
  - vm_compute in E. inv E. vm_compute in S. inv S. split.
    + intros x Hx. do 6 (destruct x as [|x]; [vm_compute; discriminate|]). lia.
    + split; [lia|]. split; auto. split; [lia|]. split; [lia|]. split; [lia|]. split; [reflexivity|]. split; [reflexivity|].
      exists 4. vm_compute. reflexivity.
Qed.
Print Assumptions C13_pinched_refuted.

(** A tetrahedron with one face removed: slitting the edge from the corner that is
    opposite to the hole. *)
Example C13_ex : exists t t', make_from_cycles [[5; 6; 0]; [1; 8; 2]; [3; 10; 4]; [7; 11; 9]] [0; 2; 4] = Ok t /\
  boundary t 6 = Ok false /\ slit t 6 = Ok t' /\ boundary t' 6 = Ok true /\ boundary t' 13 = Ok true /\
  map (nF t) [6; 9; 1] = [9; 1; 6] /\ map (nF t') [12; 9; 1] = [9; 1; 12] /\ map (nV t) [6; 0] = [0; 5] /\ map (nV t') [6; 0; 12] = [5; 12; 0].
Proof.
  eexists. eexists. split; [vm_compute; reflexivity|]. split; [vm_compute; reflexivity|].
  split; [vm_compute; reflexivity|]. vm_compute. auto 10.
Qed.
