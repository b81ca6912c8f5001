(** * Properties C07, C08, C09: combinatorial triangulations and flips *)
From Coq Require Import List Arith Bool Lia Permutation.
From Verif Require Import Base HalfEdge HalfEdgeFacts Perm PermSpec PermFacts PermCycles IndexedSet Combinatorial
  CombinatorialSpec CombinatorialFacts CombinatorialFlip CombinatorialHistory.
Import ListNotations.

(** ** C07 *)

(** Whatever the constructor accepts is a triangulation with the given vertices and boundary. *)
Theorem C07_construction : forall n V bnd t, is_perm n V -> make_tri V bnd = Ok t ->
  well_formed n t /\ tV t = V /\ (forall e, e < n -> In e bnd -> nF t e = e) /\
  (forall e, e < n -> nF t e <> e -> nV t e = neg (nF t (nF t e))).
Proof.
  intros n V bnd t P E. apply is_perm_wfp in P. destruct (make_tri_spec n V bnd t P E) as (W & EV & B & _).
  repeat (split; [assumption|]). intros e He N. now apply (nV_link' n).
Qed.
Print Assumptions C07_construction.

(** The same for the public constructor from vertex cycles. *)
Theorem C07_construction_cycles : forall cs bnd t, make_from_cycles cs bnd = Ok t ->
  well_formed (length (concat cs)) t /\
  (forall c e, In c cs -> In e c -> nV t e = cyclic c e) /\
  (forall e, In e (concat cs) -> In e bnd -> nF t e = e).
Proof.
  intros cs bnd t E. unfold make_from_cycles in E. apply bind_Ok in E as (V & EV & E).
  apply bind_Ok in E as (t' & Et & E). destruct (forallb _ _); [|discriminate]. inv E.
  apply perm_of_cycles_Ok in EV as (P & W & C).
  destruct (make_tri_spec _ _ _ _ W Et) as (Wt & EV & B & _). split; auto. split.
  - intros c e Hc He. unfold nV. rewrite EV. now apply C.
  - intros e He Hb. apply B; auto. eapply Permutation_in in He; [|exact P]. apply in_seq in He. lia.
Qed.
Print Assumptions C07_construction_cycles.

(** Conversely every triangulation, given by any consistent choice of faces [f], is accepted. *)
Theorem C07_accepts : forall n V bnd f g, is_perm n V -> n mod 2 = 0 -> bijection n f g ->
  (forall e, e < n -> In e bnd -> f e = e) ->
  (forall e, e < n -> ~ In e bnd -> f (neg (nth e (fwd V) 0)) = e) ->
  (forall e, e < n -> f (f (f e)) = e) ->
  exists t, make_tri V bnd = Ok t /\ forall e, e < n -> nF t e = f e.
Proof.
  intros n V bnd f g P E B H1 H2 H3. apply is_perm_wfp in P.
  destruct (make_tri_complete n V bnd f g P E B H1 H2 H3) as (t & Ht & _ & _ & F). eauto.
Qed.
Print Assumptions C07_accepts.

(** Every sequence of flips of half edges that returns keeps the surface a triangulation. *)
Theorem C07_flip_history : forall n t es t', well_formed n t -> (forall e, In e es -> e < n) ->
  flips t es = (t', Ok tt) -> well_formed n t'.
Proof. intros n t es t' W H E. eapply flips_wf; eauto. Qed.
Print Assumptions C07_flip_history.

(** Construction followed by any sequence of flips. *)
Theorem C07_reachable : forall cs bnd t es t', make_from_cycles cs bnd = Ok t ->
  (forall e, In e es -> In e (concat cs)) -> flips t es = (t', Ok tt) -> well_formed (length (concat cs)) t'.
Proof.
  intros cs bnd t es t' C H E. apply C07_flip_history with t es; auto.
  - eapply C07_construction_cycles; eauto.
  - intros e He. apply H in He. unfold make_from_cycles in C. apply bind_Ok in C as (V & EV & _).
    apply perm_of_cycles_Ok in EV as (P & _). eapply Permutation_in in He; [|exact P]. apply in_seq in He. lia.
Qed.
Print Assumptions C07_reachable.

Example C07_ex_torus : exists t t', make_from_cycles torus_cycles [] = Ok t /\ flips t [0; 3; 4; 1] = (t', Ok tt) /\
  tF t' <> tF t.
Proof.
  destruct (make_from_cycles torus_cycles []) as [t| | |] eqn:E; try (vm_compute in E; discriminate).
  exists t. vm_compute in E. inv E. eexists. split; [reflexivity|]. split; [vm_compute; reflexivity|]. vm_compute. discriminate.
Qed.

Example C07_ex_boundary : exists t, make_from_cycles triangle_cycles [1; 3; 5] = Ok t /\ nF t 0 = 2 /\ nF t 1 = 1.
Proof. eexists. split; [vm_compute; reflexivity|]. vm_compute. auto. Qed.

(** Four-gons are rejected. *)
Example C07_ex_reject : make_from_cycles [[0; 7]; [2; 1]; [4; 3]; [6; 5]] [1; 3; 5; 7] = Throw.
Proof. reflexivity. Qed.

(** ** C08 *)

(** A flip between two different triangles has exactly the documented effect. *)
Theorem C08_flip_effect : forall n t e, well_formed n t -> flippable n t e ->
  exists t', flip t e = (t', Ok tt) /\ flipped_faces n t t' e /\ tsize t' = tsize t /\
    (forall i, i < n -> (nF t' i = i <-> nF t i = i)) /\
    (forall i, i < n -> nF t i = i -> nV t' i = nV t i).
Proof.
  intros n t e W F. destruct (flip_Ok n t e W F) as (t' & E & W' & EF & EV). exists t'. split; auto.
  destruct (flip_six n t e W F) as (_ & Ha & Hb & Hc & Hd & Hn & _). assert (He : e < n) by apply F.
  split; [|split; [|split]].
  - destruct (flip_F_six n t e W F) as (U1 & U2 & U3 & U4 & U5 & U6). unfold flipped_faces.
    rewrite !EF by auto. do 6 (split; [assumption|]). intros i Hi N. rewrite EF by auto.
    apply (flip_F_other n t e W F). rewrite in_six_iff. auto.
  - unfold tsize, psize. rewrite (fwd_len _ _ (wfV _ _ W)), (fwd_len _ _ (wfV _ _ W')). auto.
  - intros i Hi. apply (flip_boundary n t e t' W He E i Hi).
  - intros i Hi. apply (flip_boundary n t e t' W He E i Hi).
Qed.
Print Assumptions C08_flip_effect.

(** Flipping twice exchanges [e] and [-e]. *)
Theorem C08_flip_twice : forall n t e, well_formed n t -> flippable n t e ->
  exists t', flips t [e; e] = (t', Ok tt) /\
    forall i, i < n -> nF t' (exchange e (neg e) i) = exchange e (neg e) (nF t i).
Proof.
  intros n t e W F. assert (He : e < n) by apply F.
  destruct (flip_Ok n t e W F) as (t1 & E1 & W1 & _).
  destruct (flip_again n t e t1 W He E1) as (F1 & _). destruct (flip_Ok n t1 e W1 F1) as (t2 & E2 & W2 & _).
  exists t2. cbn [flips]. rewrite E1, E2. split; auto. intros i Hi. eapply flip_2; eauto.
Qed.
Print Assumptions C08_flip_twice.

(** Flipping four times restores the surface. *)
Theorem C08_flip_four : forall n t e, well_formed n t -> flippable n t e ->
  exists t', flips t [e; e; e; e] = (t', Ok tt) /\ tF t' = tF t /\ tV t' = tV t.
Proof. exact flip_four. Qed.
Print Assumptions C08_flip_four.

(** A flip returns exactly when [e] and [-e] are in two different triangles. *)
Theorem C08_flip_defined : forall n t e, well_formed n t -> e < n ->
  (flippable n t e <-> exists t', flip t e = (t', Ok tt)).
Proof. intros n t e W He. symmetry. now apply flip_Ok_iff. Qed.
Print Assumptions C08_flip_defined.

(** Otherwise it throws.  The surface is unchanged if [e] itself is at the
    boundary or [-e] is not. *)
Theorem C08_rejected_partial : forall n t e, well_formed n t -> e < n -> ~ flippable n t e ->
  exists t', flip t e = (t', Throw) /\ ((nF t e = e \/ nF t (neg e) <> neg e) -> t' = t).
Proof. exact flip_rejected. Qed.
Print Assumptions C08_rejected_partial.

(** What is missing above is false: if only [-e] is at the boundary, the
    rejected flip leaves a surface behind that is not a triangulation. *)
Theorem C08_rejected_unchanged_refuted : exists n t e t',
  well_formed n t /\ e < n /\ nF t (neg e) = neg e /\ flip t e = (t', Throw) /\ tV t' <> tV t /\ ~ well_formed n t'.
Proof.
  destruct (make_from_cycles triangle_cycles [1; 3; 5]) as [t| | |] eqn:E; try (vm_compute in E; discriminate).
  pose proof (proj1 (C07_construction_cycles _ _ _ E)) as W. vm_compute in E. inv E.
  exists 6. eexists. exists 0. eexists. split; [exact W|]. split; [lia|]. split; [reflexivity|].
  split; [vm_compute; reflexivity|]. split; [vm_compute; discriminate|].
  intros W'. pose proof (wf_link _ _ W' 2) as L. vm_compute in L.
  assert (X : 3 <= 6) by lia. specialize (L X). assert (Y : 4 = 2 -> False) by discriminate.
  specialize (L Y). discriminate.
Qed.
Print Assumptions C08_rejected_unchanged_refuted.

Example C08_ex : exists t, make_from_cycles torus_cycles [] = Ok t /\ flippable 6 t 0 /\
  (let (t', r) := flip t 0 in r = Ok tt /\ map (nF t') [0; 1; 2; 3; 4; 5] = [4; 5; 1; 0; 3; 2]).
Proof.
  eexists. split; [vm_compute; reflexivity|]. split.
  - unfold flippable. vm_compute. repeat split; try lia; discriminate.
  - vm_compute. auto.
Qed.

(** ** C09 *)

(** After every sequence of flips [Vertex::source(e)] consists of the half edges
    in the orbit of [e] under [nextAtVertex], and nothing else. *)
Theorem C09_source : forall n t es t' e, well_formed n t -> (forall x, In x es -> x < n) ->
  flips t es = (t', Ok tt) -> e < n ->
  exists s, vertex_source t' e = Ok s /\ forall x, scontains s x = true <-> x < n /\ exists k, Nat.iter k (nV t') e = x.
Proof.
  intros n t es t' e W H E He. assert (W' := flips_wf _ _ _ _ W H E).
  destruct (vertex_source_Ok n t' e W' He) as (s & S & _ & C). exists s. split; auto.
Qed.
Print Assumptions C09_source.

(** The incrementally updated vertices are, as sets, the recomputed ones. *)
Theorem C09_recomputed : forall n t es t', well_formed n t -> (forall x, In x es -> x < n) ->
  flips t es = (t', Ok tt) ->
  exists vs, reset_vertexes (tV t') = Ok vs /\
    (forall s, In s (tverts t') -> exists r, In r vs /\ forall x, scontains s x = scontains r x) /\
    (forall r, In r vs -> exists s, In s (tverts t') /\ forall x, scontains r x = scontains s x).
Proof.
  intros n t es t' W H E. assert (W' := flips_wf _ _ _ _ W H E).
  destruct (reset_vertexes_Ok n (tV t') (tF t') (wfV _ _ W')) as (vs & R & C). exists vs. split; auto. split.
  - apply (vertices_unique n t' (mkTri (tV t') (tF t') vs)); auto. apply W'.
  - apply (vertices_unique n (mkTri (tV t') (tF t') vs) t'); auto. apply W'.
Qed.
Print Assumptions C09_recomputed.

(** Comparing vertices tells whether half edges start at the same vertex. *)
Theorem C09_vertex_equality : forall n t es t' x y s r, well_formed n t -> (forall x, In x es -> x < n) ->
  flips t es = (t', Ok tt) -> x < n -> y < n ->
  vertex_source t' x = Ok s -> vertex_source t' y = Ok r ->
  (vertex_eqb s r = true <-> exists k, Nat.iter k (nV t') x = y).
Proof.
  intros n t es t' x y s r W H E Hx Hy S R. eapply (vertex_eqb_spec n); eauto. eapply flips_wf; eauto.
Qed.
Print Assumptions C09_vertex_equality.

(** A tetrahedron: a flip moves both ends of an edge to other vertices. *)
Example C09_ex : exists t t', make_from_cycles [[0; 5; 6]; [2; 1; 8]; [4; 3; 10]; [7; 11; 9]] [] = Ok t /\
  omap selements (tverts t) = Ok [[0; 5; 6]; [1; 2; 8]; [3; 4; 10]; [7; 9; 11]] /\
  flip t 0 = (t', Ok tt) /\ omap selements (tverts t') = Ok [[5; 6]; [2; 8]; [1; 3; 4; 10]; [0; 7; 9; 11]].
Proof.
  eexists. eexists. split; [vm_compute; reflexivity|]. split; [vm_compute; reflexivity|].
  split; vm_compute; reflexivity.
Qed.
