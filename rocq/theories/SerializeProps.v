(** * Loading what was saved (C43) *)
From Coq Require Import ZArith Reals List Arith Bool String Lia Lra Permutation.
From Verif Require Import Base HalfEdge HalfEdgeFacts Perm PermSpec PermFacts IndexedSet IndexedSetFacts
  Combinatorial CombinatorialSpec CombinatorialFacts CombinatorialOps CombinatorialProps ExactReal Vector PlaneSpec VectorFacts VectorProps
  FlatTri FlatSpec FlatFacts FlatProps ChainSpec Saddle SaddleSpec SaddleFacts Vertical VerticalFacts Serialize SerializeFacts.
Import ListNotations.
Local Open Scope nat_scope.
Local Open Scope string_scope.
Local Open Scope list_scope.

(** ** The values without a surface *)
Theorem C43_half_edge : forall (K : ExactReal) h, load_half_edge (K := K) (save_half_edge h) = Ok h.
Proof. exact @half_edge_rt. Qed.
Print Assumptions C43_half_edge.

Theorem C43_edge : forall (K : ExactReal) e, Nat.even e = true -> load_edge (K := K) (save_edge e) = Ok e.
Proof. intros K e E. unfold load_edge, save_edge. change (DInt (he_id (positive e))) with (save_half_edge (K := K) (positive e)). rewrite half_edge_rt. cbn [bind]. f_equal. apply Nat.even_spec in E as (m & ->). unfold edge_of, he_index, positive. rewrite neg_even. match goal with |- context [Nat.ltb ?a ?b] => destruct (Nat.ltb_spec a b) end; [reflexivity|lia]. Qed.
Print Assumptions C43_edge.

Theorem C43_bound : forall (K : ExactReal) b, load_bound (K := K) (save_bound b) = Ok b.
Proof. reflexivity. Qed.
Print Assumptions C43_bound.

Theorem C43_permutation : forall (K : ExactReal) n p, is_perm n p -> exists d, save_perm (K := K) p = Ok d /\ load_perm d = Ok p.
Proof. exact @perm_rt. Qed.
Print Assumptions C43_permutation.

Theorem C43_vector : forall (K : ExactReal) (v : vec K), load_vec (save_vec v) = Ok v.
Proof. exact @vec_rt. Qed.
Print Assumptions C43_vector.

(** A vertex has the same outgoing half edges again; it is equal to the vertex that was saved. *)
Theorem C43_vertex : forall (K : ExactReal) v, exists d u, save_vertex (K := K) v = Ok d /\ load_vertex d = Ok u /\
  (forall h, scontains u h = scontains v h) /\ forall h, scontains v h = true -> vertex_eqb u v = true.
Proof. intros K v. destruct (vertex_rt (K := K) v) as (d & u & A & B & C). exists d, u. split; auto. split; auto. split; auto. intros h. now apply same_begin. Qed.
Print Assumptions C43_vertex.

(** ** Archives *)
(** What a program puts into an archive. *)
Inductive item (K : ExactReal) :=
| ITriangulation (t : tri)
| ISurface (s : flat K)
| IChain (s : flat K) (c : zchain)
| IConnection (x : sconn K)
| IVertical (m : vertical K).
Arguments ITriangulation {K} t. Arguments ISurface {K} s. Arguments IChain {K} s c. Arguments IConnection {K} x. Arguments IVertical {K} m.

Section archive.
Context {K : ExactReal}.

Definition of_item (i : item K) : tri :=
  match i with ITriangulation t => t | ISurface s | IChain s _ => fT s | IConnection x => fT (sc_surface x) | IVertical m => fT (vt_surface m) end.
(** The item makes sense, and its surface has no boundary. *)
Definition item_ok (i : item K) : Prop :=
  exists n, well_formed n (of_item i) /\ (forall e, e < n -> nF (of_item i) e <> e) /\
  match i with
  | ITriangulation t => True
  | ISurface s => flat_surface n s
  | IChain s c => flat_surface n s /\ List.length c = n / 2
  | IConnection x => sc_valid n x
  | IVertical m => flat_surface n (vt_surface m) /\ vden (vt_vertical m) <> (0, 0)%R
  end.
(** The second item is what was saved as the first one. *)
Definition item_same (i j : item K) : Prop :=
  match i, j with
  | ITriangulation t, ITriangulation u => tri_eqb u t = true /\ same_tri t u
  | ISurface s, ISurface u => flat_eqb u s = Ok true /\ same_flat s u
  | IChain s c, IChain u d => flat_eqb u s = Ok true /\ same_flat s u /\ d = c
  | IConnection x, IConnection y => sc_eqb y x = Ok true /\ same_flat (sc_surface x) (sc_surface y) /\ sc_source y = sc_source x /\ sc_target y = sc_target x /\ sc_chain y = sc_chain x
  | IVertical l, IVertical m => flat_eqb (vt_surface m) (vt_surface l) = Ok true /\ same_flat (vt_surface l) (vt_surface m) /\ make_vertical (vt_surface m) (vt_vertical l) = Ok m
  | _, _ => False
  end.

(** The program saves one item after the other; each item comes with the address of its surface. *)
Definition save_item (order : list nat -> list nat) (w : written) (a : nat) (i : item K) : outcome (data K * written) :=
  match i with
  | ITriangulation t => save_tri w a t
  | ISurface s => save_flat order w a s
  | IChain s c => save_chain order w a s c
  | IConnection x => save_sconn order w a x
  | IVertical m => save_vertical order w a m
  end.
Fixpoint save_items (order : list nat -> list nat) (w : written) (l : list (nat * item K)) : outcome (list (data K) * written) :=
  match l with
  | [] => Ok ([], w)
  | (a, i) :: l => do (d, w) <- save_item order w a i; do (ds, w) <- save_items order w l; Ok (d :: ds, w)
  end.
(** Another program loads them; it knows what kinds of items these are. *)
Definition load_item (k : reading) (i : item K) (d : data K) : outcome (item K * reading) :=
  match i with
  | ITriangulation _ => do (t, k) <- load_tri k d; Ok (ITriangulation t, k)
  | ISurface _ => do (s, k) <- load_flat k d; Ok (ISurface s, k)
  | IChain _ _ => do (s, c, k) <- load_chain k d; Ok (IChain s c, k)
  | IConnection _ => do (x, k) <- load_sconn k d; Ok (IConnection x, k)
  | IVertical _ => do (m, k) <- load_vertical k d; Ok (IVertical m, k)
  end.
Fixpoint load_items (k : reading) (l : list (nat * item K)) (ds : list (data K)) : outcome (list (item K) * reading) :=
  match l, ds with
  | [], _ => Ok ([], k)
  | _ :: _, [] => Throw
  | (_, i) :: l, d :: ds => do (j, k) <- load_item k i d; do (js, k) <- load_items k l ds; Ok (j :: js, k)
  end.

Lemma item_rt order mem w k a i : (forall l, Permutation (order l) l) -> item_ok i -> mem a = of_item i -> linked mem w k -> (Z.of_nat (List.length w) < msb - 2)%Z ->
  exists d w' j k', save_item order w a i = Ok (d, w') /\ load_item k i d = Ok (j, k') /\ item_same i j /\ linked mem w' k' /\ List.length w' <= S (List.length w).
Proof.
  intros O (n & W & Cl & Q) Em L Sz. assert (Sz' : (Z.of_nat (List.length w) < msb - 1)%Z) by lia.
  assert (Len : forall w' (P : Prop), (w' = w \/ (w' = w ++ [a] /\ P)) -> List.length w' <= S (List.length w)). { intros w' P [->|(-> & _)]; [lia|]. rewrite app_length. cbn [List.length]. lia. }
  destruct i as [t|s|s c|x|m]; cbn [of_item] in *; cbn [save_item load_item].
  - destruct (tri_rt (K := K) n mem w k a t W Cl Em L Sz') as (d & w' & t' & k' & E & E' & W' & S & L' & _ & R). exists d, w', (ITriangulation t'), k'. split; auto. rewrite E'. cbn [bind]. split; auto.
    split; [|split; eauto]. split; auto. unfold tri_eqb, peqb. destruct S as (-> & _). destruct list_eq_dec; congruence.
  - destruct (flat_rt n order mem w k a s O Q Cl Em L Sz') as (d & w' & u & k' & E & E' & Su & S & L' & _ & R). exists d, w', (ISurface u), k'. split; auto. rewrite E'. cbn [bind]. split; auto.
    split; [|split; eauto]. split; auto. eapply same_flat_eqb; eauto.
  - destruct Q as (S0 & Lc). destruct (chain_rt n order mem w k a s c O S0 Cl Em L Sz' Lc) as (d & w' & u & k' & E & E' & Su & S & L' & _ & R). exists d, w', (IChain u c), k'. split; auto. rewrite E'. cbn [bind]. split; auto.
    split; [|split; eauto]. split; auto. eapply same_flat_eqb; eauto.
  - destruct (sconn_rt n order mem w k a x O Q Cl Em L Sz) as (d & w' & y & k' & E & E' & Vy & S & Es & Et & Ec & L' & _ & R). exists d, w', (IConnection y), k'. split; auto. rewrite E'. cbn [bind]. split; auto.
    split; [|split; eauto]. split; auto. destruct (sc_eqb_spec n n y x Vy Q) as (b & Eb & B). rewrite Eb. f_equal. apply B. split; [eapply same_flat_eqb; eauto; [apply Q|apply Vy]|]. split; auto.
    unfold sv, cvector, chain_vector. rewrite Ec. f_equal. apply map_ext. intros j. unfold vv. now rewrite (proj2 S).
  - destruct Q as (S0 & N). destruct (flat_rt n order mem w k a _ O S0 Cl Em L Sz') as (d & w' & u & k' & E & E' & Su & S & L' & _ & R). unfold save_vertical. rewrite E. cbn [bind].
    destruct (make_valid n u (vt_vertical m) Su N) as (m' & M & V). eexists _, w', (IVertical m'), k'. split; [reflexivity|]. split.
    { unfold load_vertical. cbn [field find fst String.eqb Ascii.eqb Bool.eqb bind]. rewrite E'. cbn [bind]. rewrite vec_rt. cbn [bind]. rewrite M. reflexivity. }
    split; [|split; eauto]. unfold item_same. rewrite (vd_surface _ _ _ _ V). split; auto. eapply same_flat_eqb; eauto.
Qed.

Lemma items_rt order mem : (forall l, Permutation (order l) l) -> forall l w k, linked mem w k -> (Z.of_nat (List.length w + List.length l) < msb - 1)%Z ->
  (forall a i, In (a, i) l -> item_ok i /\ mem a = of_item i) ->
  exists ds w' js k', save_items order w l = Ok (ds, w') /\ load_items k l ds = Ok (js, k') /\ Forall2 item_same (map snd l) js.
Proof.
  intros O. induction l as [|(a, i) l IH]; intros w k L Sz H; cbn [save_items load_items map snd].
  - exists [], w, [], k. auto.
  - cbn [List.length] in Sz. destruct (H a i) as (Ok_i & Em); [now left|]. destruct (item_rt order mem w k a i O Ok_i Em L) as (d & w1 & j & k1 & E & E' & S & L1 & Len); [lia|].
    destruct (IH w1 k1 L1) as (ds & w2 & js & k2 & F & F' & Q); [lia|intros; apply H; now right|]. exists (d :: ds), w2, (j :: js), k2. rewrite E. cbn [bind]. rewrite F. cbn [bind]. split; auto.
    rewrite E'. cbn [bind]. rewrite F'. cbn [bind]. split; auto.
Qed.
End archive.

(** Loading an archive gives what was saved, in any order in which hash tables are written, when surfaces are shared between what is saved,
    and when none of the surfaces has a boundary or changes while the archive is written. *)
Theorem C43_archive : forall (K : ExactReal) (order : list nat -> list nat) (mem : nat -> tri) (l : list (nat * item K)),
  (forall x, Permutation (order x) x) -> (forall a i, In (a, i) l -> item_ok i /\ mem a = of_item i) -> (Z.of_nat (List.length l) < 2 ^ 31 - 1)%Z ->
  exists ds w js k, save_items order [] l = Ok (ds, w) /\ load_items [] l ds = Ok (js, k) /\ Forall2 item_same (map snd l) js.
Proof. intros K order mem l O H Sz. apply (items_rt order mem); auto. intros a i E. discriminate. Qed.
Print Assumptions C43_archive.

(** The torus, a chain, a saddle connection and a vertical on it. *)
Definition vertical_of (v : vec ExactZ) : vertical ExactZ := mkVertical torus_s v (vneg (vperp v)) (repeat None 6) (repeat None 6) (repeat None 6) (repeat None 6) (repeat None 3).
Definition closed_items : list (nat * item ExactZ) :=
  [(5, ISurface torus_s); (5, IChain torus_s [2; -3; 0]%Z); (7, ITriangulation torus_t); (5, IConnection (mkSconn torus_s 0 1 [1; 0; 0]%Z)); (5, IVertical (vertical_of (zv 1 2)))].
Example C43_ex : (forall x : list nat, Permutation (rev x) x) /\ (forall a i, In (a, i) closed_items -> item_ok i /\ (fun _ => torus_t) a = of_item i) /\
  match save_items (@rev nat) [] closed_items with Ok (_, w) => Ok w | _ => Throw end = Ok [5; 7].
Proof.
  destruct torus_flat as (_ & S0 & Cl). split; [intros x; symmetry; apply Permutation_rev|]. split; [|vm_compute; reflexivity].
  assert (G : forall i : item ExactZ, of_item i = torus_t -> (match i with
    | ITriangulation t => True | ISurface s => flat_surface 6 s | IChain s c => flat_surface 6 s /\ List.length c = 3 | IConnection x => sc_valid 6 x
    | IVertical m => flat_surface 6 (vt_surface m) /\ vden (vt_vertical m) <> (0, 0)%R end) -> item_ok i /\ torus_t = of_item i).
  { intros i E Q. split; auto. exists 6. rewrite E. split; [apply torus_wf|]. split; [exact Cl|]. destruct i; auto. }
  intros a i [[= <- <-]|[[= <- <-]|[[= <- <-]|[[= <- <-]|[[= <- <-]|[]]]]]]; apply G; try reflexivity; auto.
  - split; auto. split; cbn [sc_source sc_target]; [lia|]. split; [lia|reflexivity].
  - split; auto. intros E. apply (f_equal fst) in E. cbn in E. lra.
Qed.

(** ** Where it goes wrong *)
(** A triangle with a boundary is loaded as a sphere without boundary. *)
Definition triangle_t : tri := Eval vm_compute in match make_from_cycles [[0; 5]; [2; 1]; [4; 3]] [1; 3; 5] with Ok t => t | _ => torus_t end.
Theorem C43_boundary_refuted : exists (t u : tri) d w k, well_formed 6 t /\ save_tri (K := ExactZ) [] 0 t = Ok (d, w) /\ load_tri [] d = Ok (u, k) /\
  (exists h, h < 6 /\ boundary t h = Ok true) /\ forall h, h < 6 -> boundary u h = Ok false.
Proof.
  pose proof (proj1 (C07_construction_cycles [[0; 5]; [2; 1]; [4; 3]] [1; 3; 5] triangle_t eq_refl)) as W. change (List.length _) with 6 in W.
  exists triangle_t. do 4 eexists. split; [exact W|]. split; [reflexivity|]. split; [reflexivity|]. split; [exists 1; split; [lia|reflexivity]|].
  intros h Hh. do 6 (destruct h as [|h]; [reflexivity|]). lia.
Qed.
Print Assumptions C43_boundary_refuted.

(** A flat triangle with a boundary cannot be loaded. *)
Definition triangle_s : flat ExactZ := mkFlat triangle_t [zv 1 0; zv (-1) 0; zv 0 1; zv 0 (-1); zv (-1) (-1); zv 1 1].
Lemma triangle_flat : flat_surface 6 triangle_s.
Proof.
  pose proof (proj1 (C07_construction_cycles [[0; 5]; [2; 1]; [4; 3]] [1; 3; 5] triangle_t eq_refl)) as W. change (List.length _) with 6 in W.
  assert (Su : suitable 6 triangle_t [zv 1 0; zv 0 1; zv (-1) (-1)]).
  { split; [reflexivity|]. intros e He N. do 6 (destruct e as [|e]; [first [exfalso; apply N; reflexivity | cbn; unfold padd, pdet, pneg; cbn; split; [f_equal; lra|lra]]|]). lia. }
  destruct (proj1 (C19_constructor _ 6 triangle_t _ W) Su) as (s' & F'' & S & _).
  assert (F : make_flat_list triangle_t [zv 1 0; zv 0 1; zv (-1) (-1)] = Ok triangle_s) by reflexivity. rewrite F in F''. injection F'' as <-. exact S.
Qed.
Theorem C43_flat_boundary_refuted : exists (s : flat ExactZ) d w, flat_surface 6 s /\ save_flat (fun l => l) [] 0 s = Ok (d, w) /\ load_flat [] d = Throw.
Proof. exists triangle_s. do 2 eexists. split; [exact triangle_flat|]. split; reflexivity. Qed.
Print Assumptions C43_flat_boundary_refuted.

(** A triangulation that is flipped while the archive is written is loaded as it was before the flip. *)
Theorem C43_flip_refuted : exists t t' u u' (d d' : data ExactZ) w w' k k', well_formed 6 t /\ flip t 0 = (t', Ok tt) /\
  save_tri (K := ExactZ) [] 0 t = Ok (d, w) /\ save_tri w 0 t' = Ok (d', w') /\ load_tri [] d = Ok (u, k) /\ load_tri k d' = Ok (u', k') /\
  tri_eqb u t = true /\ tri_eqb u' t' = false.
Proof.
  exists torus_t. do 9 eexists. split; [apply torus_wf|]. split; [vm_compute; reflexivity|]. do 4 (split; [vm_compute; reflexivity|]). split; vm_compute; reflexivity.
Qed.
Print Assumptions C43_flip_refuted.
