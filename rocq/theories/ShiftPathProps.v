(** * Property C79: images of paths when vertices are shifted *)
From Coq Require Import ZArith Reals List Arith Bool Lia Lra.
From Verif Require Import Base HalfEdge HalfEdgeFacts Perm PermSpec PermFacts PermCycles IndexedSet Combinatorial CombinatorialSpec
  CombinatorialFacts CombinatorialHistory CombinatorialOps ExactReal Vector PlaneSpec Plane VectorFacts VectorProps
  FlatTri FlatSpec FlatFacts FlatProps FlatSum ChainSpec Saddle SaddleSpec SaddleFacts
  Search SearchSpec SearchPlane PointFacts Translate TranslateProps Connect ConnectProps Intersection Crossings CrossingsSpec CrossingsFacts CrossingsProps Path ShiftPath ShiftPathSpec ShiftPathFacts.
Import ListNotations.
Local Open Scope R_scope.

(** Each saddle connection is replaced by half edges that form a homotopic path, and these are replaced by their images. *)
Theorem C79_image : forall (K : ExactReal) n (s : flat K) (shifted : list (path K)) p, flat_surface n s -> closed_surface n s -> length shifted = n -> Forall (segment_of n s) p ->
  exists ls N, Forall2 (fun x l => route n s (sc_source x) l (sc_target x) /\ homotopic n s (sc_source x) (sv n x) l) p ls /\
    forall fuel, (N <= fuel)%nat -> shift_path fuel shifted p = Ok (flat_map (fun h => nth h shifted []) (concat ls)).
Proof.
  intros K n s shifted p S0 Cl Ls Fp. destruct (loop_image n s S0 Cl shifted Ls p Fp) as (ls & N & Fs & E). exists ls, N. split; auto. intros fuel Hf. apply (E fuel [] Hf).
Qed.
Print Assumptions C79_image.

(** ** Vectors *)
Lemma plane_group : group padd (0, 0) pneg.
Proof. unfold group, padd, pneg. repeat split; intros; apply pt_eq; cbn; ring. Qed.
Lemma total_images {K : ExactReal} m (f : nat -> path K) d : forall l, (forall h, In h l -> total m (f h) = d h) -> total m (flat_map f l) = product padd (0, 0) (map d l).
Proof.
  assert (App : forall p q : path K, total m (p ++ q) = padd (total m p) (total m q)).
  { induction p as [|x p IH]; intros q; cbn [app]; [unfold total at 2; cbn; unfold padd; apply pt_eq; cbn; ring|]. unfold total in *. cbn [map fold_right]. rewrite IH. unfold padd. apply pt_eq; cbn; ring. }
  induction l as [|h l IH]; intros H; [reflexivity|]. cbn [flat_map map product fold_right]. rewrite App, (H h (or_introl eq_refl)), IH; auto. intros g I. apply H. now right.
Qed.
Lemma route_lt {K : ExactReal} n (s : flat K) : forall l a b, route n s a l b -> forall h, In h l -> (h < n)%nat.
Proof. induction l as [|g l IH]; intros a b R h I; [destruct I|]. destruct R as (Hg & _ & R). destruct I as [<-|I]; eauto. Qed.
(** The vectors of the images of the half edges determine the vector of the image of a path: its saddle connections are unfolded with these vectors. *)
Theorem C79_vector : forall (K : ExactReal) n m (s : flat K) (shifted : list (path K)) d p, flat_surface n s -> closed_surface n s -> length shifted = n -> Forall (segment_of n s) p ->
  cocycle padd (0, 0) pneg n s d -> (forall h, (h < n)%nat -> total m (nth h shifted []) = d h) ->
  exists es q N, Forall2 (fun x e => exists c, crossed s (sc_source x) (sv n x) c /\ e = unfolded_end padd s d (sc_source x) (map snd c)) p es /\
    total m q = product padd (0, 0) es /\ forall fuel, (N <= fuel)%nat -> shift_path fuel shifted p = Ok q.
Proof.
  intros K n m s shifted d p S0 Cl Ls Fp Co Hd. destruct (C79_image K n s shifted p S0 Cl Ls Fp) as (ls & N & Fs & E).
  exists (map (fun l => product padd (0, 0) (map d l)) ls), (flat_map (fun h => nth h shifted []) (concat ls)), N. split; [|split; auto].
  - clear E. induction Fs as [|x l p ls (R & c & Cr & Eq) Fs IH]; cbn [map]; constructor; [|inversion Fp; auto]. exists c. split; auto. apply (Eq pt padd (0, 0) pneg d plane_group Co).
  - rewrite (total_images m _ d).
    + clear. induction ls as [|l ls IH]; auto. cbn [concat map]. change (product padd (0, 0) (map d (l ++ concat ls)) = padd (product padd (0, 0) (map d l)) (product padd (0, 0) (map (fun l => product padd (0, 0) (map d l)) ls))). rewrite map_app, (product_app padd (0, 0) pneg plane_group). now rewrite IH.
    + intros h I. apply Hd. apply in_concat in I. destruct I as (l & Il & Ih). clear E. induction Fs as [|x l' p ls (R & _) Fs IH]; [destruct Il|]. destruct Il as [->|Il]; [now apply (route_lt n s l _ _ R)|]. inversion Fp; auto.
Qed.
Print Assumptions C79_vector.

(** When the half edges are mapped linearly then so are the paths. *)
Section linear.
Context {K : ExactReal} (n : nat) (s : flat K) (f : pt -> pt).
Hypothesis S0 : flat_surface n s.
Hypothesis Cl : closed_surface n s.
Hypothesis A : forall u w, f (padd u w) = padd (f u) (f w).
Lemma linear_zero : f (0, 0) = (0, 0).
Proof. assert (E := A (0, 0) (0, 0)). replace (padd (0, 0) (0, 0)) with (0, 0) in E by (unfold padd; apply pt_eq; cbn; ring). destruct (f (0, 0)) as [a b]. unfold padd in E. apply pair_equal_spec in E. cbn [fst snd] in E. apply pt_eq; cbn; lra. Qed.
Lemma linear_neg u : f (pneg u) = pneg (f u).
Proof.
  assert (E := A u (pneg u)). replace (padd u (pneg u)) with (0, 0) in E by (unfold padd, pneg; apply pt_eq; cbn; ring). rewrite linear_zero in E. destruct (f u), (f (pneg u)). unfold padd in E. apply pair_equal_spec in E. cbn [fst snd] in E.
  unfold pneg. apply pt_eq; cbn; lra.
Qed.
Lemma linear_cocycle : cocycle padd (0, 0) pneg n s (fun h => f (vv s h)).
Proof.
  split; intros h Hh; [now rewrite (fs_odd n s S0 h Hh), linear_neg|]. rewrite <- !A. rewrite <- linear_zero. f_equal. destruct (fs_flat n s S0 h Hh (Cl h Hh)) as (E & _).
  rewrite <- E. unfold padd. apply pt_eq; cbn; ring.
Qed.
Lemma unfolded_linear p h v c : through s p h v c -> (h < n)%nat -> unfolded padd s (fun h => f (vv s h)) (f p) h (map snd c) = f v.
Proof.
  induction 1 as [p h|p h v c Cr T IH|p h v c q b Cr T IH]; intros Hh; assert (Hn : (neg h < n)%nat) by (now apply (neg_ltn n (fT s) (fs_wf n s S0))); assert (Ha : (fF s (neg h) < n)%nat) by (now apply (fF_lt n)); cbn [map snd unfolded].
  - now rewrite A.
  - rewrite Nat.eqb_refl. auto.
  - destruct (Nat.eqb_spec b (fF s (neg h))) as [Eb|Nb]; [now apply (Cl _ Ha) in Eb|]. rewrite <- A. apply IH. now apply (fF_lt n).
Qed.
Lemma end_linear h v c : (h < n)%nat -> crossed s h v c -> unfolded_end padd s (fun h => f (vv s h)) h (map snd c) = f v.
Proof. intros Hh [[-> ->]|(c' & -> & _ & T)]; auto. cbn [map snd unfolded_end]. apply unfolded_linear; auto. now apply (fF_lt n). Qed.
End linear.
Theorem C79_linear : forall (K : ExactReal) n m (s : flat K) (shifted : list (path K)) f p, flat_surface n s -> closed_surface n s -> length shifted = n -> Forall (segment_of n s) p ->
  (forall u w, f (padd u w) = padd (f u) (f w)) -> (forall h, (h < n)%nat -> total m (nth h shifted []) = f (vv s h)) ->
  exists q N, total m q = f (total n p) /\ forall fuel, (N <= fuel)%nat -> shift_path fuel shifted p = Ok q.
Proof.
  intros K n m s shifted f p S0 Cl Ls Fp A Hf. destruct (C79_vector K n m s shifted (fun h => f (vv s h)) p S0 Cl Ls Fp (linear_cocycle n s f S0 Cl A) Hf) as (es & q & N & Fe & Tq & E).
  exists q, N. split; auto. rewrite Tq. clear Tq E. induction Fe as [|x e p es (c & Cr & Ee) Fe IH]; [symmetry; now apply linear_zero|]. inversion_clear Fp as [|? ? X Xs]. pose proof X as (_ & (_ & Hs & _) & _).
  unfold total. cbn [product map fold_right]. rewrite A. f_equal; [|now apply IH]. rewrite Ee. now apply (end_linear n s f S0 Cl A).
Qed.
Print Assumptions C79_linear.

(** ** Images of paths are paths: [F h] is (a half edge at) the image of the vertex at [h]. *)
Lemma leads_trans {K : ExactReal} (u : flat K) p : forall a b q c, leads_to u a p b -> leads_to u b q c -> leads_to u a (p ++ q) c.
Proof.
  induction p as [|x p IH]; intros a b q c; cbn [leads_to app].
  - intros E. destruct q as [|y q]; cbn [leads_to]; [apply same_vertex_trans; auto|]. intros (Sy & Ey & L). split; auto. split; auto. now apply (same_vertex_trans _ a b).
  - intros (Sx & Ex & L) L'. split; auto. split; auto. now apply (IH _ b).
Qed.
Theorem C79_connected : forall (K : ExactReal) n (s u : flat K) (shifted : list (path K)) F p a b, flat_surface n s -> closed_surface n s -> length shifted = n -> Forall (segment_of n s) p ->
  (forall h g, (h < n)%nat -> (g < n)%nat -> same_vertex (fT s) h g -> same_vertex (fT u) (F h) (F g)) -> (forall h, (h < n)%nat -> leads_to u (F h) (nth h shifted []) (F (neg h))) ->
  (a < n)%nat -> (b < n)%nat -> leads_to s a p b ->
  exists q N, leads_to u (F a) q (F b) /\ forall fuel, (N <= fuel)%nat -> shift_path fuel shifted p = Ok q.
Proof.
  intros K n s u shifted F p a b S0 Cl Ls Fp FV Fl Ha Hb L. destruct (C79_image K n s shifted p S0 Cl Ls Fp) as (ls & N & Fs & E).
  exists (flat_map (fun h => nth h shifted []) (concat ls)), N. split; auto. clear E. assert (W := fs_wf n s S0).
  assert (Rt : forall l a b, (a < n)%nat -> (b < n)%nat -> route n s a l b -> leads_to u (F a) (flat_map (fun h => nth h shifted []) l) (F b)).
  { induction l as [|h l IH]; intros x y Hx Hy R; cbn [route flat_map leads_to] in *; [auto|]. destruct R as (Hh & Eh & R).
    apply (leads_trans u _ _ (F (neg h))); [|apply IH; auto; now apply (neg_ltn n (fT s) W)]. change (leads_to u (F x) ([] ++ nth h shifted []) (F (neg h))). apply (leads_trans u [] _ (F h)); [cbn [leads_to]; auto|auto]. }
  revert a Ha L. induction Fs as [|x l p ls (R & _) Fs IH]; intros a Ha L; cbn [leads_to concat flat_map] in *; [auto|]. inversion_clear Fp as [|? ? X Xs]. pose proof X as (_ & (_ & Hs & Ht & _) & _).
  destruct L as (_ & Ea & L). rewrite flat_map_app. apply (leads_trans u _ _ (F (sc_target x))); [|auto].
  change (leads_to u (F a) ([] ++ flat_map (fun h => nth h shifted []) l) (F (sc_target x))). apply (leads_trans u [] _ (F (sc_source x))); [cbn [leads_to]; auto|]. now apply Rt.
Qed.
Print Assumptions C79_connected.

(** ** What is checked to claim that a deformation is trivial *)
Lemma path_one {K : ExactReal} (p : path K) y : path_eqb p [y] = Ok true <-> exists x, p = [x] /\ sc_eqb x y = Ok true.
Proof.
  unfold path_eqb. destruct p as [|x [|z p]]; cbn [length Nat.eqb segments_eqb].
  - split; [discriminate|]. intros (x & Q & _). discriminate.
  - split.
    + intros E. exists x. split; auto. destruct (sc_eqb x y) as [[|]| | |]; cbn in E; try discriminate; auto.
    + intros (x' & Q & E). injection Q as <-. rewrite E. reflexivity.
  - split; [discriminate|]. intros (x' & Q & _). discriminate.
Qed.
Lemma keeps_all {K : ExactReal} (s : flat K) shifted : forall es, shift_keeps s shifted es = Ok true <->
  forall e, In e es -> exists x y, nth_error shifted e = Some [x] /\ sc_half_edge s e = Ok y /\ sc_eqb x y = Ok true.
Proof.
  induction es as [|e es IH]; cbn [shift_keeps]; [split; [intros _ e []|auto]|]. split.
  - intros E. unfold vget in E. destruct (nth_error shifted e) as [p|] eqn:En; [|discriminate]. cbn [bind] in E. destruct (sc_half_edge s e) as [y| | |] eqn:Ey; try discriminate. cbn [bind] in E.
    destruct (path_eqb p [y]) as [[|]| | |] eqn:Ep; try discriminate. cbn [bind] in E. apply path_one in Ep as (x & -> & Q). intros g [<-|I]; [exists x, y; auto|]. now apply (proj1 IH E).
  - intros H. destruct (H e (or_introl eq_refl)) as (x & y & En & Ey & Q). unfold vget. rewrite En. cbn [bind]. rewrite Ey. cbn [bind]. rewrite (proj2 (path_one [x] y)) by eauto. cbn [bind]. apply IH. intros g I. apply H. now right.
Qed.
(** The surfaces are equal, and the image of each positive half edge is that half edge. *)
Theorem C79_trivial : forall (K : ExactReal) n (s s' : flat K) (shifted : list (path K)), flat_surface n s ->
  shift_trivial s s' shifted = Ok true <-> flat_eqb s s' = Ok true /\
    forall e, (e < n)%nat -> Nat.even e = true -> exists x y, nth_error shifted e = Some [x] /\ sc_half_edge s e = Ok y /\ sc_eqb x y = Ok true.
Proof.
  intros K n s s' shifted S0. pose proof (fs_wf n s S0) as W. destruct (wf_even n _ W) as (m & Em).
  assert (In' : forall e, In e (map (fun i => 2 * i)%nat (seq 0 (tsize (fT s) / 2))) <-> (e < n)%nat /\ Nat.even e = true).
  { intros e. rewrite in_map_iff, (wf_size n _ W). replace (n / 2)%nat with m by (rewrite Em, Nat.mul_comm; now rewrite Nat.div_mul). split.
    - intros (i & <- & I). apply in_seq in I. split; [lia|]. now rewrite Nat.even_mul.
    - intros (L & E). apply Nat.even_spec in E as (i & ->). exists i. split; auto. apply in_seq. lia. }
  unfold shift_trivial. destruct (flat_eqb s s') as [[|]| | |]; cbn [bind negb]; try (split; [discriminate|intros (Q & _); discriminate]).
  rewrite keeps_all. split.
  - intros H. split; auto. intros e L E. apply H. now apply In'.
  - intros (_ & H) e I. apply In' in I as (L & E). now apply H.
Qed.
Print Assumptions C79_trivial.
Definition flip_edges : list (path ExactZ) := Eval vm_compute in match omap (sc_half_edge flip_s) (seq 0 6) with Ok l => map (fun x => [x]) l | _ => [] end.
Example C79_trivial_ex : flat_surface 6 flip_s /\
  shift_trivial flip_s flip_s flip_edges = Ok true /\ shift_trivial flip_s torus_s flip_edges = Ok false /\ shift_trivial flip_s flip_s (tl flip_edges ++ [[]]) = Ok false.
Proof. split; [apply flip_flat|]. repeat split; vm_compute; reflexivity. Qed.

(** ** A deformation that claims to be trivial, though it replaces a saddle connection by half edges *)
Theorem C79_trivial_refuted : exists (K : ExactReal) n (s : flat K) (shifted : list (path K)) x fuel q, flat_surface n s /\ closed_surface n s /\ length shifted = n /\ segment_of n s x /\
  shift_trivial s s shifted = Ok true /\ shift_path fuel shifted [x] = Ok q /\ path_eqb q [x] = Ok false.
Proof.
  exists ExactZ, 6%nat, flip_s, flip_edges, long_connection, 200%nat. destruct (shift_path 200 flip_edges [long_connection]) as [q| | |] eqn:E.
  2-4: exfalso; assert (X : match shift_path 200 flip_edges [long_connection] with Ok _ => true | _ => false end = true) by (vm_compute; reflexivity); rewrite E in X; discriminate.
  exists q. split; [apply flip_flat|]. split; [apply flip_flat|]. split; [reflexivity|]. split; [split; [reflexivity|]; split; [apply C76_ex|apply C76_ex]|]. split; [vm_compute; reflexivity|]. split; [reflexivity|].
  assert (X : (do q <- shift_path 200 flip_edges [long_connection]; path_eqb q [long_connection]) = Ok false) by (vm_compute; reflexivity). rewrite E in X. exact X.
Qed.
Print Assumptions C79_trivial_refuted.

(** ** Example: on the L, the marked point is moved (and everything is scaled by two). *)
Definition M2_s : flat ExactZ := mkFlat M_t
  [zv 6 0; zv (-6) 0; zv 6 0; zv (-6) 0; zv 6 0; zv (-6) 0; zv 0 6; zv 0 (-6); zv 0 6; zv 0 (-6); zv 0 6; zv 0 (-6);
   zv 6 6; zv (-6) (-6); zv 6 6; zv (-6) (-6); zv 6 6; zv (-6) (-6); zv (-5) (-2); zv 5 2; zv 1 (-2); zv (-1) 2; zv 1 4; zv (-1) (-4)].
Definition M_shifted : list (path ExactZ) := Eval vm_compute in match omap (sc_half_edge M2_s) (seq 0 24) with Ok l => map (fun x => [x]) l | _ => [] end.
Lemma M2_flat : flat_surface 24 M2_s /\ closed_surface 24 M2_s.
Proof.
  set (vs := [zv 6 0; zv 6 0; zv 6 0; zv 0 6; zv 0 6; zv 0 6; zv 6 6; zv 6 6; zv 6 6; zv (-5) (-2); zv 1 (-2); zv 1 4]).
  assert (M2_suitable : suitable 24 M_t vs).
  { split; [reflexivity|]. intros e He. do 24 (destruct e as [|e]; [intros _; cbn; unfold padd, pneg, pdet, vden; cbn; split; [f_equal; lra|lra]|]). lia. }
  destruct (proj1 (C19_constructor _ 24 M_t _ M_wf) M2_suitable) as (s' & F'' & S & _).
  assert (F : make_flat_list M_t vs = Ok M2_s) by reflexivity. replace s' with M2_s in S by congruence. split; auto.
  intros e He. do 24 (destruct e as [|e]; [cbn; discriminate|]). lia.
Qed.
Lemma M_shifted_edge h : (h < 24)%nat -> exists y, sc_half_edge M2_s h = Ok y /\ nth h M_shifted [] = [y].
Proof. intros Hh. do 24 (destruct h as [|h]; [eexists; split; vm_compute; reflexivity|]). lia. Qed.
(** Two saddle connections that meet at the marked point. *)
Definition first_x : sconn ExactZ := mkSconn M_s 20 22 [0; 1; 0; 0; -1; 0; 0; 0; 0; -1; 1; 0]%Z.
Definition second_x : sconn ExactZ := mkSconn M_s 22 17 [0; 0; 0; 0; 0; 1; 0; 0; 1; 0; -1; 2]%Z.
Lemma M_segments : Forall (segment_of 24 M_s) [first_x; second_x].
Proof.
  assert (X1 : sc_valid 24 first_x) by (split; [apply M_flat|]; cbn; repeat split; auto; lia). assert (X2 : sc_valid 24 second_x) by (split; [apply M_flat|]; cbn; repeat split; auto; lia).
  constructor; [|constructor; [|constructor]].
  - split; [reflexivity|]. split; auto. rewrite (computed_vector 24 _ (zv 6 (-3)) X1) by (vm_compute; reflexivity). rewrite vden_zv. split; [vm_compute; discriminate|]. right. connects.
  - split; [reflexivity|]. split; auto. rewrite (computed_vector 24 _ (zv 4 11) X2) by (vm_compute; reflexivity). rewrite vden_zv. split; [vm_compute; discriminate|]. right. connects.
Qed.
(** The vectors (6, -3) and (4, 11) turn into (12, -6) and (7, 22). *)
Example C79_ex : flat_surface 24 M_s /\ closed_surface 24 M_s /\ length M_shifted = 24%nat /\ Forall (segment_of 24 M_s) [first_x; second_x] /\
  cocycle padd (0, 0) pneg 24 M_s (fun h => vv M2_s h) /\ (forall h, (h < 24)%nat -> total 24 (nth h M_shifted []) = vv M2_s h) /\
  (forall h g, same_vertex (fT M_s) h g -> same_vertex (fT M2_s) h g) /\ (forall h, (h < 24)%nat -> leads_to M2_s h (nth h M_shifted []) (neg h)) /\
  leads_to M_s 20 [first_x; second_x] 17 /\
  (do q <- shift_path 300 M_shifted [first_x; second_x]; Ok (map sc_source q)) = Ok [20; 8; 9; 14; 15; 2; 7; 12; 23; 22; 13; 12; 5; 4; 10; 12; 5; 16]%nat /\
  (do q <- shift_path 300 M_shifted [first_x; second_x]; do vs <- omap sc_vector q; Ok (fold_right vadd vzero vs)) = Ok (zv 19 16).
Proof.
  split; [apply M_flat|]. split; [apply M_flat|]. split; [reflexivity|]. split; [exact M_segments|].
  split. { apply (linear_cocycle 24 M2_s (fun u => u)); [apply M2_flat|apply M2_flat|reflexivity]. }
  split.
  { intros h Hh. destruct (M_shifted_edge h Hh) as (y & Ey & ->). unfold sc_half_edge in Ey. destruct (zc_half_edge_Ok 24 M2_s (proj1 M2_flat) h Hh) as (c & Ec & _ & Dc). rewrite Ec in Ey. cbn [bind] in Ey. injection Ey as <-.
    unfold total, sv. cbn [map fold_right sc_surface sc_chain]. rewrite Dc. destruct (vv M2_s h). unfold padd. apply pt_eq; cbn [fst snd]; lra. }
  split; [auto|]. split.
  { intros h Hh. destruct (M_shifted_edge h Hh) as (y & Ey & ->). unfold sc_half_edge in Ey. destruct (zc_half_edge M2_s h) as [c| | |]; cbn [bind] in Ey; try discriminate. injection Ey as <-. cbn [leads_to sc_surface sc_source sc_target]. split; auto. split; now exists 0%nat. }
  split. { cbn [leads_to]. split; [reflexivity|]. split; [now exists 0%nat|]. split; [reflexivity|]. split; now exists 0%nat. }
  split; vm_compute; reflexivity.
Qed.
(** The torus is not moved. *)
Example C79_linear_ex : flat_surface 6 flip_s /\ closed_surface 6 flip_s /\ length flip_edges = 6%nat /\ Forall (segment_of 6 flip_s) [long_connection] /\
  (forall h, (h < 6)%nat -> total 6 (nth h flip_edges []) = vv flip_s h) /\
  (do q <- shift_path 200 flip_edges [long_connection]; do vs <- omap sc_vector q; Ok (length q, fold_right vadd vzero vs)) = Ok (9%nat, zv 3 1).
Proof.
  split; [apply flip_flat|]. split; [apply flip_flat|]. split; [reflexivity|]. split; [constructor; [|constructor]; split; [reflexivity|]; split; apply C76_ex|]. split; [|vm_compute; reflexivity].
  intros h Hh. assert (E : exists y, sc_half_edge flip_s h = Ok y /\ nth h flip_edges [] = [y]) by (do 6 (destruct h as [|h]; [eexists; split; vm_compute; reflexivity|]); lia). destruct E as (y & Ey & ->).
  unfold sc_half_edge in Ey. destruct (zc_half_edge_Ok 6 flip_s (proj1 flip_flat) h Hh) as (c & Ec & _ & Dc). rewrite Ec in Ey. cbn [bind] in Ey. injection Ey as <-.
  unfold total, sv. cbn [map fold_right sc_surface sc_chain]. rewrite Dc. destruct (vv flip_s h). unfold padd. apply pt_eq; cbn [fst snd]; lra.
Qed.
