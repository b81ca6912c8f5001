(** * Theorems about paths (C38) and about mapping them (C49) *)
From Coq Require Import ZArith Reals List Arith Bool Lia Lra Psatz.
From Verif Require Import Base HalfEdge HalfEdgeFacts Perm PermSpec PermFacts PermCycles PermLemmas IndexedSet Combinatorial CombinatorialSpec
  CombinatorialFacts CombinatorialHistory CombinatorialOps CombinatorialProps ExactReal Vector PlaneSpec Plane VectorFacts VectorProps
  FlatTri FlatSpec FlatFacts FlatSum FlatLinear FlatOps FlatDelaunay FlatAngle FlatSector FlatProps FlatAngleProps Chain ChainSpec ChainFacts
  Saddle SaddleSpec SaddleFacts SaddleProps Path.
Import ListNotations.
Local Open Scope nat_scope.

(** ** Specification *)
(** All segments are saddle connections of the same surface. *)
Definition path_on {K : ExactReal} (n : nat) (s : flat K) (p : path K) : Prop := forall x, In x p -> sc_valid n x /\ sc_surface x = s.
(** Each segment starts at the vertex where the one before ends. *)
Fixpoint connected_path {K : ExactReal} (s : flat K) (p : path K) : Prop :=
  match p with
  | x :: (y :: _) as r => same_vertex (fT s) (sc_target x) (sc_source y) /\ connected_path s r
  | _ => True
  end.
(** It ends where it started. *)
Definition closed_path {K : ExactReal} (s : flat K) (p : path K) : Prop :=
  match p with [] => True | x :: _ => same_vertex (fT s) (sc_target (last p x)) (sc_source x) end.
(** The iterator that is reached from [begin] with [k] increments. *)
Definition advanced {K : ExactReal} (p : path K) (k : nat) : piter := Nat.iter k (increment p) (path_begin p).
(** The total displacement. *)
Definition displacement {K : ExactReal} (n : nat) (p : path K) : pt := psum (map (sv n) p).

(** ** C38: paths *)
Lemma path_neg_on {K : ExactReal} n (s : flat K) p : path_on n s p -> path_on n s (path_neg p).
Proof.
  intros P x I. unfold path_neg in I. apply in_rev, in_map_iff in I as (y & <- & J). destruct (P y J) as [A B]. split; [now apply sc_neg_valid|exact B].
Qed.

(** Equality compares the segments. *)
Theorem C38_equality : forall (K : ExactReal) n m (s u : flat K) (p q : path K), path_on n s p -> path_on m u q ->
  exists b, path_eqb p q = Ok b /\
    (b = true <-> length p = length q /\ forall i x y, nth_error p i = Some x -> nth_error q i = Some y -> sc_eqb x y = Ok true).
Proof.
  intros K n m s u p q P Q. unfold path_eqb. destruct (Nat.eqb_spec (length p) (length q)) as [L|L].
  2: { exists false. split; auto. split; [discriminate|intros [X _]; contradiction]. }
  assert (G : exists b, segments_eqb p q = Ok b /\ (b = true <-> forall i x y, nth_error p i = Some x -> nth_error q i = Some y -> sc_eqb x y = Ok true)).
  { revert q Q L. induction p as [|x p IH]; intros [|y q] Q L; cbn [length] in L; try lia; cbn [segments_eqb].
    - exists true. split; auto. split; auto. intros _ [|i]; discriminate.
    - destruct (sc_eqb_spec n m x y) as (b & E & _); [apply (P x); now left|apply (Q y); now left|]. rewrite E. cbn [bind]. destruct b.
      + destruct (IH (fun z I => P z (or_intror I)) q (fun z I => Q z (or_intror I))) as (c & Ec & C); [lia|]. exists c. split; auto. rewrite C. split.
        * intros H [|i] a b; cbn; [intros [= <-] [= <-]; auto|apply H].
        * intros H i a b. apply (H (S i)).
      + exists false. split; auto. split; [discriminate|]. intros H. specialize (H 0 x y eq_refl eq_refl). congruence. }
  destruct G as (b & -> & B). exists b. split; auto. rewrite B. tauto.
Qed.
Print Assumptions C38_equality.

(** Reversing twice gives the same path, reversing a sum gives the sum of the reversed paths in the other order. *)
Theorem C38_reverse : forall (K : ExactReal) n (s : flat K) (p q : path K), path_on n s p -> path_on n s q ->
  path_neg (path_neg p) = p /\ path_eqb (path_neg (path_neg p)) p = Ok true /\ length (path_neg p) = length p /\
  (exists r, path_add p q = Ok r /\ length r = length p + length q /\ path_add (path_neg q) (path_neg p) = Ok (path_neg r)) /\
  displacement n (path_neg p) = pneg (displacement n p).
Proof.
  intros K n s p q P Q.
  assert (E : forall p : path K, path_neg (path_neg p) = p).
  { intros r. unfold path_neg. rewrite map_rev, rev_involutive, map_map. rewrite <- (map_id r) at 2. apply map_ext. apply sc_neg_neg. }
  assert (F : forall l (a : path K), fold_left push_back l a = a ++ l).
  { induction l as [|x l IH]; intros a; cbn; [now rewrite app_nil_r|]. rewrite IH. unfold push_back. now rewrite <- app_assoc. }
  split; [apply E|]. split; [|split; [|split]].
  - rewrite E. destruct (C38_equality K n n s s p p P P) as (b & -> & B). f_equal. apply B. split; auto. intros i x y X Y. rewrite X in Y. injection Y as <-.
    apply nth_error_In in X. destruct (P x X) as [V _]. exact (proj1 (C42_equivalence K n n n x x x V V V)).
  - unfold path_neg. now rewrite rev_length, map_length.
  - exists (p ++ q). unfold path_add, path_append. rewrite !F. split; auto. split; [apply app_length|]. unfold path_neg. now rewrite map_app, rev_app_distr.
  - unfold displacement, path_neg. rewrite map_rev.
    assert (R : forall l, psum (rev l) = psum l).
    { assert (A : forall l r, psum (l ++ r) = padd (psum l) (psum r)).
      { induction l as [|a l IH]; intros r; cbn; [unfold padd; destruct (psum r); cbn; f_equal; lra|]. rewrite IH. unfold padd; cbn; f_equal; lra. }
      induction l as [|a l IH]; cbn; auto. rewrite A, IH. cbn. unfold padd; cbn; f_equal; lra. }
    rewrite R, map_map. clear - P. induction p as [|x p IH]; cbn [map psum]; [unfold pneg; cbn; f_equal; lra|].
    rewrite IH by (intros y I; apply P; now right). rewrite (sv_neg n x) by (apply P; now left). unfold padd, pneg; cbn; f_equal; lra.
Qed.
Print Assumptions C38_reverse.

(** [closed] tells whether the path ends where it starts; connected and closed paths remain so when they are reversed. *)
Theorem C38_closed : forall (K : ExactReal) n (s : flat K) (p : path K), path_on n s p ->
  (exists b, path_closed p = Ok b /\ (b = true <-> closed_path s p)) /\
  (closed_path s p <-> closed_path s (path_neg p)) /\ (connected_path s p <-> connected_path s (path_neg p)).
Proof.
  intros K n s p P.
  assert (Sym : forall x y, sc_valid n x -> sc_surface x = s -> sc_valid n y -> sc_surface y = s ->
    (same_vertex (fT s) (sc_target x) (sc_source y) <-> same_vertex (fT s) (sc_source y) (sc_target x))).
  { intros x y (Sx & Hx & Tx & _) Ex (_ & Hy & _) _. rewrite Ex in Sx. split; apply (same_vertex_sym n); auto; apply Sx. }
  assert (Ln : forall r : path K, forall x, In (last (x :: r) x) (x :: r)).
  { intros r x. destruct (exists_last (l := x :: r)) as (l & z & ->); [discriminate|]. rewrite last_last. apply in_or_app. right. now left. }
  split; [|split].
  - destruct p as [|x p]; [exists true; split; auto; cbn; tauto|]. unfold path_closed, connected. assert (I := Ln p x). cbv zeta. set (y := last (x :: p) x) in *.
    destruct (P y I) as ((Sy & _ & Ty & _) & Ey). destruct (P x (or_introl eq_refl)) as ((Sx & Hx & _) & Ex).
    rewrite Ey in Sy |- *. rewrite Ex in Sx |- *. assert (W := fs_wf n s Sy).
    destruct (vertex_source_Ok n (fT s) _ W Ty) as (v & Ev & _). destruct (vertex_source_Ok n (fT s) _ W Hx) as (w & Ew & _). rewrite Ev, Ew. cbn [bind].
    eexists. split; [reflexivity|]. unfold closed_path. fold y. eapply vertex_eqb_spec; eauto.
  - destruct p as [|x p]; [tauto|]. destruct (exists_last (l := x :: p)) as (l & z & El); [discriminate|].
    assert (Iz : In z (x :: p)) by (rewrite El; apply in_or_app; right; now left).
    unfold closed_path at 1. rewrite El at 1. rewrite last_last.
    assert (En : path_neg (x :: p) = sc_neg z :: path_neg l). { rewrite El. unfold path_neg. rewrite map_app, rev_app_distr. reflexivity. }
    assert (Ez : last (path_neg (x :: p)) (sc_neg z) = sc_neg x). { unfold path_neg. cbn [map rev]. apply last_last. }
    rewrite En in Ez |- *. unfold closed_path. rewrite Ez. cbn [sc_neg sc_target sc_source].
    destruct (P x (or_introl eq_refl)) as [Vx Ex]. destruct (P z Iz) as [Vz Ezz]. apply Sym; auto.
  - induction p as [|x p IH]; [tauto|]. destruct p as [|y p].
    + cbn. tauto.
    + change (connected_path s (x :: y :: p)) with (same_vertex (fT s) (sc_target x) (sc_source y) /\ connected_path s (y :: p)).
      rewrite IH by (intros z I; apply P; now right).
      assert (A : forall l a b, connected_path s (l ++ [a; b]) <-> connected_path s (l ++ [a]) /\ same_vertex (fT s) (sc_target a) (sc_source b)).
      { clear. induction l as [|c l IH]; intros a b; [cbn; tauto|]. cbn [app]. destruct l as [|d l]; cbn [app] in *; [cbn; tauto|].
        change (connected_path s (c :: d :: l ++ [a; b])) with (same_vertex (fT s) (sc_target c) (sc_source d) /\ connected_path s (d :: l ++ [a; b])).
        change (connected_path s (c :: d :: l ++ [a])) with (same_vertex (fT s) (sc_target c) (sc_source d) /\ connected_path s (d :: l ++ [a])).
        rewrite IH. tauto. }
      unfold path_neg. cbn [map rev]. rewrite <- app_assoc. cbn [app]. rewrite A. cbn [sc_neg sc_target sc_source].
      destruct (P x (or_introl eq_refl)) as [Vx Ex]. destruct (P y (or_intror (or_introl eq_refl))) as [Vy Ey]. rewrite (Sym x y) by auto. tauto.
Qed.
Print Assumptions C38_closed.

Lemma advanced_state {K : ExactReal} (p : path K) k : p <> [] -> advanced p k = mkPiter (k mod length p) (k / length p) false.
Proof.
  intros N. assert (L : 0 < length p) by (destruct p; [congruence|cbn; lia]).
  induction k as [|k IH].
  - unfold advanced; cbn [Nat.iter]. unfold path_begin, make_iter. destruct (Nat.eqb_spec 0 (length p)); [lia|]. rewrite Nat.mod_small, Nat.div_small by lia. reflexivity.
  - change (advanced p (S k)) with (increment p (advanced p k)). rewrite IH. unfold increment; cbn [pi_position pi_turn pi_end].
    pose proof (Nat.div_mod k (length p) ltac:(lia)) as D. pose proof (Nat.mod_upper_bound k (length p) ltac:(lia)) as M.
    destruct (Nat.eqb_spec (S (k mod length p)) (length p)) as [E|E].
    + assert (Q : S k = length p * S (k / length p) + 0) by (rewrite Nat.mul_succ_r; lia).
      f_equal; [apply (Nat.mod_unique _ _ (S (k / length p))); lia|apply (Nat.div_unique _ _ _ 0); lia].
    + assert (Q : S k = length p * (k / length p) + S (k mod length p)) by lia.
      f_equal; [apply (Nat.mod_unique _ _ (k / length p)); lia|apply (Nat.div_unique _ _ _ (S (k mod length p))); lia].
Qed.

(** Iteration visits the segments in order, and goes on with the first one after the last; the iterator compares equal to
    [end] exactly when it has been once around. *)
Theorem C38_iterator : forall (K : ExactReal) (p : path K) k, p <> [] ->
  (exists x, nth_error p (k mod length p) = Some x /\ dereference p (advanced p k) = Ok x) /\
  (iter_eqb (advanced p k) (path_end p) = true <-> length p <= k) /\ iter_eqb (path_end p) (advanced p k) = iter_eqb (advanced p k) (path_end p) /\
  forall j, iter_eqb (advanced p k) (advanced p j) = true <-> k mod length p = j mod length p.
Proof.
  intros K p k N. assert (L : 0 < length p) by (destruct p; [congruence|cbn; lia]). assert (M := Nat.mod_upper_bound k (length p) ltac:(lia)).
  rewrite (advanced_state p k N). unfold path_end, make_iter. rewrite Nat.eqb_refl. split; [|split; [|split]].
  - destruct (nth_error p (k mod length p)) as [x|] eqn:E; [|apply nth_error_None in E; lia]. exists x. split; auto.
    unfold dereference, vget; cbn [pi_position]. now rewrite E.
  - unfold iter_eqb; cbn [pi_end pi_turn]. rewrite negb_true_iff, Nat.eqb_neq. split; intros H.
    + apply Nat.nlt_ge. intros Q. apply H. now apply Nat.div_small.
    + intros Q. apply Nat.div_small_iff in Q; lia.
  - reflexivity.
  - intros j. rewrite (advanced_state p j N). unfold iter_eqb; cbn [pi_end pi_position]. apply Nat.eqb_eq.
Qed.
Print Assumptions C38_iterator.

(** A loop from [begin] to [end] visits each segment once. *)
Theorem C38_loop : forall (K : ExactReal) (p : path K) fuel, length p < fuel -> iterate fuel p (path_begin p) = Ok p.
Proof.
  intros K p fuel L. destruct p as [|x0 p0]; [destruct fuel; [lia|]; reflexivity|]. set (p := x0 :: p0) in *. assert (N : p <> []) by discriminate.
  assert (G : forall d k fuel, k + d = length p -> d < fuel -> iterate fuel p (advanced p k) = Ok (skipn k p)).
  { induction d as [|d IH]; intros k f Ek Lf; (destruct f as [|f]; [lia|]); cbn [iterate].
    - destruct (C38_iterator K p k N) as (_ & E & _). replace (iter_eqb (advanced p k) (path_end p)) with true by (symmetry; apply E; lia).
      rewrite skipn_all2 by lia. reflexivity.
    - destruct (C38_iterator K p k N) as ((x & X & D) & E & _). destruct (iter_eqb (advanced p k) (path_end p)); [assert (length p <= k) by (now apply E); lia|].
      rewrite D. cbn [bind]. change (increment p (advanced p k)) with (advanced p (S k)). rewrite IH by lia. cbn [bind]. f_equal.
      rewrite Nat.mod_small in X by lia. clear - X. revert k X. generalize p. clear. induction p as [|a p IH]; intros [|k] X; cbn in *; try discriminate; [now injection X as ->|now apply IH]. }
  apply (G (length p) 0 fuel); auto.
Qed.
Print Assumptions C38_loop.

(** Splicing puts the other path before the position. *)
Theorem C38_splice : forall (K : ExactReal) (p q : path K) k, k <= length p ->
  exists l r, p = l ++ r /\ length l = k /\ splice p (advanced p k) q = l ++ q ++ r.
Proof.
  intros K p q k L. exists (firstn k p), (skipn k p). split; [symmetry; apply firstn_skipn|]. split; [now apply firstn_length_le|]. unfold splice.
  destruct p as [|x0 p0].
  - cbn in L. replace k with 0 by lia. reflexivity.
  - set (p := x0 :: p0) in *. assert (N : p <> []) by discriminate. destruct (C38_iterator K p k N) as (_ & E & _).
    destruct (iter_eqb (advanced p k) (path_end p)).
    + assert (length p <= k) by (now apply E). replace (length p) with k by lia. reflexivity.
    + assert (k <> length p) by (intros ->; assert (false = true) by (apply E; lia); discriminate).
      rewrite (advanced_state p k N). cbn [pi_position]. rewrite Nat.mod_small by lia. reflexivity.
Qed.
Print Assumptions C38_splice.

(** [p += p] reads from a vector while it is growing. *)
Theorem C38_append_itself_refuted : exists (K : ExactReal) n (s : flat K) (p : path K), path_on n s p /\ connected_path s p /\ closed_path s p /\
  path_append false p p = Ok (p ++ p) /\ path_append true p p = UB.
Proof.
  exists ExactZ, 6, torus_s, [mkSconn torus_s 0 1 [1; 0; 0]%Z]. split; [|split; [|split; [|split]]]; try reflexivity; try exact I.
  - intros x [<-|[]]. split; [|reflexivity]. split; [apply torus_flat|]. cbn. repeat split; auto; lia.
  - exists 3. reflexivity.
Qed.
Print Assumptions C38_append_itself_refuted.

(** The enclosed area: reversing a closed path negates it, closed paths that return to their starting point in the plane add up. *)
Lemma area_fold (l : list pt) : forall c, snd (fold_left (fun (s : pt * R) v => let n := padd (fst s) v in (n, (snd s + pdet (fst s) n)%R)) l (c, 0%R)) =
  (pdet c (psum l) + snd (fold_left (fun (s : pt * R) v => let n := padd (fst s) v in (n, (snd s + pdet (fst s) n)%R)) l ((0, 0)%R, 0%R)))%R.
Proof.
  set (f := fun (s : pt * R) v => let n := padd (fst s) v in (n, (snd s + pdet (fst s) n)%R)).
  assert (G : forall l c a, snd (fold_left f l (c, a)) = (a + snd (fold_left f l (c, 0)))%R).
  { clear l. induction l as [|p l IH]; intros c a; cbn [fold_left snd]; [lra|]. change (f (c, a) p) with (padd c p, (a + pdet c (padd c p))%R). change (f (c, 0%R) p) with (padd c p, (0 + pdet c (padd c p))%R).
    rewrite IH, (IH _ (0 + _)%R). lra. }
  induction l as [|p l IH]; intros c; cbn [fold_left psum snd].
  - unfold pdet; cbn; lra.
  - change (f (c, 0%R) p) with (padd c p, (0 + pdet c (padd c p))%R). change (f ((0, 0)%R, 0%R) p) with (padd (0, 0)%R p, (0 + pdet (0, 0) (padd (0, 0) p))%R).
    rewrite !(G l _ (0 + _)%R), (IH (padd c p)), (IH (padd (0, 0)%R p)). unfold pdet, padd; cbn [fst snd]. ring.
Qed.
Definition area_of (l : list pt) : R := snd (fold_left (fun (s : pt * R) v => let n := padd (fst s) v in (n, (snd s + pdet (fst s) n)%R)) l ((0, 0)%R, 0%R)).
Lemma area_of_cons v l : area_of (v :: l) = (pdet v (psum l) + area_of l)%R.
Proof.
  unfold area_of at 1. cbn [fold_left fst snd].
  replace (padd (0, 0)%R v) with v by (unfold padd; destruct v; cbn; f_equal; lra). replace (0 + pdet (0, 0) v)%R with 0%R by (unfold pdet; cbn; lra).
  apply area_fold.
Qed.
Lemma psum_app l r : psum (l ++ r) = padd (psum l) (psum r).
Proof. induction l as [|a l IH]; cbn; [unfold padd; destruct (psum r); cbn; f_equal; lra|]. rewrite IH. unfold padd; cbn; f_equal; lra. Qed.
Lemma area_of_app l r : area_of (l ++ r) = (area_of l + area_of r + pdet (psum l) (psum r))%R.
Proof.
  induction l as [|v l IH]; cbn [app psum]; [unfold area_of at 2; cbn; unfold pdet; cbn; lra|]. rewrite !area_of_cons, IH, psum_app.
  unfold pdet, padd; cbn [fst snd]. ring.
Qed.
Lemma area_of_rev l : area_of (rev (map pneg l)) = (- area_of l)%R.
Proof.
  induction l as [|v l IH]; [unfold area_of; cbn; lra|]. cbn [map rev]. rewrite area_of_app, (area_of_cons v), IH.
  replace (psum (rev (map pneg l))) with (pneg (psum l)).
  2: { clear. induction l as [|v l IH]; cbn; [unfold pneg; cbn; f_equal; lra|]. rewrite psum_app, <- IH. cbn. unfold padd, pneg; cbn; f_equal; lra. }
  replace (area_of [pneg v]) with 0%R by (unfold area_of; cbn; unfold pdet, padd; cbn; lra). cbn [psum]. unfold pdet, padd, pneg; cbn [fst snd]. ring.
Qed.
Lemma path_area_Ok {K : ExactReal} n (s : flat K) p : path_on n s p -> closed_path s p ->
  exists a, path_area p = Ok a /\ den a = area_of (map (sv n) p).
Proof.
  intros P C. destruct (C38_closed K n s p P) as ((b & Eb & B) & _). unfold path_area. rewrite Eb. replace b with true by (symmetry; now apply B). cbn [bind negb].
  assert (V : exists vs, omap sc_vector p = Ok vs /\ map vden vs = map (sv n) p).
  { clear - P. induction p as [|x p IH]; [exists []; auto|]. destruct IH as (vs & E & M); [intros y I; apply P; now right|].
    destruct (sc_vector_Ok n x) as (v & Ev & D); [apply P; now left|]. exists (v :: vs). cbn [omap map]. rewrite Ev, E. cbn [bind]. split; auto. cbn. now rewrite D, M. }
  destruct V as (vs & E & M). rewrite E. cbn [bind]. eexists. split; [reflexivity|]. unfold varea2. rewrite area2_from_den, den_ofZ, vden_zero, <- M. unfold area_of.
  assert (G : forall l (st : pt * R), fold_left (fun (s : pt * R) (v : vec K) => let n := padd (fst s) (vden v) in (n, (snd s + pdet (fst s) n)%R)) l st =
    fold_left (fun (s : pt * R) v => let n := padd (fst s) v in (n, (snd s + pdet (fst s) n)%R)) (map vden l) st).
  { induction l as [|v l IH]; intros st; cbn [fold_left map]; auto. }
  rewrite G. change (IZR 0) with 0%R. apply Rplus_0_l.
Qed.
Theorem C38_area : forall (K : ExactReal) n (s : flat K) (p q : path K), path_on n s p -> closed_path s p ->
  (exists a b, path_area p = Ok a /\ path_area (path_neg p) = Ok b /\ den b = (- den a)%R) /\
  (path_on n s q -> closed_path s q -> closed_path s (p ++ q) -> displacement n p = (0, 0)%R ->
    exists a b c, path_area p = Ok a /\ path_area q = Ok b /\ path_area (p ++ q) = Ok c /\ den c = (den a + den b)%R).
Proof.
  intros K n s p q P C. destruct (path_area_Ok n s p P C) as (a & Ea & Da). split.
  - destruct (C38_closed K n s p P) as (_ & Cn & _). destruct (path_area_Ok n s (path_neg p)) as (b & Eb & Db); [now apply path_neg_on|now apply Cn|].
    exists a, b. split; auto. split; auto. rewrite Db, Da, <- area_of_rev. f_equal. unfold path_neg. rewrite map_rev. f_equal. rewrite !map_map. apply map_ext_in. intros x I.
    apply sv_neg. now apply P.
  - intros Q Cq Cpq Z. destruct (path_area_Ok n s q Q Cq) as (b & Eb & Db). destruct (path_area_Ok n s (p ++ q)) as (c & Ec & Dc); auto.
    { intros x I. apply in_app_or in I as [I|I]; auto. }
    exists a, b, c. repeat (split; auto). rewrite Dc, map_app, area_of_app, Da, Db. fold (displacement n p). rewrite Z. unfold pdet; cbn. lra.
Qed.
Print Assumptions C38_area.
Theorem C38_area_open : forall (K : ExactReal) n (s : flat K) (p : path K), path_on n s p -> ~ closed_path s p -> path_area p = Throw.
Proof.
  intros K n s p P C. destruct (C38_closed K n s p P) as ((b & Eb & B) & _). unfold path_area. rewrite Eb. cbn [bind]. destruct b; [exfalso; apply C; now apply B|reflexivity].
Qed.
Print Assumptions C38_area_open.

Definition torus_path : path ExactZ :=
  [mkSconn torus_s 0 1 [1; 0; 0]%Z; mkSconn torus_s 2 3 [0; 1; 0]%Z; mkSconn torus_s 1 0 [-1; 0; 0]%Z; mkSconn torus_s 3 2 [0; -1; 0]%Z].
Lemma torus_same h g : h < 6 -> g < 6 -> same_vertex (fT torus_s) h g.
Proof.
  intros H G. assert (W := fs_wf 6 torus_s (proj1 (proj2 torus_flat))).
  destruct (vertex_source_Ok 6 (fT torus_s) h W H) as (v & Ev & _). destruct (vertex_source_Ok 6 (fT torus_s) g W G) as (w & Ew & _).
  apply (vertex_eqb_spec 6 (fT torus_s) h g v w W H G Ev Ew).
  assert (T : forall x, x < 6 -> vertex_source (fT torus_s) x = Ok (repeat true 6)) by (intros x Hx; do 6 (destruct x as [|x]; [reflexivity|]); lia).
  rewrite T in Ev, Ew by auto. injection Ev as <-. injection Ew as <-. reflexivity.
Qed.
Lemma torus_path_on : path_on 6 torus_s torus_path.
Proof. intros x I. repeat (destruct I as [<-|I]; [split; [split; [apply torus_flat|]; cbn; repeat split; auto; lia|reflexivity]|]). destruct I. Qed.
Example C38_ex : path_on 6 torus_s torus_path /\ connected_path torus_s torus_path /\ closed_path torus_s torus_path /\ torus_path <> [] /\
  path_closed torus_path = Ok true /\ path_area torus_path = Ok (2%Z : ExactZ) /\ path_area (path_neg torus_path) = Ok ((-2)%Z : ExactZ) /\
  displacement 6 torus_path = (0, 0)%R /\ path_eqb torus_path (path_neg torus_path) = Ok false /\ iterate 5 torus_path (path_begin torus_path) = Ok torus_path /\
  pi_turn (advanced torus_path 6) = 1 /\ length (splice torus_path (advanced torus_path 2) torus_path) = 8.
Proof.
  split; [apply torus_path_on|]. split; [cbn; repeat split; auto; apply torus_same; lia|]. split; [apply torus_same; cbn; lia|]. split; [discriminate|].
  split; [reflexivity|]. split; [reflexivity|]. split; [reflexivity|]. split; [|repeat split; reflexivity].
  assert (E : map (sv 6) torus_path = map vden [zv 1 0; zv 0 1; zv (-1) 0; zv 0 (-1)]).
  { assert (G : forall x v, In x torus_path -> sc_vector x = Ok v -> sv 6 x = vden v).
    { intros x v I E. destruct (sc_vector_Ok 6 x) as (w & Ew & D); [now apply torus_path_on|]. rewrite <- D. congruence. }
    unfold torus_path. cbn [map]. rewrite (G _ (zv 1 0)), (G _ (zv 0 1)), (G _ (zv (-1) 0)), (G _ (zv 0 (-1))); auto; try reflexivity; cbn; auto. }
  unfold displacement. rewrite E. cbn [map psum]. unfold padd, vden, zv; cbn. f_equal; lra.
Qed.

(** ** C49: mapping paths through a retriangulation *)
(** The segments are a straight continuation in the direction [d]: they have this direction and start at marked points. *)
Definition straight {K : ExactReal} (n : nat) (s : flat K) (d : pt) (p : path K) : Prop :=
  forall x, In x p -> same_direction d (sv n x) /\ exists v, vertex_source (fT s) (sc_source x) = Ok v /\ angle s v = Ok 1.

Lemma same_direction_test {K : ExactReal} (v w : vec K) : vden v <> (0, 0)%R -> vden w <> (0, 0)%R ->
  (ccw_eqb (ccw v w) COLLINEAR && orientation_eqb (orientation v w) SAME = true <-> same_direction (vden v) (vden w)).
Proof.
  intros Nv Nw. rewrite andb_true_iff, ccw_eqb_spec, orientation_eqb_spec. destruct (ccw_spec v w) as (_ & C & _). destruct (orientation_spec v w) as (O & _).
  rewrite C, O. apply pdot_pos in Nv. split.
  - intros [D P]. exists (pdot (vden v) (vden w) / pdot (vden v) (vden v))%R. split; [now apply Rdiv_lt_0_compat|].
    destruct (vden v) as [x y], (vden w) as [x' y']. unfold pdet, pdot, pscale in *; cbn [fst snd] in *.
    assert (N0 : (x * x + y * y <> 0)%R) by lra.
    apply pt_eq; cbn [fst snd]; apply (Rmult_eq_reg_r (x * x + y * y)); auto.
    + replace ((x * x' + y * y') / (x * x + y * y) * x * (x * x + y * y))%R with (x * (x * x') + y * (x * y'))%R by (field; auto).
      replace (x * y')%R with (y * x')%R by lra. ring.
    + replace ((x * x' + y * y') / (x * x + y * y) * y * (x * x + y * y))%R with (x * (y * x') + y * (y * y'))%R by (field; auto).
      replace (y * x')%R with (x * y')%R by lra. ring.
  - intros (r & Hr & ->). destruct (vden v) as [x y]. unfold pdet, pdot, pscale in *; cbn [fst snd] in *. split; nra.
Qed.
Lemma same_direction_sum a b c : a <> (0, 0)%R -> same_direction a b -> (same_direction (padd a b) c <-> same_direction a c).
Proof.
  intros Na (r & Hr & ->). assert (E : padd a (pscale r a) = pscale (1 + r) a) by (unfold padd, pscale; cbn; f_equal; lra). rewrite E. split.
  - intros (q & Hq & ->). exists (q * (1 + r))%R. split; [nra|]. unfold pscale; cbn; f_equal; ring.
  - intros (q & Hq & ->). exists (q / (1 + r))%R. split; [apply Rdiv_lt_0_compat; lra|]. unfold pscale; cbn; f_equal; field; lra.
Qed.

Lemma last_any {A : Type} (p : list A) : forall x a b, last (x :: p) a = last (x :: p) b.
Proof. induction p as [|z p IH]; intros x a b; [reflexivity|]. exact (IH z a b). Qed.
Lemma gather_spec {K : ExactReal} n (s : flat K) p : flat_surface n s -> path_on n s p -> (forall x, In x p -> sv n x <> (0, 0)%R) ->
  forall t (v : vec K), vden v <> (0, 0)%R ->
  (straight n s (vden v) p -> forall fuel, length p < fuel -> exists t' v', gather fuel s t v p = Ok (t', v', []) /\
     vden v' = padd (vden v) (displacement n p) /\ t' = match p with [] => t | x :: _ => sc_target (last p x) end) /\
  (~ straight n s (vden v) p -> forall fuel, gather fuel s t v p = OutOfFuel).
Proof.
  intros S. induction p as [|x p IH]; intros P N t v Nv.
  - split; [|intros H; exfalso; apply H; intros x []]. intros _ [|fuel] L; [cbn in L; lia|]. exists t, v. split; [reflexivity|]. split; [|reflexivity].
    unfold displacement; cbn. unfold padd; destruct (vden v); cbn; f_equal; lra.
  - assert (P' : path_on n s p) by (intros y I; apply P; now right). assert (N' : forall y, In y p -> sv n y <> (0, 0)%R) by (intros y I; apply N; now right).
    destruct (P x (or_introl eq_refl)) as [Vx Ex]. destruct (sc_vector_Ok n x Vx) as (w & Ew & Dw). assert (Nw : vden w <> (0, 0)%R) by (rewrite Dw; apply N; now left).
    assert (Hx : sc_source x < n) by apply Vx. assert (W := fs_wf n s S).
    destruct (vertex_source_Ok n (fT s) _ W Hx) as (ve & Ev & Iv & _). pose proof (angle_Ok n s ve S Iv) as Ea. set (k := length _) in Ea. clearbody k.
    pose proof (same_direction_test v w Nv Nw) as T.
    assert (Z : same_direction (vden v) (vden w) -> vden (vadd v w) <> (0, 0)%R).
    { intros (r & Hr & E). rewrite vden_add, E. apply pdot_pos in Nv. intros Q. destruct (vden v) as [a b]. unfold padd, pscale, pdot in *; cbn [fst snd] in *.
      injection Q as Q1 Q2. assert (a = 0)%R by nra. assert (b = 0)%R by nra. subst. lra. }
    assert (St : straight n s (vden v) (x :: p) <-> same_direction (vden v) (vden w) /\ k = 1 /\ straight n s (vden (vadd v w)) p).
    { unfold straight. split.
      - intros H. destruct (H x (or_introl eq_refl)) as (D & ve' & E1 & E2). rewrite <- Dw in D. assert (ve' = ve) by congruence. subst ve'.
        split; auto. split; [congruence|]. intros y I. destruct (H y (or_intror I)) as (Dy & Ay). split; auto. rewrite vden_add. now apply same_direction_sum.
      - intros (D & -> & H) y [<-|I]; [rewrite <- Dw; split; eauto|]. destruct (H y I) as (Dy & Ay). split; auto. rewrite vden_add in Dy. now apply same_direction_sum in Dy. }
    split.
    + intros H fuel L. apply St in H as (D & K1 & H). destruct fuel as [|fuel]; [cbn in L; lia|]. cbn [gather]. rewrite Ew. cbn [bind].
      replace (ccw_eqb (ccw v w) COLLINEAR && orientation_eqb (orientation v w) SAME) with true by (symmetry; now apply T).
      rewrite Ev. cbn [bind]. rewrite Ea. cbn [bind]. rewrite K1. cbn [Nat.eqb].
      destruct (IH P' N' (sc_target x) (vadd v w) (Z D)) as [IH1 _]. destruct (IH1 H fuel) as (t' & v' & E & Dv & Tt); [cbn in L; lia|].
      exists t', v'. split; auto. split.
      * rewrite Dv, vden_add. unfold displacement. cbn [map psum]. rewrite Dw. unfold padd; cbn; f_equal; lra.
      * rewrite Tt. destruct p as [|y p]; [reflexivity|]. f_equal. exact (last_any p y y x).
    + intros H. assert (Step : forall fuel, (same_direction (vden v) (vden w) /\ k = 1 /\ gather (Datatypes.S fuel) s t v (x :: p) = gather fuel s (sc_target x) (vadd v w) p) \/
        (~ (same_direction (vden v) (vden w) /\ k = 1) /\ gather (Datatypes.S fuel) s t v (x :: p) = gather fuel s t v (x :: p))).
      { intros fuel. cbn [gather]. rewrite Ew. cbn [bind]. destruct (ccw_eqb (ccw v w) COLLINEAR && orientation_eqb (orientation v w) SAME).
        - rewrite Ev. cbn [bind]. rewrite Ea. cbn [bind]. destruct (Nat.eqb_spec k 1); [left; split; [now apply T|auto]|right; split; auto; intros []; contradiction].
        - right. split; auto. intros [D _]. apply T in D. discriminate. }
      induction fuel as [|fuel IHf]; [reflexivity|]. destruct (Step fuel) as [(D & K1 & ->)|(_ & ->)]; [|exact IHf].
      destruct (IH P' N' (sc_target x) (vadd v w) (Z D)) as [_ IH2]. apply IH2. intros Q. apply H, St. auto.
Qed.

(** The loop comes to an end exactly when the path is straight. *)
Theorem C49_terminates_partial : forall (K : ExactReal) n (s : flat K) map_segment x (p : path K), flat_surface n s -> path_on n s (x :: p) ->
  (forall y, In y (x :: p) -> sv n y <> (0, 0)%R) ->
  (straight n s (sv n x) p -> forall fuel, length p < fuel -> 0 < fuel -> exists v, vden v = displacement n (x :: p) /\
     map_path (S fuel) s map_segment (x :: p) =
       (do q <- map_segment (sc_source x) (sc_target (last (x :: p) x)) v;
        match q with None => Ok None | Some q => do z <- path_add q []; Ok (Some z) end)) /\
  (~ straight n s (sv n x) p -> forall fuel, map_path fuel s map_segment (x :: p) = OutOfFuel).
Proof.
  intros K n s f x p S P N. destruct (P x (or_introl eq_refl)) as [Vx Ex]. destruct (sc_vector_Ok n x Vx) as (v & Ev & Dv).
  assert (Nv : vden v <> (0, 0)%R) by (rewrite Dv; apply N; now left).
  destruct (gather_spec n s p S (fun y I => P y (or_intror I)) (fun y I => N y (or_intror I)) (sc_target x) v Nv) as [G1 G2]. rewrite Dv in G1, G2. split.
  - intros H fuel L Lf. destruct (G1 H fuel L) as (t' & v' & E & D & T). exists v'. split.
    + rewrite D. reflexivity.
    + cbn [map_path]. rewrite Ev. cbn [bind]. rewrite E. cbn [bind].
      assert (T' : t' = sc_target (last (x :: p) x)).
      { rewrite T. destruct p as [|y p]; [reflexivity|]. f_equal. exact (last_any p y y x). }
      rewrite T'. destruct (f _ _ v') as [[q|]| | |]; cbn [bind]; auto. destruct fuel as [|fuel]; [lia|]. reflexivity.
  - intros H [|fuel]; [reflexivity|]. cbn [map_path]. rewrite Ev. cbn [bind]. now rewrite (G2 H fuel).
Qed.
Print Assumptions C49_terminates_partial.

(** So mapping two sides of a square does not come to an end. *)
Theorem C49_refuted : exists (K : ExactReal) n (s : flat K) (p : path K), flat_surface n s /\ path_on n s p /\ connected_path s p /\
  forall map_segment fuel, map_path fuel s map_segment p = OutOfFuel.
Proof.
  exists ExactZ, 6, torus_s, (firstn 2 torus_path). assert (S := proj1 (proj2 torus_flat)).
  assert (P : path_on 6 torus_s (firstn 2 torus_path)) by (intros x I; apply torus_path_on; cbn in *; tauto).
  split; [exact S|]. split; [exact P|]. split; [split; [apply torus_same; cbn; lia|exact I]|]. intros f fuel.
  assert (G : forall x v, In x (firstn 2 torus_path) -> sc_vector x = Ok v -> sv 6 x = vden v).
  { intros x v I E. destruct (sc_vector_Ok 6 x) as (w & Ew & D); [now apply P|]. rewrite <- D. congruence. }
  assert (G1 : sv 6 (mkSconn torus_s 0 1 [1; 0; 0]%Z) = vden (zv 1 0)) by (apply G; [now left|reflexivity]).
  assert (G2 : sv 6 (mkSconn torus_s 2 3 [0; 1; 0]%Z) = vden (zv 0 1)) by (apply G; [right; now left|reflexivity]).
  apply (C49_terminates_partial ExactZ 6 torus_s f _ _ S P).
  - intros y I. destruct I as [<-|[<-|[]]].
    + rewrite G1. intros E. apply (f_equal fst) in E. cbn in E. lra.
    + rewrite G2. intros E. apply (f_equal snd) in E. cbn in E. lra.
  - intros H. destruct (H _ (or_introl eq_refl)) as ((r & Hr & E) & _). rewrite G1, G2 in E. apply (f_equal snd) in E. cbn in E. lra.
Qed.
Print Assumptions C49_refuted.

(** Two parallel sides in a row: this is mapped as one segment. *)
Example C49_ex : exists (p : path ExactZ) x, p = [x] /\ path_on 6 torus_s (x :: p) /\ (forall y, In y (x :: p) -> sv 6 y <> (0, 0)%R) /\ straight 6 torus_s (sv 6 x) p /\
  map_path 5 torus_s (fun _ _ v => if veqb v (zv 2 0) then Ok None else Throw) (x :: p) = Ok None.
Proof.
  set (x := mkSconn torus_s 0 1 [1; 0; 0]%Z). exists [x], x. split; [reflexivity|].
  assert (V : sc_valid 6 x) by (split; [apply torus_flat|]; cbn; repeat split; auto; lia).
  assert (E : sv 6 x = vden (zv 1 0)). { destruct (sc_vector_Ok 6 x V) as (w & Ew & D). rewrite <- D. change (sc_vector x) with (Ok (zv 1 0)) in Ew. congruence. }
  split; [intros y [<-|[<-|[]]]; split; auto|].
  split; [intros y [<-|[<-|[]]]; rewrite E; intros Q; apply (f_equal fst) in Q; cbn in Q; lra|]. split; [|reflexivity].
  intros y [<-|[]]. split; [exists 1%R; split; [lra|]; unfold pscale; destruct (sv 6 x); cbn; f_equal; lra|]. exists (repeat true 6). split; reflexivity.
Qed.
