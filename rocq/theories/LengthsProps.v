(** * Properties of lengths of interval exchange transformations *)
From Coq Require Import ZArith Reals List Arith Bool Lia Lra Psatz.
From Verif Require Import Base HalfEdge HalfEdgeFacts Perm PermSpec PermFacts PermCycles PermLemmas Combinatorial CombinatorialSpec CombinatorialFacts CombinatorialHistory CombinatorialOps ExactReal Vector PlaneSpec Plane VectorFacts
  FlatTri FlatSpec ChainSpec ChainFacts FlatFacts FlatSum FlatAngle FlatSector SectorFacts Saddle SaddleSpec SaddleFacts DeformSpec DeformFacts Tracked Vertical VerticalSpec VerticalFacts
  Lengths LengthsSubtract LengthsSpec LengthsFacts IntervalExchange VectorProps FlatProps FlatAngleProps DeformProps EquivalenceProps.
Import ListNotations.
Local Open Scope nat_scope.

Section facts.
Context {K : ExactReal}.
Variables (n : nat) (s : flat K) (V : vec K).
Notation v := (vden V).
Notation conn := (@sconn K).
Notation width := (label_width n v).

Lemma conn_ok m c : valid n s V m -> on n s c -> exists w, sc_vector c = Ok w /\ den (project_perpendicular_vector m w) = conn_width n v c /\ (ccw_eqb (vertical_ccw_vector m w) CLOCKWISE = true <-> (0 < conn_width n v c)%R).
Proof.
  intros I [Oc _]. destruct (sc_vector_Ok n c Oc) as (w & E & D). exists w. split; auto. split.
  - unfold project_perpendicular_vector. rewrite (vd_horizontal _ _ _ _ I), den_dot, vden_neg, D. unfold conn_width. destruct (sv n c) as [x y]. unfold vden, vperp, pdot, pdet, pneg. cbn [fst snd vx vy]. rewrite den_opp. ring.
  - unfold vertical_ccw_vector. rewrite (vd_vertical _ _ _ _ I), ccw_CW, D. unfold conn_width, pdet. lra.
Qed.
Lemma check_conns m l : valid n s V m -> (forall x, In (Some x) l -> on n s x) ->
  (check_lengths m l = Ok tt <-> forall x, In (Some x) l -> (0 < conn_width n v x)%R) /\ (check_lengths m l = Ok tt \/ check_lengths m l = Throw).
Proof.
  intros I. induction l as [|[c|] l IH]; intros H; cbn [check_lengths].
  - split; auto. split; auto. intros _ x [].
  - destruct (conn_ok m c I (H c (or_introl eq_refl))) as (w & -> & _ & D). cbn [bind]. destruct IH as [IH1 IH2]; [intros; apply H; now right|].
    destruct (ccw_eqb (vertical_ccw_vector m w) CLOCKWISE) eqn:E.
    + split; auto. rewrite IH1. split; intros Q x; [intros [J|J]; auto; injection J as <-; now apply D|intros J; apply Q; now right].
    + split; auto. split; [discriminate|]. intros Q. exfalso. assert (P := Q c (or_introl eq_refl)). apply D in P. discriminate.
  - destruct IH as [IH1 IH2]; [intros; apply H; now right|]. split; auto. rewrite IH1. split; intros Q x; [intros [J|J]; auto; discriminate|intros J; apply Q; now right].
Qed.

(** What all lengths satisfy. *)
Record good_lengths (l : lengths K) : Prop := {
  gl_vertical : valid n s V (le_vertical l);
  gl_on : forall x, In (Some x) (le_lengths l) -> on n s x /\ (0 < conn_width n v x)%R;
  gl_stack : forall label, In label (le_stack l) -> exists c, nth label (le_lengths l) None = Some c;
  gl_sum : den (le_sum l) = rsum (map (width (le_lengths l)) (le_stack l))
}.
Lemma nth_Some {A} i (l : list (option A)) c : nth i l None = Some c -> i < length l /\ In (Some c) l.
Proof. intros E. assert (L : i < length l) by (destruct (Nat.lt_ge_cases i (length l)); auto; rewrite nth_overflow in E by auto; discriminate). split; auto. rewrite <- E. now apply nth_In. Qed.
Lemma length_ok l label : good_lengths l -> (forall c, nth label (le_lengths l) None = Some c -> exists x, length_of l label = Ok x /\ den x = conn_width n v c) /\ (nth label (le_lengths l) None = None -> length_of l label = UB).
Proof.
  intros G. unfold length_of. split.
  - intros c E. destruct (nth_Some _ _ _ E) as [L I]. rewrite (vget_nth _ _ None L), E. cbn [bind]. destruct (gl_on l G c I) as [O _]. destruct (conn_ok _ c (gl_vertical l G) O) as (w & -> & D & _). cbn [bind]. eauto.
  - intros E. destruct (Nat.lt_ge_cases label (length (le_lengths l))) as [L|L]; [rewrite (vget_nth _ _ None L), E; reflexivity|]. unfold vget. apply nth_error_None in L. now rewrite L.
Qed.
Lemma length_width l label x : good_lengths l -> length_of l label = Ok x -> exists c, nth label (le_lengths l) None = Some c /\ den x = width (le_lengths l) label /\ den x = conn_width n v c.
Proof.
  intros G E. destruct (length_ok l label G) as [A B]. unfold label_width. destruct (nth label (le_lengths l) None) as [c|]; [|rewrite (B eq_refl) in E; discriminate]. destruct (A c eq_refl) as (y & Q & D). rewrite E in Q. injection Q as <-. eauto.
Qed.
Lemma push_good l label l' : good_lengths l -> push l label = Ok l' -> good_lengths l' /\ le_stack l' = label :: le_stack l /\ le_lengths l' = le_lengths l /\ le_vertical l' = le_vertical l.
Proof.
  intros G. unfold push. destruct (length_of l label) as [x| | |] eqn:E; try discriminate. cbn [bind]. intros Q. injection Q as <-. cbn. split; auto. destruct (length_width l label x G E) as (c & Ec & D & _). split; cbn.
  - apply G.
  - apply G.
  - intros y [<-|I]; [eauto|now apply G].
  - rewrite den_add, (gl_sum l G), D. lra.
Qed.
Lemma pop_good l l' : good_lengths l -> pop l = Ok l' -> exists label, le_stack l = label :: le_stack l' /\ good_lengths l' /\ le_lengths l' = le_lengths l /\ le_vertical l' = le_vertical l.
Proof.
  intros G. unfold pop. destruct (le_stack l) as [|label st] eqn:S0; try discriminate. destruct (length_of l label) as [x| | |] eqn:E; try discriminate. cbn [bind]. intros Q. injection Q as <-. exists label. cbn. split; auto. split; auto.
  destruct (length_width l label x G E) as (c & Ec & D & _). split; cbn.
  - apply G.
  - apply G.
  - intros y I. apply G. rewrite S0. now right.
  - rewrite den_sub, (gl_sum l G), S0, D. cbn. lra.
Qed.
End facts.

Lemma psum_width {K : ExactReal} n v (l : list (@sconn K)) : conn_widths n v l = pdet (psum (map (sv n) l)) v.
Proof. unfold conn_widths. induction l as [|c l IH]; cbn [map rsum psum]; [unfold pdet; cbn; ring|]. rewrite IH. unfold conn_width, pdet, padd. cbn [fst snd]. ring. Qed.
Lemma upd_In {A} (l : list A) i x y : In y (upd l i x) -> y = x \/ In y l.
Proof. revert i. induction l as [|a l IH]; intros [|i]; cbn; auto; intros [Q|Q]; auto. destruct (IH i Q); auto. Qed.

Section history.
Context {K : ExactReal}.
Variables (n : nat) (s : flat K) (V : vec K).
Hypothesis CS : closed_flat n s.
Notation v := (vden V).
Lemma history_good l : lengths_history n s V l -> good_lengths n s V l.
Proof.
  induction 1 as [m c l M O E|l label l' _ G E|l l' _ G E|l fuel minuend onTop left contour it l' _ G Lf O P E].
  - assert (Nv : v <> (0, 0)%R). { intros Q. rewrite (make_throw s V Q) in M. discriminate. }
    destruct (make_valid n s V (proj1 CS) Nv) as (m' & M' & I). rewrite M in M'. injection M' as <-. unfold make_lengths in E. destruct (check_conns n s V m c I O) as [C _]. destruct (check_lengths m c) as [[]| | |] eqn:Q; try discriminate. cbn [bind] in E. injection E as <-.
    split; cbn; auto; [intros x J; split; auto; now apply C|intros ? []|apply den_ofZ].
  - now apply (push_good n s V l label).
  - destruct (pop_good n s V l l' G E) as (_ & _ & G' & _). exact G'.
  - assert (Q := length_ok n s V l minuend G). assert (B : exists c, nth minuend (le_lengths l) None = Some c).
    { unfold subtract_iterations in E. destruct (nth minuend (le_lengths l) None) eqn:N; eauto. exfalso. destruct (Nat.lt_ge_cases minuend (length (le_lengths l))) as [L|L].
      - rewrite (vget_nth _ _ None L), N in E. discriminate.
      - unfold vget in E. apply nth_error_None in L. rewrite L in E. discriminate. }
    destruct B as (c & Nc). destruct (nth_Some _ _ _ Nc) as [L J]. destruct (gl_on _ _ _ l G c J) as [Oc _].
    assert (SE : le_stack l = [] -> contour = []).
    { intros Z. destruct contour as [|[label cross] contour]; auto. exfalso. unfold subtract_iterations in E. rewrite (vget_nth _ _ None L), Nc, Z in E. cbn [bind sc_neg sc_surface] in E.
      destruct (walk_along _ _ _) as [[w t]| | |]; try discriminate. cbn [bind walk_across] in E. destruct (walk_along _ _ _) as [[w' t']| | |]; discriminate. }
    unfold label_width in P. rewrite Nc in P.
    destruct (subtract_ok n s V CS fuel l minuend onTop left contour it c (gl_vertical _ _ _ l G) Lf Nc Oc O SE P) as (l2 & c' & E2 & S1 & S2 & S3 & S4 & S5 & S6 & _). rewrite E in E2. injection E2 as <-. split; auto.
    + intros x I. rewrite S3 in I. apply upd_In in I as [I|I]; [|now apply G]. injection I as ->. split; auto. unfold conn_width in *. rewrite S6. rewrite psum_width in P. unfold pdet, padd, pscale in *. cbn [fst snd] in *. lra.
    + rewrite S1. intros ? [].
    + rewrite S1, S2. cbn. apply den_ofZ.
Qed.
End history.

(** The constructor throws unless all connections point to the right. *)
Theorem C51_constructor : forall (K : ExactReal) n (s : flat K) V m c, closed_flat n s -> make_vertical s V = Ok m -> (forall x, In (Some x) c -> on n s x) ->
  ((forall x, In (Some x) c -> 0 < conn_width n (vden V) x)%R -> exists l, make_lengths m c = Ok l) /\ ((exists x, In (Some x) c /\ conn_width n (vden V) x <= 0)%R -> make_lengths m c = Throw).
Proof.
  intros K n s V m c CS M O. assert (Nv : vden V <> (0, 0)%R). { intros Q. rewrite (make_throw s V Q) in M. discriminate. }
  destruct (make_valid n s V (proj1 CS) Nv) as (m' & M' & I). rewrite M in M'. injection M' as <-. unfold make_lengths. destruct (check_conns n s V m c I O) as [A B]. split.
  - intros H. apply A in H. rewrite H. cbn. eauto.
  - intros (x & J & P). destruct B as [B|B]; rewrite B; auto. exfalso. rewrite A in B. specialize (B x J). lra.
Qed.
Print Assumptions C51_constructor.

(** At any time, the sum is the sum of the lengths of the labels on the stack, and all lengths are positive. *)
Theorem C51_sum : forall (K : ExactReal) n (s : flat K) V l, closed_flat n s -> lengths_history n s V l ->
  den (le_sum l) = rsum (map (label_width n (vden V) (le_lengths l)) (le_stack l)) /\
  (forall label c, nth label (le_lengths l) None = Some c -> exists x, get_length l label = Ok x /\ den x = pdet (sv n c) (vden V) /\ 0 < den x)%R.
Proof.
  intros K n s V l CS H. assert (G := history_good n s V CS l H). split; [apply G|]. intros label c E. destruct (length_ok n s V l label G) as [A _]. destruct (A c E) as (x & Q & D). exists x. split; auto. split; auto.
  rewrite D. apply (gl_on _ _ _ l G). now apply (nth_Some label).
Qed.
Print Assumptions C51_sum.

(** Pushing a label and popping it restores the state; a label with a connection can be pushed and a stack that is not empty popped. *)
Theorem C51_push_pop : forall (K : ExactReal) n (s : flat K) V l label c, closed_flat n s -> lengths_history n s V l -> nth label (le_lengths l) None = Some c ->
  exists l' l'', push l label = Ok l' /\ le_stack l' = label :: le_stack l /\ le_lengths l' = le_lengths l /\ den (le_sum l') = (den (le_sum l) + label_width n (vden V) (le_lengths l) label)%R /\
    pop l' = Ok l'' /\ le_stack l'' = le_stack l /\ le_lengths l'' = le_lengths l /\ den (le_sum l'') = den (le_sum l).
Proof.
  intros K n s V l label c CS H E. assert (G := history_good n s V CS l H). destruct (length_ok n s V l label G) as [A _]. destruct (A c E) as (x & Q & D).
  unfold push. rewrite Q. cbn [bind]. eexists. eexists. split; [reflexivity|]. cbn. split; auto. split; auto. split; [unfold label_width; rewrite E, den_add, D; reflexivity|].
  unfold pop. cbn. unfold length_of in *. cbn [le_lengths le_vertical]. rewrite Q. cbn [bind]. split; [reflexivity|]. cbn. split; auto. split; auto. rewrite den_sub, den_add. ring.
Qed.
Print Assumptions C51_push_pop.

(** The comparisons of the sum with a length and of two lengths are exact. *)
Theorem C51_compare : forall (K : ExactReal) n (s : flat K) V l a b c d, closed_flat n s -> lengths_history n s V l -> nth a (le_lengths l) None = Some c -> nth b (le_lengths l) None = Some d ->
  exists x y, cmp_stack l b = Ok x /\ cmp_labels l a b = Ok y /\
    let sum := rsum (map (label_width n (vden V) (le_lengths l)) (le_stack l)) in let p := conn_width n (vden V) c in let q := conn_width n (vden V) d in
    ((x = (-1)%Z /\ sum < q) \/ (x = 0%Z /\ sum = q) \/ (x = 1%Z /\ q < sum))%R /\ ((y = (-1)%Z /\ p < q) \/ (y = 0%Z /\ p = q) \/ (y = 1%Z /\ q < p))%R.
Proof.
  intros K n s V l a b c d CS H Ec Ed. assert (G := history_good n s V CS l H). destruct (length_ok n s V l a G) as [A _]. destruct (length_ok n s V l b G) as [B _]. destruct (A c Ec) as (x & Qx & Dx). destruct (B d Ed) as (y & Qy & Dy).
  assert (C : forall p q : K, (compare3 p q = (-1)%Z /\ den p < den q)%R \/ (compare3 p q = 0%Z /\ den p = den q) \/ (compare3 p q = 1%Z /\ den q < den p)%R).
  { intros p q. unfold compare3. destruct (rltb p q) eqn:E1; [apply rltb_spec in E1; auto|]. destruct (rltb q p) eqn:E2; [apply rltb_spec in E2; auto|]. right. left. split; auto.
    destruct (Rtotal_order (den p) (den q)) as [L|[L|L]]; auto; apply rltb_spec in L; congruence. }
  unfold cmp_stack, cmp_labels. rewrite Qx, Qy. cbn [bind]. eexists. eexists. split; [reflexivity|]. split; [reflexivity|]. cbv zeta. rewrite <- (gl_sum _ _ _ l G), <- Dx, <- Dy. split; apply C.
Qed.
Print Assumptions C51_compare.

(** Lengths are forgotten to the list of widths, with zero for an edge without a connection. *)
Theorem C51_forget : forall (K : ExactReal) n (s : flat K) V l, closed_flat n s -> lengths_history n s V l ->
  exists xs, forget_lengths (le_vertical l) (le_lengths l) = Ok xs /\ map den xs = map (fun o => match o with Some c => conn_width n (vden V) c | None => 0%R end) (le_lengths l).
Proof.
  intros K n s V l CS H. assert (G := history_good n s V CS l H). assert (I := gl_vertical _ _ _ l G). assert (O := gl_on _ _ _ l G). induction (le_lengths l) as [|[c|] k IH]; cbn [forget_lengths].
  - exists []. auto.
  - destruct (O c (or_introl eq_refl)) as [Oc _]. destruct (conn_ok n s V _ c I Oc) as (w & -> & D & _). cbn [bind]. destruct IH as (xs & -> & E); [intros; apply O; now right|]. cbn [bind]. eexists. split; [reflexivity|]. cbn [map]. now rewrite D, E.
  - destruct IH as (xs & -> & E); [intros; apply O; now right|]. cbn [bind]. eexists. split; [reflexivity|]. cbn [map]. now rewrite E, den_ofZ.
Qed.
Print Assumptions C51_forget.

(** Subtracting replaces the connection of the minuend by one that goes to the same end, from the end of the path across the subtrahends; it is found in the
    half plane of the original connection there.  The stack is empty then. *)
Theorem C51_subtract : forall (K : ExactReal) n (s : flat K) V l fuel minuend onTop left contour it c, closed_flat n s -> lengths_history n s V l -> n + 1 < fuel ->
  nth minuend (le_lengths l) None = Some c -> (forall x, In x left \/ (exists cross, In x (snd cross) /\ In cross contour) -> on n s x) -> le_stack l <> [] ->
  let v := vden V in let path := path_across onTop left contour (hd 0 (le_stack l)) in
  (0 < conn_width n v c - IZR it * conn_widths n v path)%R ->
  exists l' c' x, subtract_iterations fuel l minuend onTop left contour it = Ok l' /\ le_stack l' = [] /\ den (le_sum l') = 0%R /\
    nth minuend (le_lengths l') None = Some c' /\ (forall label, label <> minuend -> nth label (le_lengths l') None = nth label (le_lengths l) None) /\
    get_length l' minuend = Ok x /\ den x = (conn_width n v c - IZR it * conn_widths n v path)%R /\
    on n s c' /\ sv n c' = padd (sv n c) (pscale (- IZR it) (psum (map (sv n) path))) /\
    sector_contains s (sc_source c') (sv n c') /\ sector_contains s (sc_target c') (pneg (sv n c')) /\
    same_vertex (fT s) (sc_target c) (sc_target c') /\ same_vertex (fT s) (path_end (sc_source c) path) (sc_source c') /\
    (sector_contains s (sc_target c) (pneg (sv n c)) -> same_left_plane s v (sc_target c) (sc_target c')) /\
    (exists e, first_right s v (path_end (sc_source c) path) e /\ first_ccw s e (sv n c') (sc_source c')).
Proof.
  intros K n s V l fuel minuend onTop left contour it c CS H Lf Nc O NS v path P. assert (G := history_good n s V CS l H). destruct (nth_Some _ _ _ Nc) as [L J]. destruct (gl_on _ _ _ l G c J) as [Oc Wc].
  destruct (subtract_ok n s V CS fuel l minuend onTop left contour it c (gl_vertical _ _ _ l G) Lf Nc Oc O (fun E => False_ind _ (NS E)) P) as (l' & c' & E & S1 & S2 & S3 & S4 & S5 & S6 & S7 & S8 & S9 & S10 & S11 & S12).
  assert (G' : good_lengths n s V l'). { apply history_good; auto. eapply lh_subtract; eauto. unfold label_width. rewrite Nc. exact P. }
  assert (Nc' : nth minuend (le_lengths l') None = Some c') by (rewrite S3; now apply nth_upd_eq).
  destruct (length_ok n s V l' minuend G') as [A _]. destruct (A c' Nc') as (x & Ex & Dx). exists l', c', x. split; auto. split; auto. split; [rewrite S2; apply den_ofZ|]. split; auto. split; [intros label N; rewrite S3; apply nth_upd_ne; auto|].
  split; auto. split; [|auto 12]. rewrite Dx. unfold path. rewrite psum_width. fold path. unfold conn_width. rewrite S6. fold v path. unfold pdet, padd, pscale. cbn [fst snd]. ring.
Qed.
Print Assumptions C51_subtract.

(** If the path goes across the labels on the stack, then the sum of the stack is subtracted as often as possible when a positive length must remain. *)
Theorem C51_repeated : forall (K : ExactReal) n (s : flat K) V l fuel fdiv minuend onTop other left contour c, closed_flat n s -> lengths_history n s V l -> n + 1 < fuel ->
  (forall x y : K, 0 < den y -> IZR (fdiv x y) * den y <= den x < (IZR (fdiv x y) + 1) * den y)%R ->
  nth minuend (le_lengths l) None = Some c -> (forall x, In x left \/ (exists cross, In x (snd cross) /\ In cross contour) -> on n s x) -> le_stack l <> [] ->
  let v := vden V in
  conn_widths n v (path_across onTop left contour (hd 0 (le_stack l))) = den (le_sum l) -> (0 < den (le_sum l) < conn_width n v c)%R ->
  exists l' k x, subtract_repeated fuel fdiv l minuend onTop other left contour = Ok (hd 0 (le_stack l), l') /\ get_length l' minuend = Ok x /\ den x = (conn_width n v c - IZR k * den (le_sum l))%R /\ (1 <= k)%Z /\ (0 < den x)%R /\
    (other = [] -> den x <= den (le_sum l))%R /\ (other <> [] -> k = 1%Z).
Proof.
  intros K n s V l fuel fdiv minuend onTop other left contour c CS H Lf F Nc O NS v W P. assert (G := history_good n s V CS l H). set (S := den (le_sum l)) in *.
  unfold subtract_repeated. destruct (le_stack l) as [|ret st] eqn:E; [contradiction|]. cbn [hd] in *. 
  assert (B : exists k, iterations_of fdiv l minuend (length other =? 0) = Ok k /\ (1 <= k)%Z /\ (0 < conn_width n v c - IZR k * S)%R /\ (other = [] -> conn_width n v c - IZR k * S <= S)%R /\ (other <> [] -> k = 1%Z)).
  { unfold iterations_of. destruct other as [|o other]; cbn [length Nat.eqb].
    - destruct (length_ok n s V l minuend G) as [A _]. destruct (A c Nc) as (x & Ex & Dx). fold v in Dx. rewrite Ex. cbn [bind]. destruct (F x (le_sum l) (proj1 P)) as [F1 F2]. fold S in F1, F2. rewrite Dx in F1, F2. set (q := fdiv x (le_sum l)) in *.
      destruct (reqb (rmul (rofZ q) (le_sum l)) x) eqn:Q.
      + apply reqb_spec in Q. rewrite den_mul, den_ofZ, Dx in Q. fold S in Q. exists (q - 1)%Z. split; auto. rewrite minus_IZR. split; [|split; [lra|split; [lra|congruence]]].
        enough (1 < q)%Z by lia. apply lt_IZR. nra.
      + exists q. split; auto. assert (N : (IZR q * S <> conn_width n v c)%R). { intros Z. enough (reqb (rmul (rofZ q) (le_sum l)) x = true) by congruence. apply reqb_spec. rewrite den_mul, den_ofZ. fold S. lra. }
        split; [|split; [lra|split; [lra|congruence]]]. enough (0 < q)%Z by lia. apply lt_IZR. nra.
    - exists 1%Z. split; auto. split; [lia|]. split; [lra|]. split; [discriminate|auto]. }
  destruct B as (k & -> & K1 & K2 & K3 & K4). cbn [bind].
  destruct (C51_subtract K n s V l fuel minuend onTop left contour k c CS H Lf Nc O) as (l' & c' & x & E' & _ & _ & _ & _ & Ex & Dx & _); [rewrite E; discriminate|rewrite E; cbn [hd]; fold v; rewrite W; exact K2|].
  rewrite E in Dx. cbn [hd] in Dx. fold v in Dx. rewrite W in Dx. rewrite E'. cbn [bind]. exists l', k, x. split; auto. split; auto. split; auto. split; auto. rewrite Dx. auto.
Qed.
Print Assumptions C51_repeated.

(** The square torus of C67 with a direction that is close to vertical: the first label of the top contour, of length 29, contains that of the bottom contour, of length 1,
    28 times if a positive length must remain. *)
Definition conns_shown {K : ExactReal} (l : lengths K) : list (option (nat * nat * list Z)) * list nat * K :=
  (map (option_map (fun c : @sconn K => (sc_source c, sc_target c, sc_chain c))) (le_lengths l), le_stack l, le_sum l).
Definition three_conns {K : ExactReal} (fdiv : K -> K -> Z) (s : flat K) (V : vec K) (h g : nat) :=
  do m <- make_vertical s V;
  do c <- sc_half_edge s h;
  do d <- sc_half_edge s g;
  do l <- make_lengths m [None; Some c; Some d];
  do l <- push l 1;
  do (k, l') <- subtract_repeated 20 fdiv l 2 true [] [] [(1, [c])];
  Ok (conns_shown l, (k, conns_shown l')).
Lemma three_conns_ok {K : ExactReal} fdiv (s : flat K) V n h g a b x r : closed_flat n s -> h < n -> g < n -> three_conns fdiv s V h g = Ok (a, b, x, r) -> exists c d l l' k,
  lengths_history n s V l /\ nth 1 (le_lengths l) None = Some c /\ nth 2 (le_lengths l) None = Some d /\ on n s c /\ on n s d /\ sv n c = vv s h /\ sv n d = vv s g /\
  subtract_repeated 20 fdiv l 2 true [] [] [(1, [c])] = Ok (k, l') /\ le_stack l = [1] /\ le_sum l = x /\ r = (k, conns_shown l').
Proof.
  intros CS Hh Hg. unfold three_conns. destruct (make_vertical s V) as [m| | |] eqn:M; try discriminate. cbn [bind].
  assert (C : forall e, e < n -> exists c, sc_half_edge s e = Ok c /\ on n s c /\ sv n c = vv s e).
  { intros e He. unfold sc_half_edge. destruct (zc_half_edge_Ok n s (proj1 CS) e He) as (z & -> & L & E). cbn [bind]. eexists. split; [reflexivity|]. split; [|exact E]. split; [|reflexivity]. split; [apply CS|]. cbn. split; auto. split; auto.
    apply (neg_ltn n (fT s)); auto. apply CS. }
  destruct (C h Hh) as (c & -> & Oc & Vc). destruct (C g Hg) as (d & -> & Od & Vd). cbn [bind]. destruct (make_lengths m [None; Some c; Some d]) as [l0| | |] eqn:E0; try discriminate. cbn [bind].
  destruct (push l0 1) as [l| | |] eqn:E1; try discriminate. cbn [bind]. destruct (subtract_repeated 20 fdiv l 2 true [] [] [(1, [c])]) as [[k l']| | |] eqn:E2; try discriminate. cbn [bind].
  intros E. assert (H0 : lengths_history n s V l0). { eapply lh_made; eauto. intros y [Q|[Q|[Q|[]]]]; try discriminate; injection Q as <-; auto. }
  assert (L0 : le_lengths l0 = [None; Some c; Some d] /\ le_stack l0 = []). { unfold make_lengths in E0. destruct (check_lengths _ _); try discriminate. injection E0 as <-. auto. }
  assert (H1 := lh_push n s V _ _ _ H0 E1). destruct (push_good n s V l0 1 l (history_good n s V CS l0 H0) E1) as (_ & P1 & P2 & _). rewrite (proj1 L0) in P2. rewrite (proj2 L0) in P1.
  exists c, d, l, l', k. unfold conns_shown at 1 in E. injection E as _ _ <- <-. rewrite P2. repeat (split; auto).
Qed.
Example C51_ex : closed_flat 6 torus_s /\ exists c d l l', lengths_history 6 torus_s (zv 1 30) l /\ nth 2 (le_lengths l) None = Some d /\ on 6 torus_s c /\ le_stack l = [1] /\
  conn_widths 6 (vden (zv 1 30)) (path_across true [] [(1, [c])] (hd 0 (le_stack l))) = den (le_sum l) /\ (0 < den (le_sum l) < conn_width 6 (vden (zv 1 30)) d)%R /\
  subtract_repeated 20 (Z.div : ExactZ -> ExactZ -> Z) l 2 true [] [] [(1, [c])] = Ok (1, l') /\
  conns_shown l' = ([None; Some (3, 2, [0; -1; 0]%Z); Some (5, 4, [0; 28; -1]%Z)], [], 0%Z).
Proof.
  split; [exact torus_cf|].
  destruct (three_conns_ok (Z.div : ExactZ -> ExactZ -> Z) torus_s (zv 1 30) 6 3 5 [None; Some (3, 2, [0; -1; 0]%Z); Some (5, 4, [0; 0; -1]%Z)] [1] 1%Z (1, ([None; Some (3, 2, [0; -1; 0]%Z); Some (5, 4, [0; 28; -1]%Z)], [], 0%Z)) torus_cf ltac:(lia) ltac:(lia))
    as (c & d & l & l' & k & H & N1 & N2 & Oc & Od & Vc & Vd & S1 & S2 & S3 & S4); [vm_compute; reflexivity|].
  assert (Ek := f_equal fst S4). assert (El := f_equal snd S4). cbn [fst snd] in Ek, El. subst k. exists c, d, l, l'. split; auto. split; auto. split; auto. split; auto. rewrite S2, S3.
  assert (D : den (1%Z : ExactZ) = 1%R) by reflexivity. rewrite D. split; [|split; [|split; [exact S1|now rewrite <- El]]].
  - unfold conn_widths, path_across. cbn [until hd rev app map concat Nat.eqb rsum]. unfold conn_width. rewrite Vc. unfold vv. cbn. unfold pdet. cbn. lra.
  - unfold conn_width. rewrite Vd. unfold vv. cbn. unfold pdet. cbn. lra.
Qed.
