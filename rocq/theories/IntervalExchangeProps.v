(** * Properties of interval exchange transformations *)
From Coq Require Import ZArith Reals List Arith Bool Lia Lra Psatz.
From Coq Require Import Permutation.
From Verif Require Import Base HalfEdge HalfEdgeFacts Perm PermSpec PermFacts Combinatorial CombinatorialSpec CombinatorialFacts CombinatorialHistory ExactReal Vector PlaneSpec Plane VectorFacts
  CombinatorialOps FlatTri FlatSpec ChainSpec FlatFacts FlatSum FlatOps FlatAngle SectorFacts Saddle SaddleSpec SaddleFacts DeformSpec Tracked Vertical VerticalSpec VerticalFacts VerticalComponents
  Lengths IntervalExchange IntervalExchangeSpec IntervalExchangeFacts IntervalExchangeFlow IntervalExchangeLarge IntervalExchangeMade VectorProps FlatProps FlatAngleProps DeformProps EquivalenceProps.
Import ListNotations.
Local Open Scope nat_scope.

Section down.
Context {K : ExactReal}.
Variables (n : nat) (s : flat K) (v : pt) (h : nat).
Hypothesis CS : closed_flat n s.
Hypothesis Hh : h < n.
Hypothesis Ph : (0 < rightwards s v h)%R.
Notation r := (rightwards s v).
Lemma down_back x : x < n -> rightwards s (pneg v) (neg x) = r x.
Proof. intros H. rewrite down_r, (R_neg n s v CS) by auto. ring. Qed.
Lemma joined_down x : joined n s (pneg v) (neg h) x <-> joined n s v h x.
Proof.
  rewrite <- (down_joined n s v). assert (J : joined n s v h (neg h)) by (apply jo_across; auto; lra).
  split; intros Q; [apply jo_trans with (neg h); auto|apply jo_trans with h; auto; now apply jo_sym].
Qed.
Lemma unique_down : unique_large n s v h -> unique_large n s (pneg v) (neg h).
Proof.
  intros (U1 & U2 & U3). split; [apply down_wide, (wide_neg n s v h (proj1 CS) Hh); auto|]. split; intros x J; apply joined_down in J.
  - rewrite down_r. specialize (U2 x J). lra.
  - rewrite neg_neg. intros W. apply (down_wide s v) in W. destruct (U3 x J W); auto.
Qed.
Lemma narrow_down x : x < n -> narrow s (pneg v) (neg x) <-> narrow s v x.
Proof.
  intros Hx. unfold narrow. rewrite neg_neg. assert (E : forall y, Rabs (rightwards s (pneg v) y) = Rabs (r y)) by (intros y; now rewrite down_r, Rabs_Ropp).
  assert (En : Rabs (r (neg x)) = Rabs (r x)) by now rewrite (R_neg n s v CS), Rabs_Ropp by auto.
  split; intros [(y & A & B) (z & C & D)]; rewrite ?E, ?En in *; (split; [exists z|exists y]; split; auto; rewrite ?E, ?En; auto).
Qed.
End down.

Lemma before_rev {K : ExactReal} n (s : flat K) v : closed_flat n s -> forall l y, (forall x, In x l -> x < n) -> NoDup l -> In y l ->
  before (rightwards s v) (map neg (rev l)) (neg y) = (rsum (map (rightwards s (pneg v)) l) - before (rightwards s (pneg v)) l y - rightwards s (pneg v) y)%R.
Proof.
  intros CS. set (r := rightwards s v). set (q := rightwards s (pneg v)). assert (E : forall x, x < n -> r (neg x) = q x) by (intros x H; unfold r, q; rewrite down_r, (R_neg n s v CS) by auto; ring).
  assert (A : forall x z, rsum (x ++ z) = (rsum x + rsum z)%R) by (intros x z; induction x as [|w x IHx]; cbn; rewrite ?IHx; ring).
  assert (T : forall l, (forall x, In x l -> x < n) -> rsum (map r (map neg (rev l))) = rsum (map q l)).
  { induction l as [|x l IH]; intros H; [reflexivity|]. cbn [rev map rsum]. rewrite !map_app, A, IH by (intros; apply H; now right). cbn [map rsum]. rewrite E by (apply H; now left). ring. }
  induction l as [|x l IH]; intros y H ND I; [destruct I|]. inversion ND as [|? ? N ND']; subst. cbn [rev map rsum before]. rewrite map_app. cbn [map]. assert (Hl : forall z, In z l -> z < n) by (intros; apply H; now right).
  assert (IN : forall z, In (neg z) (map neg (rev l)) <-> In z l). { intros z. rewrite in_map_iff. split; [intros (w & W1 & W2); apply neg_inj in W1; subst; now apply in_rev|intros; exists z; split; auto; now apply -> in_rev]. }
  destruct (Nat.eqb_spec x y) as [->|D].
  - rewrite before_right by (now rewrite IN). rewrite T by auto. cbn [before]. rewrite Nat.eqb_refl. ring.
  - destruct I as [->|I]; [contradiction|]. rewrite before_left by (now apply IN). rewrite IH by auto. ring.
Qed.

Section iet.
Context {K : ExactReal}.
Variables (n : nat) (s : flat K) (V : vec K) (h fuel : nat).
Hypothesis CS : closed_flat n s.
Hypothesis Hh : h < n.
Hypothesis Lf : n < fuel.
Notation v := (vden V).
Notation r := (rightwards s v).
Let S0 : flat_surface n s := proj1 CS.

Lemma large_contours_cases : v <> (0, 0)%R ->
  (exists top L, large_contours fuel s V h = Ok (top, map neg (rev L)) /\ (0 < r h)%R /\ wide s v h /\ contour s v h top /\ contour s (pneg v) (neg h) L) \/
  (exists bottom, large_contours fuel s V h = Ok ([h], bottom) /\ (r h < 0)%R) \/
  (large_contours fuel s V h = Throw /\ forall top L, contour s v h top -> contour s (pneg v) (neg h) L -> ~ wide s v h).
Proof.
  intros Nv. assert (Hn := N_lt n s CS h Hh). assert (Nv' : vden (vneg V) <> (0, 0)%R) by (rewrite vden_neg; now apply down_nonzero).
  unfold large_contours. destruct (make_valid n s V S0 Nv) as (m & -> & I). cbn [bind]. destruct (large_ok n s V m h I Hh) as (b & m' & -> & B & _). cbn [bind].
  destruct b; cbn [negb]; [|right; right; split; auto; intros top L _ _ W; apply B in W; discriminate]. assert (W := proj1 B eq_refl). clear B m'.
  assert (W' : wide s (vden (vneg V)) (neg h)) by (rewrite vden_neg; apply down_wide, (wide_neg n s v h S0 Hh); auto).
  destruct (make_valid n s (vneg V) S0 Nv') as (m' & -> & I').
  destruct (Rtotal_order (r h) 0) as [P|[P|P]]; [|exfalso; now apply (wide_nonzero n s V CS h Nv Hh W)|].
  - destruct fuel as [|k]; [lia|]. assert (P' : (rightwards s (vden (vneg V)) (neg h) < 0)%R) by (rewrite vden_neg, (down_back n s v CS) by auto; auto).
    destruct (make_contour_left n s V CS k m h I Hh P W) as [(m2 & -> & I2)| ->]; cbn [bind].
    + destruct (make_contour_left n s (vneg V) CS k m' (neg h) I' Hn P' W') as [(m3 & -> & I3)| ->]; cbn [bind]; [right; left; eauto|right; right]. split; auto. intros top L C _ _. apply contour_pos in C. lra.
    + right. right. split; auto. intros top L C _ _. apply contour_pos in C. lra.
  - assert (P' : (0 < rightwards s (vden (vneg V)) (neg h))%R) by (rewrite vden_neg, (down_back n s v CS) by auto; auto).
    assert (Q1 := narrower_le n s v h). assert (Q2 := narrower_le n s (vden (vneg V)) (neg h)).
    destruct (make_contour_ok n s V CS fuel m h I Hh P ltac:(lia)) as [(top & m2 & -> & I2 & C)|[-> C]]; cbn [bind]; [|right; right; split; auto; intros top L D; exfalso; now apply (C top)].
    destruct (make_contour_ok n s (vneg V) CS fuel m' (neg h) I' Hn P' ltac:(lia)) as [(L & m3 & -> & I3 & D)|[-> D]]; cbn [bind].
    + left. exists top, L. rewrite vden_neg in D. auto.
    + right. right. split; auto. intros top' L _ D'. exfalso. apply (D L). now rewrite vden_neg.
Qed.
Lemma large_contours_zero : v = (0, 0)%R -> large_contours fuel s V h = Throw.
Proof. intros Z. unfold large_contours. now rewrite make_throw. Qed.

(** The two contours of a half edge. *)
Section contours.
Variables (top L : list nat).
Hypothesis Nv : v <> (0, 0)%R.
Hypothesis Ph : (0 < r h)%R.
Hypothesis C : contour s v h top.
Hypothesis D : contour s (pneg v) (neg h) L.
Notation bottom := (map neg (rev L)).
Let Hn : neg h < n := N_lt n s CS h Hh.
Lemma top_facts e : In e top -> e < n /\ (0 < r e)%R.
Proof. intros I. apply (contour_In n s v CS h top Hh C) in I as [N Q]. split; [now apply (node_lt n s v CS h)|apply Q]. Qed.
Lemma L_lt e : In e L -> e < n.
Proof. intros I. apply (contour_In n s _ CS _ L Hn D) in I as [N Q]. now apply (node_lt n s (pneg v) CS (neg h)). Qed.
Lemma bottom_In e : In e bottom <-> In (neg e) L.
Proof. rewrite in_map_iff. split; [intros (x & <- & X); rewrite neg_neg; now apply in_rev|intros X; exists (neg e); rewrite neg_neg; split; auto; now apply -> in_rev]. Qed.
Lemma bottom_NoDup : NoDup bottom.
Proof.
  apply FinFun.Injective_map_NoDup; [intros x y; apply neg_inj|]. apply NoDup_rev. now apply (contour_NoDup n s (pneg v) CS (neg h)).
Qed.
Lemma top_path : vertex_path s h top (neg h). Proof. now apply (contour_path n s v CS). Qed.
Lemma bottom_path : vertex_path s h bottom (neg h).
Proof. apply (path_neg n s CS); auto; [intros; now apply L_lt|]. assert (Q := contour_path n s (pneg v) CS (neg h) L Hn D). now rewrite neg_neg in Q. Qed.
Lemma bottom_psum : psum (map (vv s) bottom) = vv s h.
Proof.
  assert (Q := contour_psum n s (pneg v) CS (neg h) L Hn D). rewrite (fs_odd n s S0) in Q by auto.
  assert (G : forall l, (forall x, In x l -> x < n) -> psum (map (vv s) (map neg (rev l))) = pneg (psum (map (vv s) l))).
  { induction l as [|x l IH]; intros H; [cbn; unfold pneg; cbn; f_equal; ring|]. cbn [rev map psum]. rewrite !map_app, psum_app, IH by (intros; apply H; now right). cbn [map psum]. rewrite (fs_odd n s S0) by (apply H; now left).
    unfold padd, pneg. cbn. f_equal; ring. }
  rewrite G, Q by (intros; now apply L_lt). apply pneg_pneg.
Qed.
Lemma top_unique : wide s v h -> same_multiset top bottom = true -> unique_large n s v h.
Proof.
  intros W M. assert (Q := multiset_incl _ _ M). apply (contours_unique n s CS v h top L); auto.
  - intros e I. now apply bottom_In, Q. - intros e I. apply Q, bottom_In. now rewrite neg_neg.
Qed.
Hypothesis U : unique_large n s v h.
Lemma top_spec e : In e top <-> (joined n s v h e /\ 0 < r e /\ narrow s v e)%R.
Proof. rewrite (contour_In n s v CS h top Hh C). now apply leaf_spec. Qed.
Lemma bottom_spec e : In e bottom <-> (joined n s v h e /\ 0 < r e /\ narrow s v e)%R.
Proof.
  assert (Pn : (0 < rightwards s (pneg v) (neg h))%R) by (rewrite (down_back n s v CS); auto).
  rewrite bottom_In, (contour_In n s _ CS _ L Hn D), (leaf_spec n s (pneg v) CS (neg h) Hn Pn (unique_down n s v h CS Hh Ph U)), (joined_down n s v h Hh Ph). split.
  - intros (J & P & N). assert (He : e < n) by (rewrite <- (neg_neg e); apply (N_lt n s CS), (joined_lt n s v CS _ _ J)). rewrite (down_back n s v CS) in P by auto. rewrite (narrow_down n s v CS) in N by auto. split; auto.
    apply jo_trans with (neg e); auto. apply jo_sym, jo_across; auto. lra.
  - intros (J & P & N). assert (He := proj2 (joined_lt n s v CS _ _ J)). rewrite (down_back n s v CS), (narrow_down n s v CS) by auto. split; auto. apply jo_trans with e; auto. apply jo_across; auto. lra.
Qed.
Lemma top_bottom : Permutation top bottom.
Proof.
  apply NoDup_Permutation; [now apply (contour_NoDup n s v CS h)|apply bottom_NoDup|]. intros e. now rewrite top_spec, bottom_spec.
Qed.
Lemma first_return e x : In e top -> (0 < x < r e)%R -> first_hit s v h (h, (before r top e + x) / r h)%R ((before r bottom e + x) / r h)%R.
Proof.
  intros I X. assert (W := proj1 U). apply (contour_flow n s v CS Nv h _ h top Hh C); auto.
  assert (Ib : In (neg e) L) by (apply bottom_In; now apply (Permutation_in _ top_bottom)). assert (He := proj1 (top_facts e I)).
  assert (Ne : neg e <> neg h). { intros Q. apply neg_inj in Q. subst. apply (contour_In n s v CS h top Hh C) in I as [_ Q]. exact (wide_above n s v CS h Hh W Q). }
  assert (En : r (neg e) = (- r e)%R) by now apply (R_neg n s v CS). assert (Eh : r (neg h) = (- r h)%R) by now apply (R_neg n s v CS).
  assert (Q := contour_flow_down n s v CS Nv h ((before r bottom e + x) / r h)%R (neg h) L Hn D). specialize (Q ltac:(intros y Y _ Z E; apply Z; rewrite <- E; now rewrite neg_neg) (neg e) (r e - x)%R Ib Ne).
  rewrite En in Q. specialize (Q ltac:(lra)). rewrite !neg_neg in Q. replace (1 - (r e - x) / - - r e)%R with (x / r e)%R in Q by (field; lra). apply Q. clear Q.
  intros y Y Ey. left. split; auto. rewrite Eh. rewrite <- (neg_neg e) at 1. rewrite (before_rev n s v CS); auto; [|intros; now apply L_lt|now apply (contour_NoDup n s (pneg v) CS (neg h))].
  rewrite (contour_sum n s (pneg v) CS (neg h) L Hn D), !(down_back n s v CS) by auto. rewrite Ey. field. lra.
Qed.
End contours.
End iet.

Theorem C67_constructor : forall (K : ExactReal) n (s : flat K) V h fuel, closed_flat n s -> h < n -> n < fuel ->
  let good := vden V <> (0, 0)%R /\ unique_large n s (vden V) h /\ (0 < rightwards s (vden V) h)%R in
  (good -> exists t, iet_from_large fuel s V h = Ok t) /\ (~ good -> iet_from_large fuel s V h = Throw).
Proof.
  intros K n s V h fuel CS Hh Lf good. assert (Hn := N_lt n s CS h Hh). unfold iet_from_large. split.
  - intros (Nv & U & P). destruct (unique_contour n s (vden V) CS h Hh P U) as (top' & C').
    destruct (unique_contour n s (pneg (vden V)) CS (neg h) Hn) as (L' & D'); [now rewrite (down_back n s (vden V) CS)|now apply unique_down|].
    destruct (large_contours_cases n s V h fuel CS Hh Lf Nv) as [(top & L & -> & _ & W & C & D)|[(b & _ & Q)|(_ & Q)]]; [|lra|exfalso; exact (Q top' L' C' D' (proj1 U))]. cbn [bind].
    destruct (make_iet_ok n s V CS Nv top (map neg (rev L))) as (t & E & _); eauto.
    + intros e I. now apply (top_facts n s V h CS Hh top C).
    + now apply (contour_NoDup n s (vden V) CS h).
    + now apply (top_bottom n s V h CS Hh).
    + intros ->. assert (Q := contour_sum n s _ CS h [] Hh C). cbn in Q. lra.
    + exists h, (neg h). now apply (top_path n s V h CS Hh).
    + exists h, (neg h). now apply (bottom_path n s V h CS Hh).
  - intros N. destruct (Req_EM_T (fst (vden V)) 0) as [Z1|Z1], (Req_EM_T (snd (vden V)) 0) as [Z2|Z2];
      [rewrite (large_contours_zero s V h fuel); auto; destruct (vden V); cbn in *; now subst| | |].
    all: assert (Nv : vden V <> (0, 0)%R) by (intros Q; rewrite Q in *; cbn in *; lra).
    all: destruct (large_contours_cases n s V h fuel CS Hh Lf Nv) as [(top & L & -> & P & W & C & D)|[(b & -> & Q)|(-> & Q)]]; cbn [bind]; auto;
      [|apply (make_iet_throw n s V CS Nv); [intros e [<-|[]]; auto|left; exists h; auto]].
    all: apply (make_iet_throw n s V CS Nv); [intros e I; now apply (top_facts n s V h CS Hh top C)|right]; destruct (same_multiset top (map neg (rev L))) eqn:M; auto; exfalso; apply N; repeat split; auto; try apply (top_unique n s V h CS Hh top L); auto.
Qed.
Print Assumptions C67_constructor.

(** What a transformation that was made from a large half edge is made of. *)
Lemma iet_parts {K : ExactReal} n (s : flat K) V h fuel t : closed_flat n s -> h < n -> n < fuel -> iet_from_large fuel s V h = Ok t ->
  vden V <> (0, 0)%R /\ unique_large n s (vden V) h /\ (0 < rightwards s (vden V) h)%R /\
  exists top L, large_contours fuel s V h = Ok (top, map neg (rev L)) /\ contour s (vden V) h top /\ contour s (pneg (vden V)) (neg h) L /\ make_iet s V top (map neg (rev L)) = Ok t.
Proof.
  intros CS Hh Lf E. destruct (C67_constructor K n s V h fuel CS Hh Lf) as [_ A]. cbn beta zeta in A.
  assert (G : vden V <> (0, 0)%R /\ unique_large n s (vden V) h /\ (0 < rightwards s (vden V) h)%R) by (destruct (Classical_Prop.classic (vden V <> (0, 0)%R /\ unique_large n s (vden V) h /\ (0 < rightwards s (vden V) h)%R)) as [|Q]; auto; rewrite (A Q) in E; discriminate).
  destruct G as (Nv & U & P). split; auto. split; auto. split; auto. unfold iet_from_large in E.
  destruct (large_contours_cases n s V h fuel CS Hh Lf Nv) as [(top & L & Q & _ & W & C & D)|[(b & _ & Q)|(Q & _)]]; [|lra|rewrite Q in E; discriminate]. rewrite Q in E. cbn [bind] in E. exists top, L. auto.
Qed.

(** The labels of the top and the bottom are the edges of two paths of half edges from the start of the large half edge to its end.  Both paths consist of
    the half edges of its component that point to the right and are narrow. *)
Theorem C67_contours : forall (K : ExactReal) n (s : flat K) V h fuel t, closed_flat n s -> h < n -> n < fuel -> iet_from_large fuel s V h = Ok t ->
  let v := vden V in
  exists top bottom, ie_top t = map (fun e => e / 2) top /\ ie_bottom t = map (fun e => e / 2) bottom /\ NoDup (ie_top t) /\ NoDup top /\ Permutation top bottom /\
    (forall e, In e top <-> joined n s v h e /\ (0 < rightwards s v e)%R /\ narrow s v e) /\
    psum (map (vv s) top) = vv s h /\ psum (map (vv s) bottom) = vv s h /\ vertex_path s h top (neg h) /\ vertex_path s h bottom (neg h).
Proof.
  intros K n s V h fuel t CS Hh Lf E v. destruct (iet_parts n s V h fuel t CS Hh Lf E) as (Nv & U & P & top & L & EL & C & D & M). fold v in Nv, U, P, C, D.
  assert (PM := top_bottom n s V h CS Hh top L P C D U). assert (ND := contour_NoDup n s v CS h top Hh C).
  destruct (make_iet_ok n s V CS Nv top (map neg (rev L))) as (t' & E' & _ & T1 & T2 & _); auto.
  - intros e I. now apply (top_facts n s V h CS Hh top C).
  - intros ->. assert (Q := contour_sum n s _ CS h [] Hh C). cbn in Q. fold v in Q. lra.
  - exists h, (neg h). now apply (top_path n s V h CS Hh).
  - exists h, (neg h). now apply (bottom_path n s V h CS Hh).
  - rewrite M in E'. injection E' as <-. exists top, (map neg (rev L)). split; auto. split; auto. split; [rewrite T1|split; auto; split; auto; split; [|split; [|split; [|split]]]].
    + apply (NoDup_map_inj (fun e => e / 2)); auto. intros x y Ix Iy Q. apply index_eq in Q as [|Q]; auto. exfalso. destruct (top_facts n s V h CS Hh top C x Ix) as [Hx Px]. destruct (top_facts n s V h CS Hh top C y Iy) as [Hy Py]. rewrite Q, (R_neg n s _ CS) in Px by auto. lra.
    + intros e. now apply (top_spec n s V h CS Hh top P C U).
    + now apply (contour_psum n s v CS).
    + now apply (bottom_psum n s V h CS Hh).
    + now apply (top_path n s V h CS Hh).
    + now apply (bottom_path n s V h CS Hh).
Qed.
Print Assumptions C67_contours.

(** The flow in the vertical direction returns to the large half edge: the top interval [e] is translated to the bottom interval [e]. *)
Theorem C67_first_return : forall (K : ExactReal) n (s : flat K) V h fuel t, closed_flat n s -> h < n -> n < fuel -> iet_from_large fuel s V h = Ok t ->
  let v := vden V in let r := rightwards s v in
  exists top bottom, ie_top t = map (fun e => e / 2) top /\ ie_bottom t = map (fun e => e / 2) bottom /\ (forall e, In e top \/ In e bottom -> 0 < r e)%R /\ rsum (map r top) = r h /\
    forall e x, In e top -> (0 < x < r e)%R -> forall u, first_hit s v h (h, (before r top e + x) / r h)%R u <-> u = ((before r bottom e + x) / r h)%R.
Proof.
  intros K n s V h fuel t CS Hh Lf E v r. destruct (iet_parts n s V h fuel t CS Hh Lf E) as (Nv & U & P & top & L & EL & C & D & M). fold v in Nv, U, P, C, D.
  assert (PM := top_bottom n s V h CS Hh top L P C D U). assert (ND := contour_NoDup n s v CS h top Hh C).
  destruct (make_iet_ok n s V CS Nv top (map neg (rev L))) as (t' & E' & _ & T1 & T2 & _); auto.
  - intros e I. now apply (top_facts n s V h CS Hh top C).
  - intros ->. assert (Q := contour_sum n s _ CS h [] Hh C). cbn in Q. fold v in Q. lra.
  - exists h, (neg h). now apply (top_path n s V h CS Hh).
  - exists h, (neg h). now apply (bottom_path n s V h CS Hh).
  - rewrite M in E'. injection E' as <-. exists top, (map neg (rev L)). split; auto. split; auto. split; [|split].
    + intros e [I|I]; [|apply (Permutation_in _ (Permutation_sym PM)) in I]; now apply (top_facts n s V h CS Hh top C).
    + now apply (contour_sum n s v CS).
    + intros e x I X u. assert (R := first_return n s V h CS Hh top L Nv P C D U e x I X). fold v in R. fold r in R. split; [|intros ->; auto].
      intros Q. symmetry. eapply (first_hit_fun n s v CS h); eauto.
Qed.
Print Assumptions C67_first_return.

(** The lengths are the widths of the half edges. *)
Theorem C67_lengths : forall (K : ExactReal) n (s : flat K) V h fuel t label, closed_flat n s -> h < n -> n < fuel -> iet_from_large fuel s V h = Ok t -> In label (ie_top t) ->
  let v := vden V in
  exists e c x, iet_edge t label = e / 2 /\ joined n s v h e /\ (0 < rightwards s v e)%R /\ narrow s v e /\
    iet_connection t label = Ok c /\ sc_half_edge s e = Ok c /\ get_length (ie_lengths t) label = Ok x /\ den x = rightwards s v e.
Proof.
  intros K n s V h fuel t label CS Hh Lf E Il v. destruct (iet_parts n s V h fuel t CS Hh Lf E) as (Nv & U & P & top & L & EL & C & D & M). fold v in Nv, U, P, C, D.
  assert (PM := top_bottom n s V h CS Hh top L P C D U). assert (ND := contour_NoDup n s v CS h top Hh C).
  destruct (make_iet_ok n s V CS Nv top (map neg (rev L))) as (t' & E' & _ & T1 & T2 & T3); auto.
  - intros e I. now apply (top_facts n s V h CS Hh top C).
  - intros ->. assert (Q := contour_sum n s _ CS h [] Hh C). cbn in Q. fold v in Q. lra.
  - exists h, (neg h). now apply (top_path n s V h CS Hh).
  - exists h, (neg h). now apply (bottom_path n s V h CS Hh).
  - rewrite M in E'. injection E' as <-. rewrite T1 in Il. apply in_map_iff in Il as (e & <- & I). destruct (T3 e I) as (c & x & Ec & E1 & E2 & E3). destruct Ec as [Ec _]. exists e, c, x. split; auto.
    apply (top_spec n s V h CS Hh top P C U) in I as (I1 & I2 & I3). auto 10.
Qed.
Print Assumptions C67_lengths.

Lemma position_ok b l : In b l -> exists i, position b l = Some i /\ i < length l /\ nth i l 0 = b.
Proof.
  induction l as [|x l IH]; intros I; [destruct I|]. cbn [position]. destruct (Nat.eqb_spec x b) as [->|N]; [exists 0; cbn; split; auto; lia|]. destruct I as [->|I]; [contradiction|].
  destruct (IH I) as (i & -> & L & Q). exists (Datatypes.S i). cbn. split; auto. split; auto. lia.
Qed.
Lemma forget_bottom_ok top bottom : incl bottom top -> map (fun i => nth i top 0) (forget_bottom top bottom) = bottom /\ incl (forget_bottom top bottom) (seq 0 (length top)) /\ length (forget_bottom top bottom) = length bottom.
Proof.
  induction bottom as [|b bottom IH]; intros I; cbn [forget_bottom]; [split; auto; split; auto; intros ? []|]. destruct (position_ok b top (I b (or_introl eq_refl))) as (i & -> & L & Q).
  destruct IH as (A & B & C); [intros x X; apply I; now right|]. cbn [map length]. rewrite A, Q, C. split; auto. split; auto. intros x [<-|X]; auto. apply in_seq. lia.
Qed.
(** Forgetting the surface leaves the widths of the top intervals and the permutation of the intervals. *)
Theorem C67_forget : forall (K : ExactReal) n (s : flat K) V h fuel t, closed_flat n s -> h < n -> n < fuel -> iet_from_large fuel s V h = Ok t ->
  exists top l p, iet_forget t = Ok (l, p) /\ ie_top t = map (fun e => e / 2) top /\ (forall e, In e top -> 0 < rightwards s (vden V) e)%R /\ map den l = map (rightwards s (vden V)) top /\
    Permutation p (seq 0 (length (ie_top t))) /\ map (fun i => nth i (ie_top t) 0) p = ie_bottom t.
Proof.
  intros K n s V h fuel t CS Hh Lf E. set (v := vden V). destruct (C67_contours K n s V h fuel t CS Hh Lf E) as (top & bottom & T1 & T2 & N1 & N2 & PM & T3 & _). fold v in T3.
  assert (A : forall e, In e top -> exists x, get_length (ie_lengths t) (e / 2) = Ok x /\ den x = rightwards s v e).
  { intros e I. assert (Il : In (e / 2) (ie_top t)) by (rewrite T1; now apply (in_map (fun e => e / 2))). destruct (C67_lengths K n s V h fuel t _ CS Hh Lf E Il) as (e' & c & x & Q1 & Q2 & Q3 & Q4 & _ & _ & Q5 & Q6). exists x. split; auto. fold v in Q3, Q6. rewrite Q6.
    unfold iet_edge in Q1. symmetry in Q1. apply index_eq in Q1 as [->|Q1]; auto. exfalso. apply T3 in I as (J & I & _). rewrite Q1, (R_neg n s v CS) in Q3 by apply (joined_lt n s v CS _ _ J). lra. }
  assert (B : exists l, omap (get_length (ie_lengths t)) (ie_top t) = Ok l /\ map den l = map (rightwards s v) top).
  { rewrite T1. clear - A. induction top as [|e top IH]; [exists []; auto|]. destruct (A e (or_introl eq_refl)) as (x & Q1 & Q2). destruct IH as (l & Q3 & Q4); [intros; apply A; now right|].
    exists (x :: l). cbn [map omap]. rewrite Q1. cbn [bind]. rewrite Q3. cbn [bind]. split; auto. congruence. }
  destruct B as (l & B1 & B2). unfold iet_forget. rewrite B1. cbn [bind]. exists top, l, (forget_bottom (ie_top t) (ie_bottom t)). split; auto. split; auto. split; [intros e I; now apply T3 in I|]. split; auto.
  assert (PL : Permutation (ie_top t) (ie_bottom t)) by (rewrite T1, T2; now apply Permutation_map).
  destruct (forget_bottom_ok (ie_top t) (ie_bottom t)) as (C1 & C2 & C3); [intros x X; now apply (Permutation_in _ (Permutation_sym PL))|]. split; auto. apply NoDup_Permutation_bis; auto.
  - apply (NoDup_map_inv (fun i => nth i (ie_top t) 0)). rewrite C1. now apply (Permutation_NoDup PL).
  - rewrite C3, seq_length. rewrite (Permutation_length PL). auto.
Qed.
Print Assumptions C67_forget.

(** The torus of a unit square, with a diagonal, from its horizontal side; the lengths of the intervals are 2 and 1.  The opposite of the side is large but points to the left.
    In the L shape there are three large edges in the only component. *)
Definition iet_shown {K : ExactReal} (o : outcome (iet K)) : option (list nat * list nat * option (list K * list nat)) :=
  match o with Ok t => Some (ie_top t, ie_bottom t, match iet_forget t with Ok x => Some x | _ => None end) | _ => None end.
Lemma shown_ok {K : ExactReal} (o : outcome (iet K)) a b c : iet_shown o = Some (a, b, Some c) -> exists t, o = Ok t /\ ie_top t = a /\ ie_bottom t = b /\ iet_forget t = Ok c.
Proof. destruct o as [t| | |]; cbn; try discriminate. intros E. exists t. split; auto. destruct (iet_forget t); try discriminate. injection E as <- <- <-. auto. Qed.
Definition is_throw {A} (o : outcome A) : bool := match o with Throw => true | _ => false end.
Lemma throw_ok {A} (o : outcome A) : is_throw o = true -> o = Throw. Proof. now destruct o. Qed.
Example C67_ex : closed_flat 6 torus_s /\
  (exists t, iet_from_large 7 torus_s (zv 1 3) 0 = Ok t /\ ie_top t = [2; 1] /\ ie_bottom t = [1; 2] /\ iet_forget t = Ok ([2%Z : ExactZ; 1%Z : ExactZ], [1; 0])) /\
  vden (zv 1 3) <> (0, 0)%R /\ unique_large 6 torus_s (vden (zv 1 3)) 0 /\ (0 < rightwards torus_s (vden (zv 1 3)) 0)%R /\
  large_contours 7 torus_s (zv 1 3) 1 = Ok ([1], [1]) /\ iet_from_large 7 torus_s (zv 1 3) 1 = Throw /\
  closed_flat 18 L_s /\ large_contours 19 L_s (zv 1 3) 0 = Ok ([12; 9], [11; 16]) /\ iet_from_large 19 L_s (zv 1 3) 0 = Throw.
Proof.
  assert (E : exists t, iet_from_large 7 torus_s (zv 1 3) 0 = Ok t /\ ie_top t = [2; 1] /\ ie_bottom t = [1; 2] /\ iet_forget t = Ok ([2%Z : ExactZ; 1%Z : ExactZ], [1; 0])) by (apply shown_ok; vm_compute; reflexivity).
  split; [exact torus_cf|]. split; [exact E|]. destruct E as (t & E & _). destruct (iet_parts 6 torus_s (zv 1 3) 0 7 t torus_cf ltac:(lia) ltac:(lia) E) as (N & U & P & _).
  split; [exact N|]. split; [exact U|]. split; [exact P|]. split; [vm_compute; reflexivity|]. split; [apply throw_ok; vm_compute; reflexivity|]. split; [exact (proj1 L_cc)|]. split; [vm_compute; reflexivity|]. apply throw_ok. vm_compute. reflexivity.
Qed.
