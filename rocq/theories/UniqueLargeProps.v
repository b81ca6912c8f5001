(** * Properties of unique large edges *)
From Coq Require Import ZArith Reals List Arith Bool Lia Lra Psatz.
From Verif Require Import Base HalfEdge HalfEdgeFacts Perm PermSpec PermFacts Combinatorial CombinatorialSpec CombinatorialFacts CombinatorialHistory ExactReal Vector PlaneSpec Plane VectorFacts
  CombinatorialOps FlatTri FlatSpec ChainSpec FlatFacts FlatSum FlatOps FlatAngle DeformSpec Tracked Vertical VerticalSpec VerticalFacts VerticalComponents Lengths IntervalExchange IntervalExchangeSpec
  IntervalExchangeFacts IntervalExchangeFlow IntervalExchangeLarge IntervalExchangeMade VectorProps FlatProps FlatAngleProps DeformProps EquivalenceProps IntervalExchangeProps
  UniqueLarge UniqueLargeSpec UniqueLargeFlip UniqueLargeFlow UniqueLargeFacts UniqueLargeAll UniqueLargeForever UniqueLargeConverse.
Import ListNotations.
Local Open Scope nat_scope.

(** When [MakeUniqueLargeEdge] returns, only flips have been performed, inside the component of the edge; the edge itself has not changed, and it is the only large
    edge in its component. *)
Theorem C68_unique : forall (K : ExactReal) n (s : flat K) V u fuel visits t, closed_flat n s -> vden V <> (0, 0)%R -> u < n -> wide s (vden V) u -> n < visits ->
  make_unique_large_edge fuel visits s V u = Ok t ->
  let v := vden V in let s' := un_surface t in let u' := un_edge t in
  to_the_right s v u u' /\ closed_flat n s' /\ fflips s (un_flips t) = (s', Ok tt) /\ (forall e, In e (un_flips t) -> e < n) /\ vv s' u' = vv s u' /\
  (forall x, x < n -> ~ joined n s v u x -> vv s' x = vv s x /\ fF s' x = fF s x /\ ~ joined n s' v u x) /\
  only_wide n s' v u' /\ NoDup (un_component t) /\ (forall x, In x (un_component t) <-> joined n s' v u' x).
Proof.
  intros K n s V u fuel visits t CS Nv Hu Wu Hk E v s' u'. destruct (unique_result n V visits Nv Hk s u fuel t CS Hu Wu E) as (A1 & A2 & A3 & A4 & A5 & A6 & A7 & A8 & A9). repeat (split; auto).
Qed.

(** It returns and the interval exchange transformation can then be constructed exactly if no half edge of the component is vertical and all lines that go up from
    vertices in the component reach the edge at some time. *)
Theorem C68_terminates : forall (K : ExactReal) n (s : flat K) V u u' visits, closed_flat n s -> vden V <> (0, 0)%R -> u < n -> wide s (vden V) u -> to_the_right s (vden V) u u' -> n < visits ->
  (flows_into n s (vden V) u' -> exists k, forall fuel, k < fuel -> exists t i, make_unique_large_edge fuel visits s V u = Ok t /\ un_edge t = u' /\ iet_from_large visits (un_surface t) V u' = Ok i) /\
  (forall fuel t i, make_unique_large_edge fuel visits s V u = Ok t -> iet_from_large visits (un_surface t) V (un_edge t) = Ok i -> flows_into n s (vden V) u').
Proof.
  intros K n s V u u' visits CS Nv Hu Wu T Hk. set (v := vden V) in *. assert (Hn := N_lt n s CS u Hu).
  assert (Hu' : u' < n) by (destruct T as [[->| ->] _]; auto). assert (Wu' : wide s v u') by (destruct T as [[->| ->] _]; auto; now apply (wide_neg n s v u (proj1 CS) Hu)). assert (Pu := proj2 T).
  destruct (make_valid n s V (proj1 CS) Nv) as (m & Em & I). destruct (ccw_ok n s V m I u Hu) as (c & m1 & Ec & Cc & I1).
  assert (Eu : (if ccw_eqb c COUNTERCLOCKWISE then neg u else u) = u').
  { unfold ccw_at in Cc. destruct T as [T P]. assert (Q := R_neg n s v CS u Hu). unfold rightwards in P, Q. assert (X : pdet (vv s u) v = (- pdet v (vv s u))%R) by (unfold pdet; ring). fold v in Cc.
    destruct c; cbn [ccw_eqb] in *; destruct T as [->| ->]; auto; exfalso; lra. }
  assert (ME : forall fuel, make_unique_large_edge fuel visits s V u = do (flips, component, m) <- make_unique_loop fuel visits m1 u'; Ok (mkUnique (vt_surface m) u' component flips)).
  { intros fuel. unfold make_unique_large_edge. rewrite Em. cbn [bind]. rewrite Ec. cbn [bind]. now rewrite Eu. }
  split.
  - intros FI. destruct (flows_potential n v Nv s u' V CS eq_refl Hu' FI) as (k & P). exists k. intros fuel L.
    destruct (loop_ends n V u' visits Nv Hu' Hk k s m1 CS I1 Wu' (proj1 FI) P fuel L) as (fl & C & m2 & EL & SL). specialize (ME fuel). rewrite EL in ME. cbn [bind] in ME.
    destruct (unique_result n V visits Nv Hk s u fuel _ CS Hu Wu ME) as (_ & B2 & _ & B4 & B5 & _ & B7 & _). cbn [un_surface un_edge un_flips] in *.
    destruct (C67_constructor K n (vt_surface m2) V u' visits B4 Hu' Hk) as [Y _]. destruct Y as (i & Ei).
    + split; auto. split; [split; [apply B7|split; [now apply SL|apply B7]]|]. unfold rightwards in *. fold v. now rewrite B5.
    + eexists. exists i. split; [exact ME|]. cbn. auto.
  - intros fuel t i E Ei. assert (E' := E). rewrite (ME fuel) in E'. destruct (make_unique_loop fuel visits m1 u') as [[[fl C] m2]| | |] eqn:EL; try discriminate. cbn [bind] in E'. injection E' as <-. cbn [un_surface un_edge] in Ei.
    destruct (unique_result n V visits Nv Hk s u fuel _ CS Hu Wu E) as (_ & B2 & _ & B4 & _). cbn [un_surface un_edge un_flips] in *.
    destruct (iet_parts n (vt_surface m2) V u' visits i B4 Hu' Hk Ei) as (_ & U & _).
    destruct (loop_ended n V u' visits Nv Hu' Hk fuel s m1 fl C m2 CS I1 Wu' Pu EL) as [SL LN].
    + intros s' Es. rewrite B2 in Es. injection Es as <-. exact (proj1 (proj2 U)).
    + now apply lines_flow.
Qed.

(** When [makeUniqueLargeEdges] returns, the interval exchange transformation of each component can be constructed and does not start or end with a trivial piece. *)
Theorem C68_all : forall (K : ExactReal) n (s s' : flat K) V fuel flips visits tie sources, closed_flat n s -> n < visits -> (forall l, l <> [] -> In (tie l) l) ->
  make_unique_large_edges fuel flips visits tie s V = Ok (s', sources) ->
  let v := vden V in
  (exists l, fflips s l = (s', Ok tt) /\ forall e, In e l -> e < n) /\ closed_flat n s' /\ (forall x, x < n -> rightwards s' v x <> 0%R) /\
  (forall x, x < n -> wide s' v x <-> In (edge_of x) sources) /\
  forall x, x < n -> exists h t, joined n s' v x h /\ unique_large n s' v h /\ (0 < rightwards s' v h)%R /\ iet_from_large visits s' V h = Ok t /\ ends_differ (ie_top t) (ie_bottom t).
Proof.
  intros K n s s' V fuel flips visits tie sources CS Hk Tie E v. unfold make_unique_large_edges in E. assert (Nv : vden V <> (0, 0)%R) by (intros Z; rewrite (make_throw s V Z) in E; discriminate).
  destruct (make_valid n s V (proj1 CS) Nv) as (m & Em & I). rewrite Em in E. cbn [bind] in E. destruct (make_unique_loops fuel flips visits tie m []) as [[m' so]| | |] eqn:EL; try discriminate. cbn [bind] in E. injection E as Es <-.
  destruct (loops_result n V visits Nv Hk tie Tie flips fuel s m [] m' so CS I ltac:(intros e []) EL) as (s1 & l & L1 & L2 & L3 & L4 & L5 & L6). rewrite (vd_surface _ _ _ _ L4) in Es. subst s1.
  assert (W : forall x, x < n -> wide s' v x <-> In (edge_of x) so).
  { intros x Hx. split; [now apply L6|]. intros J. destruct (L5 _ J) as (y & Ey & D). destruct D as (Hy & _ & U & _). apply edge_same in Ey as [->| ->]; [apply U|]. apply (wide_neg n s' v y (proj1 L3) Hy), U. }
  assert (A : forall x, x < n -> exists h, joined n s' v x h /\ done n V s' h).
  { intros x Hx. destruct (wide_exists n V visits Nv Hk s' x L3 Hx) as (h & J & Wh). assert (Hh := proj2 (joined_lt n s' v L3 _ _ J)). assert (Ih := L6 h Hh Wh). destruct (L5 _ Ih) as (y & Ey & D). exists y. split; auto. apply edge_same in Ey as [->| ->]; auto.
    apply jo_trans with (neg y); auto. apply jo_sym, jo_across; [apply D|]. intros Z. assert (Q := proj1 (proj2 D)). fold v in Z, Q. lra. }
  split; [eauto|]. split; auto. split; [|split; auto].
  - intros x Hx. destruct (A x Hx) as (h & J & D). apply (proj1 (proj2 (proj1 (proj2 (proj2 D))))). now apply jo_sym.
  - intros x Hx. destruct (A x Hx) as (h & J & D). destruct (done_iet n V Nv s' h visits L3 Hk D) as (t & Et & Dt). exists h, t. destruct D as (_ & P & U & _). auto 6.
Qed.

(** Without the assumption on lines, the flips may go on forever: for the square torus and a vertical direction that is parallel to an edge. *)
Theorem C68_forever_refuted : exists (s : flat ExactZ) V u, closed_flat 6 s /\ vden V <> (0, 0)%R /\ u < 6 /\ wide s (vden V) u /\
  (forall fuel visits, 6 < visits -> make_unique_large_edge fuel visits s V u = OutOfFuel) /\
  forall fuel flips visits tie, 6 < visits -> (forall l, l <> [] -> In (tie l) l) -> make_unique_large_edges fuel flips visits tie s V = OutOfFuel.
Proof.
  exists torus_s, (zv 0 1), 0.
  assert (Nv : vden (zv 0 1) <> (0, 0)%R) by (intros Q; apply (f_equal snd) in Q; cbn in Q; lra).
  assert (P : parallelogram (zv 0 1) torus_s).
  { split; [exact torus_cf|]. split.
    - intros x Hx. do 6 (destruct x as [|x]; [reflexivity|]). lia.
    - exists 2. split; [lia|]. unfold rightwards, pdet, vv. cbn. lra. }
  assert (W : wide torus_s (vden (zv 0 1)) 0).
  { intros x I. assert (X : x = 2 \/ x = 4 \/ x = 3 \/ x = 5) by (cbn in I; clear - I; intuition). clear I. unfold rightwards, pdet, vv.
    destruct X as [->|[->|[->| ->]]]; cbn; unfold Rabs; repeat destruct (Rcase_abs _); lra. }
  split; [exact torus_cf|]. split; auto. split; [lia|]. split; auto. split; intros; [apply edge_forever; auto; lia|apply edges_forever; auto].
Qed.

(** ** Examples *)
Definition unique_shown {K : ExactReal} (V : vec K) (visits : nat) (o : outcome (unique_edge K)) : option (nat * list nat * list nat * option (list nat * list nat)) :=
  match o with
  | Ok t => Some (un_edge t, un_component t, un_flips t, match iet_from_large visits (un_surface t) V (un_edge t) with Ok i => Some (ie_top i, ie_bottom i) | _ => None end)
  | _ => None
  end.
Lemma unique_ok {K : ExactReal} (V : vec K) visits o a b c d e : unique_shown V visits o = Some (a, b, c, Some (d, e)) ->
  exists t i, o = Ok t /\ un_edge t = a /\ un_component t = b /\ un_flips t = c /\ iet_from_large visits (un_surface t) V (un_edge t) = Ok i /\ ie_top i = d /\ ie_bottom i = e.
Proof. destruct o as [t| | |]; cbn; try discriminate. intros E. exists t. destruct (iet_from_large visits (un_surface t) V (un_edge t)) as [i| | |] eqn:Ei; try discriminate. injection E as <- <- <- <- <-. exists i. auto 10. Qed.
Definition sources_shown {K : ExactReal} (o : outcome (flat K * list nat)) : option (list nat) := match o with Ok t => Some (snd t) | _ => None end.
Lemma sources_ok {K : ExactReal} (o : outcome (flat K * list nat)) l : sources_shown o = Some l -> exists s, o = Ok (s, l).
Proof. destruct o as [[s m]| | |]; cbn; try discriminate. intros [= <-]. now exists s. Qed.
Example C68_ex : closed_flat 18 L_s /\ vden (zv 4 7) <> (0, 0)%R /\ wide L_s (vden (zv 4 7)) 1 /\ to_the_right L_s (vden (zv 4 7)) 1 0 /\ flows_into 18 L_s (vden (zv 4 7)) 0 /\
  (exists t i, make_unique_large_edge 30 19 L_s (zv 4 7) 1 = Ok t /\ un_edge t = 0 /\ un_component t = [12; 13; 8; 9; 14; 15; 2; 3; 16; 17; 7; 6; 4; 5; 10; 11; 1; 0] /\ un_flips t = [4; 3; 7] /\
    iet_from_large 19 (un_surface t) (zv 4 7) (un_edge t) = Ok i /\ ie_top i = [6; 3; 2; 1] /\ ie_bottom i = [2; 6; 1; 3]) /\
  (forall l : list nat, l <> [] -> In (hd 0 l) l) /\ exists s, make_unique_large_edges 30 30 19 (hd 0) L_s (zv 4 7) = Ok (s, [0]).
Proof.
  assert (CS := proj1 L_cc). assert (Nv : vden (zv 4 7) <> (0, 0)%R) by (intros Q; apply (f_equal snd) in Q; cbn in Q; lra).
  assert (W : wide L_s (vden (zv 4 7)) 1).
  { assert (EL : [fF L_s 1; fF L_s (fF L_s 1); fF L_s (neg 1); fF L_s (fF L_s (neg 1))] = [11; 16; 8; 13]) by reflexivity. intros x I. rewrite EL in I. cbn [In] in I.
    unfold rightwards, pdet, vv. destruct I as [<-|[<-|[<-|[<-|[]]]]]; cbn; unfold Rabs; repeat destruct (Rcase_abs _); lra. }
  assert (T : to_the_right L_s (vden (zv 4 7)) 1 0) by (split; [now right|]; unfold rightwards, pdet, vv; cbn; lra).
  assert (E : exists t i, make_unique_large_edge 30 19 L_s (zv 4 7) 1 = Ok t /\ un_edge t = 0 /\ un_component t = [12; 13; 8; 9; 14; 15; 2; 3; 16; 17; 7; 6; 4; 5; 10; 11; 1; 0] /\ un_flips t = [4; 3; 7] /\
    iet_from_large 19 (un_surface t) (zv 4 7) (un_edge t) = Ok i /\ ie_top i = [6; 3; 2; 1] /\ ie_bottom i = [2; 6; 1; 3]) by (apply unique_ok; vm_compute; reflexivity).
  split; [exact CS|]. split; [exact Nv|]. split; [exact W|]. split; [exact T|]. split; [|split; [exact E|split]].
  - destruct E as (t & i & Et & _ & _ & _ & Ei & _). exact (proj2 (C68_terminates ExactZ 18 L_s (zv 4 7) 1 0 19 CS Nv ltac:(lia) W T ltac:(lia)) 30 t i Et Ei).
  - intros [|x l] N; [contradiction|now left].
  - apply sources_ok. vm_compute. reflexivity.
Qed.

Print Assumptions C68_unique.
Print Assumptions C68_terminates.
Print Assumptions C68_all.
Print Assumptions C68_forever_refuted.
