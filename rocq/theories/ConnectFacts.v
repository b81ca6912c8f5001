(** * Facts about saddle connections in a direction *)
From Coq Require Import ZArith Reals List Arith Bool Lia Lra.
From Verif Require Import Base HalfEdge HalfEdgeFacts Perm PermSpec PermFacts PermCycles PermLemmas IndexedSet IndexedSetSpec IndexedSetFacts Combinatorial CombinatorialSpec CombinatorialFacts
  CombinatorialHistory CombinatorialOps CombinatorialProps ExactReal Vector PlaneSpec Plane VectorFacts VectorProps FlatTri FlatSpec FlatFacts FlatSum FlatAngle FlatLinear FlatSector FlatProps FlatAngleProps
  Chain ChainSpec Saddle SaddleSpec SaddleFacts SaddleTurn SaddleProps Quadratic Search SearchSpec SearchMoves SearchPlane SearchAll SearchProps SectorSpec SectorFacts SectorProps Path Connect.
Import ListNotations.
Local Open Scope R_scope.

Lemma in_sector_same v d : d <> (0, 0) -> (in_sector v d d <-> same_direction d v).
Proof.
  intros Nd. assert (T0 : turn d d 0) by (split; [pose proof PI_RGT_0; lra|]; exists 1; split; [lra|]; rewrite protate_0; destruct d; unfold pscale; cbn [fst snd]; f_equal; ring). split.
  - intros (a & c & Ta & Tc & H). assert (c = 0) by (eapply turn_unique; eauto). subst c. destruct Ta as (B & r & Hr & E). destruct H as [H|[-> _]]; [lra|]. exists r. split; auto. now rewrite protate_0 in E.
  - intros (r & Hr & ->). exists 0, 0. split; [|split; auto]. split; [pose proof PI_RGT_0; lra|]. exists r. split; auto. now rewrite protate_0.
Qed.

Section first.
Context {K : ExactReal}.
Lemma search_first (cs : conns K) f l : search cs f = Ok l ->
  (do m <- search_begin cs f; if at_end m then Throw else sdereference cs m) = match l with [] => Throw | y :: _ => Ok y end.
Proof.
  unfold search. intros E. destruct (search_begin cs f) as [m| | |]; try discriminate. cbn [bind] in *. destruct f as [|f]; [discriminate|]. cbn [search_from] in E.
  destruct (at_end m); [injection E as <-; auto|]. destruct (sdereference cs m) as [x| | |]; try discriminate. cbn [bind] in E. destruct (advance cs f m) as [m'| | |]; try discriminate. cbn [bind] in E.
  destruct (search_from cs f m') as [l'| | |]; try discriminate. now injection E as <-.
Qed.
End first.

Section unique.
Context {K : ExactReal} (n : nat) (s : flat K).
Hypothesis S0 : flat_surface n s.

Lemma det_scale r v w : pdet v (pscale r w) = r * pdet v w.
Proof. destruct v, w; unfold pdet, pscale; cbn; ring. Qed.
Lemma scale_det r v w : pdet (pscale r v) w = r * pdet v w.
Proof. destruct v, w; unfold pdet, pscale; cbn; ring. Qed.
Lemma det_self v : pdet v v = 0.
Proof. unfold pdet; ring. Qed.

(** A ray hits only one vertex first. *)
Lemma hits_once p h v g : hits s p h v g -> forall r g', 0 < r -> hits s p h (pscale r v) g' -> pscale r v = v /\ g' = g.
Proof.
  induction 1 as [p h N C|p h v g N C H IH|p h v g N C H IH]; intros r g' Hr H'; set (c := padd p (vv s (fF s (neg h)))) in *; apply hits_inv in H' as (_ & C' & [(E & ->)|[H'|H']]); fold c in H', E || idtac.
  - auto.
  - apply hits_crosses in H' as (_ & X). fold c in X. rewrite scale_det, det_self in X. lra.
  - apply hits_crosses in H' as (X & _). fold c in X. rewrite det_scale, det_self in X. lra.
  - fold c in E. apply hits_crosses in H as (_ & X). fold c in X. rewrite <- E, det_scale, det_self in X. lra.
  - exact (IH r g' Hr H').
  - apply hits_crosses in H as (_ & X). apply hits_crosses in H' as (Y & _). fold c in X, Y. rewrite det_scale in Y.
    replace (pdet v c) with (- pdet c v) in X by (unfold pdet; ring). nra.
  - fold c in E. apply hits_crosses in H as (X & _). fold c in X. rewrite <- E, scale_det, det_self in X. lra.
  - apply hits_crosses in H as (X & _). apply hits_crosses in H' as (_ & Y). fold c in X, Y. rewrite scale_det in Y.
    replace (pdet v c) with (- pdet c v) in Y by (unfold pdet; ring). nra.
  - exact (IH r g' Hr H').
Qed.
Lemma connection_once h v g v' g' : connection s h v g -> connection s h v' g' -> same_direction v v' -> v' = v /\ g' = g.
Proof.
  intros (N & C) (_ & C') (r & Hr & ->). destruct C as [(-> & ->)|C], C' as [(E & ->)|C'].
  - auto.
  - apply hits_crosses in C' as (X & _). rewrite det_scale, det_self in X. lra.
  - apply hits_crosses in C as (X & _). assert (Y := f_equal (fun w => pdet w v) E). cbn beta in Y. rewrite scale_det, det_self in Y. lra.
  - now apply (hits_once _ _ _ _ C).
Qed.
Lemma connection_sector h v g : (h < n)%nat -> connection s h v g -> v <> (0, 0) /\ sector_contains s h v.
Proof.
  intros Hh (N & C). destruct C as [(-> & ->)|C].
  - assert (D := corner_det n s h S0 Hh N). assert (Nv : vv s h <> (0, 0)) by apply (det_nonzero _ _ D). split; auto.
    apply (contains_hits n); auto. unfold FlatAngle.hits. rewrite det_self. destruct (Rle_dec 0 0); [|lra].
    destruct (Rlt_dec _ _) as [|X]; auto. exfalso. apply X. replace (pdet (vv s (fV s h)) (vv s h)) with (- pdet (vv s h) (vv s (fV s h))) by (unfold pdet; ring). lra.
  - apply hits_crosses in C as (A & B). assert (Nv : v <> (0, 0)) by (intros ->; unfold pdet in A; cbn in A; lra). split; auto.
    apply (contains_hits n); auto. unfold FlatAngle.hits. destruct (Rle_dec _ _); [|lra].
    destruct (Rlt_dec _ _) as [|X]; auto. exfalso. apply X.
    assert (E : vv s (fV s h) = padd (vv s h) (vv s (fF s h))).
    { rewrite (vv_fV n) by auto. destruct (fs_flat n s S0 h Hh N) as (Z & _). destruct (vv s h), (vv s (fF s h)), (vv s (fF s (fF s h))). unfold padd, pneg in *. cbn [fst snd] in *. injection Z as Z1 Z2. f_equal; lra. }
    rewrite E. replace (pdet (padd (vv s h) (vv s (fF s h))) v) with (- pdet v (padd (vv s h) (vv s (fF s h)))) by (unfold pdet; ring). lra.
Qed.
End unique.

Section run.
Context {K : ExactReal} (n : nat) (s : flat K).
Hypothesis S0 : flat_surface n s.
Hypothesis Nz : forall h, (h < n)%nat -> vv s h <> (0, 0).

Lemma bupper_bound (v : vec K) : pdot (vden v) (vden v) <= IZR (bupper v) < pdot (vden v) (vden v) + 1.
Proof. destruct (C18_enclosure v) as (B & C). unfold bupper. pose proof (rceil_spec K (vdot v v)) as G. rewrite den_dot in G. lra. Qed.

Lemma in_sector_run h (v : vec K) : (h < n)%nat -> fF s h <> h -> vden v <> (0, 0) ->
  exists k o, (forall f, (k <= f)%nat -> sc_in_sector f s h v = o) /\
  match o with
  | Ok x => sc_valid n x /\ sc_surface x = s /\ sc_source x = h /\ connection s h (sv n x) (sc_target x) /\ same_direction (vden v) (sv n x) /\ pdot (sv n x) (sv n x) <= IZR (bupper v)
  | Throw => forall y g, connection s h y g -> same_direction (vden v) y -> IZR (bupper v) < pdot y y
  | _ => False
  end.
Proof.
  intros Hh N Nv. destruct (C25_in_sector K n s h v S0 Hh N Nv) as (b & Eb & B). destruct b.
  - destruct (bupper_bound v) as (U1 & U2). assert (U0 : 0 <= pdot (vden v) (vden v)) by (unfold pdot; nra).
    assert (Hu : (0 <= bupper v)%Z) by (apply le_IZR; lra).
    pose proof (C34_sector_at n _ _ h (C34_bound n _ _ (bupper v) (C34_all n s S0 Nz) Hu)) as C1.
    destruct (C34_sector n _ _ v v C1 Nv Nv) as (cs & Ec & Su & Ra & C2).
    destruct (C34_search n cs _ (bupper v) C2) as (k & l & Hl & _ & Vl & Dl); [rewrite Ra; reflexivity|].
    exists k, (match l with [] => Throw | y :: _ => Ok y end). split.
    + intros f Hf. unfold sc_in_sector. rewrite Eb. cbn [bind negb]. rewrite Ec. cbn [bind]. apply search_first. now apply Hl.
    + destruct l as [|y l].
      * intros y g Cy Sy. destruct (Rlt_le_dec (IZR (bupper v)) (pdot y y)) as [|L]; auto. exfalso.
        destruct (proj1 (Dl h y g)) as (x & [] & _). split; [|apply in_sector_same; auto]. split; auto.
      * destruct (Vl y (or_introl eq_refl)) as (Vy & Sy). rewrite Su in Sy. change (cn_surface (cn_sector_at (cn_bound (make_conns s) (bupper v)) h)) with s in Sy.
        destruct (proj2 (Dl (sc_source y) (sv n y) (sc_target y))) as ((((_ & Cy) & Ly) & Ey) & Iy); [exists y; split; [now left|auto]|].
        rewrite Ey in Cy. apply in_sector_same in Iy; auto. auto 10.
  - exists 0%nat, Throw. split; [intros f _; unfold sc_in_sector; rewrite Eb; reflexivity|]. intros y g Cy (r & Hr & Ey). exfalso.
    destruct (connection_sector n s S0 h y g Hh Cy) as (Ny & Sy). assert (false = true); [|discriminate]. apply B.
    apply (contains_hits n) in Sy; auto. apply (contains_hits n); auto. subst y. unfold FlatAngle.hits in *. rewrite !det_scale in Sy.
    destruct (Rle_dec 0 (pdet (vv s h) (vden v))) as [A|A]; [|exfalso; destruct (Rle_dec 0 (r * pdet (vv s h) (vden v))); [nra|discriminate]].
    destruct (Rlt_dec (pdet (vv s (fV s h)) (vden v)) 0) as [A'|A']; auto. destruct (Rlt_dec (r * pdet (vv s (fV s h)) (vden v)) 0); [nra|]. destruct (Rle_dec 0 (r * pdet (vv s h) (vden v))); discriminate.
Qed.
End run.

