(** * The half edges that a saddle connection crosses

    Model of [path] and [crossings] of /repo/libflatsurf/src/saddle_connection.cc (SC). *)
From Coq Require Import ZArith List Arith Bool.
From Verif Require Import Base HalfEdge Combinatorial ExactReal Vector FlatTri Saddle Search Translate Intersection.
Import ListNotations.

Section crossings.
Context {K : ExactReal}.

(** SC:273-279, the inner loop: the half edges that are crossed until the next vertex is found. *)
Fixpoint gather (cs : conns K) (x : sconn K) (fuel : nat) (it : iter K) : outcome (list (intersection K) * iter K) :=
  match fuel with
  | O => OutOfFuel
  | S k =>
    do (i, it) <- with_intersections cs k it;
    match i with
    | None => Ok ([], it)
    | Some (base, crossing) =>
      do b <- zc_vector (sc_surface x) (zc_neg base);
      do v <- sc_vector x;
      do (l, it) <- gather cs x k it;
      Ok (mkIntersection (sc_surface x) b crossing v :: l, it)
    end
  end.
(** SC:269-280, the outer loop. *)
Fixpoint reconstruct (cs : conns K) (x : sconn K) (fuel : nat) (it : iter K) (path : list (intersection K)) : outcome (list (intersection K)) :=
  match fuel with
  | O => OutOfFuel
  | S k =>
    do y <- sdereference cs it;
    do same <- sc_eqb y x;
    if same : bool then Ok path else
    do w <- sc_vector y;
    do v <- sc_vector x;
    do it <- skip_sector (ccw_neg (ccw w v)) it;
    do (l, it) <- gather cs x k it;
    reconstruct cs x k it (path ++ l)
  end.
(** SC:261-285, [path]. *)
Definition sc_path (fuel : nat) (x : sconn K) : outcome (list (intersection K)) :=
  let cs := cn_sector_at (make_conns (sc_surface x)) (sc_source x) in
  do it <- search_begin cs fuel;
  reconstruct cs x fuel it [].
(** SC:251-258, [crossings]. *)
Definition sc_crossings (fuel : nat) (x : sconn K) : outcome (list halfedge) :=
  do p <- sc_path fuel x; Ok (map ihalf_edge p).
End crossings.
