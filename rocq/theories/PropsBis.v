(** * PropsBis: properties C31, C32 and C46, bisectors and equidistance *)

From Coq Require Import Reals Lra ZArith.
From Verif Require Import Py Arith ArithR ArithF RSpec Euclid Lav Cluster Poly LoopSpec GeoSpec BisSpec BisStart BisCases
  FootSpec FootCases SplitCases.
Set Implicit Arguments.
Unset Strict Implicit.
Local Open Scope nat_scope.

(** ** C31 *)
Theorem C31_bisectors :
  forall (contours : list (list (@edge2 RA))) (s : @slav RA) i,
  (forall c, In c contours -> closed_contour c) -> init_slav contours = Ok s -> i < length (s_vs s) ->
  let v := getv (s_vs s) i in
  exists c e1 e2, In c contours /\ consecutive c e1 e2 /\ v_point v = ep1 e2 /\
    (v_reflex v = true <-> orient (ep1 e1) (ep1 e2) (ep2 e2) < 0)%R /\
    lp (v_bis v) = ep1 e2 /\ l_is_ray (v_bis v) = true /\
    forall q, on_lin (v_bis v) q ->
      (edge_dist e1 q = edge_dist e2 q /\ 0 <= edge_dist e1 q /\
       (orient (ep1 e1) (ep1 e2) (ep2 e2) <> 0 -> q <> ep1 e2 -> 0 < edge_dist e1 q))%R.
Proof. exact contour_bisectors. Qed.
Print Assumptions C31_bisectors.

(** ** C32 *)
Theorem C32_edge_event :
  forall (va vb : @lavertex RA) e p,
  directed (v_eprev va) -> directed e -> directed (v_enext vb) -> v_enext va = e -> v_eprev vb = e ->
  bisects (v_bis va) (v_eprev va) e -> bisects (v_bis vb) e (v_enext vb) ->
  line_intersect (v_bis va) (v_bis vb) = Some p ->
  edge_dist (v_eprev va) p = edge_dist e p /\ edge_dist e p = edge_dist (v_enext vb) p /\
  line_distance (Line2_edge e) p = Rabs (edge_dist e p) /\
  forall id dirs fc, bisects (v_bis (mk_vertex (A := RA) id p (v_eprev va) (v_enext vb) dirs fc)) (v_eprev va) (v_enext vb).
Proof. exact edge_event_equidistant. Qed.
Print Assumptions C32_edge_event.

(** in the event loop: all vertices, and all the edge events that are waiting *)
Theorem C32_edge_events_in_loop :
  forall (contours : list (list (@edge2 RA))) st0 st pend,
  (forall c, In c contours -> closed_contour c) ->
  (forall c e1 e2, In c contours -> consecutive c e1 e2 -> plain_corner (concat contours) e1 e2) ->
  detectDormers contours = Ok [] -> skeleton_start contours = Ok st0 -> reach st0 st pend ->
  let vs := s_vs (lo_slav st) in
  (forall i, length (concat contours) <= i -> i < length vs -> v_reflex (getv vs i) = false) ->
  (forall i, i < length vs -> bisects (v_bis (getv vs i)) (v_eprev (getv vs i)) (v_enext (getv vs i))) /\
  forall d p va vb, In (EdgeEv d p va vb) (pend ++ lo_queue st) ->
    edge_dist (v_eprev (getv vs va)) p = edge_dist (v_enext (getv vs vb)) p /\ equidistant (concat contours) p d.
Proof. exact events_equidistant. Qed.
Print Assumptions C32_edge_events_in_loop.

(** ** C46 *)
Theorem C46_nodes_equidistant :
  forall contours : list (list (@edge2 RA)),
  (forall c, In c contours -> closed_contour c) ->
  (forall c e1 e2, In c contours -> consecutive c e1 e2 -> plain_corner (concat contours) e1 e2) ->
  detectDormers contours = Ok [] ->
  forall st0 st pend, skeleton_start contours = Ok st0 -> reach st0 st pend ->
  (forall i, length (concat contours) <= i -> i < length (s_vs (lo_slav st)) ->
     v_reflex (getv (s_vs (lo_slav st)) i) = false) ->
  forall a, In a (lo_out st) -> equidistant (concat contours) (source a) (height a).
Proof. exact nodes_equidistant. Qed.
Print Assumptions C46_nodes_equidistant.

(** without the hypothesis on the corners: an L-shaped contour with a right-angled reflex corner *)
Theorem C46_right_angled_corner_refuted :
  exists (c : list (@edge2 F64)) fuel out a, raw_skeleton fuel [c] = Ok out /\ In a out /\
  length (edges_at c a (lit (a := F64) 1 1000)) < 3.
Proof. exact bent_node_off. Qed.
Print Assumptions C46_right_angled_corner_refuted.

(** Without the condition on the created vertices: a rectilinear footprint with a face on the wall x = 16 one node of
    which lies below 3 and more than 8 away from the wall, although the slope is 45 degrees. *)
Theorem C46_slope_of_faces_refuted :
  exists ps fs f k v, simple_foot ps /\ o_result (roof_of 1 ps) = Ok fs /\ In f fs /\
  has_wall (Z.of_nat (length ps)) 5 f /\ nth_error ps 5 = Some (16, -2)%Z /\ nth_error ps 6 = Some (16, 4)%Z /\
  In (Z.of_nat k) f /\ nth_error (o_verts (roof_of 1 ps)) k = Some v /\
  nltb (wx v) (lit (a := F64) 8 1) = true /\ nltb (wz v) (lit (a := F64) 3 1) = true.
Proof. exact wrong_slope. Qed.
Print Assumptions C46_slope_of_faces_refuted.

(** ** concrete cases *)

(** the triangle (0,0) (4,0) (0,3) meets the hypotheses on the contours *)
Example ex_triangle :
  closed_contour tri /\ (forall e1 e2, consecutive tri e1 e2 -> plain_corner (concat [tri]) e1 e2) /\
  detectDormers [tri] = Ok [].
Proof. exact (conj tri_closed (conj tri_plain tri_dormers)). Qed.

(** and so does a rectangle with a notch, whose corner in the notch is reflex *)
Example ex_notched :
  closed_contour notched /\ (forall c e1 e2, In c [notched] -> consecutive c e1 e2 -> plain_corner (concat [notched]) e1 e2) /\
  detectDormers [notched] = Ok [] /\ consecutive notched (side 2) (side 3) /\ (turn_sine (side 2) (side 3) = - (24 / 25))%R.
Proof. exact notched_meets_all. Qed.

(** a contour with a reflex corner: 3 nodes, one contour vertex is reflex, no created vertex is, and all nodes are
    equidistant from at least three edges up to 1e-5 *)
Example ex_dart :
  match skeleton_start [dart] with
  | Ok st0 => match event_loop 100 st0 with
    | Ok st => (length (lo_out st), existsb (@v_reflex F64) (firstn 5 (s_vs (lo_slav st))),
                existsb (@v_reflex F64) (skipn 5 (s_vs (lo_slav st))),
                forallb (fun a => Nat.leb 3 (length (edges_at dart a (lit (a := F64) 1 100000)))) (lo_out st))
    | Err _ => (0, true, true, false) end
  | Err _ => (0, true, true, false) end = (3, true, false, true).
Proof. exact dart_nodes. Qed.
