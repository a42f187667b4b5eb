(** * PropsConvex: property C47, convex contours *)

From Coq Require Import Lia ZArith.
From Verif Require Import Py Arith ArithR ArithF Euclid Lav Cluster Poly LoopSpec WaveSpec BisSpec PropsLav ConvexSpec ConvexLoop ConvexCases
  FootSpec WaveCases FootCases.
Set Implicit Arguments.
Unset Strict Implicit.
Local Open Scope nat_scope.

(** For a strictly convex contour, in exact arithmetic, whatever happens in the event loop is an
    ordinary history without joins: all events are edge events between neighbours, and no vertex of
    the wavefront is ever reflex. *)
Theorem C47_only_edge_events :
  forall (c : list (@edge2 RA)) st0 st pend, convex_contour c -> skeleton_start [c] = Ok st0 -> reach st0 st pend ->
  history st0 st pend 0 /\
  (forall e, In e (pend ++ lo_queue st) -> exists d p va vb, e = EdgeEv d p va vb) /\
  (forall i, i < length (s_vs (lo_slav st)) -> v_reflex (getv (s_vs (lo_slav st)) i) = false).
Proof. exact (fun c st0 st pend Hc => @convex_reach c Hc st0 st pend). Qed.
Print Assumptions C47_only_edge_events.

(** Every node is equidistant from three edges. *)
Theorem C47_nodes_equidistant :
  forall (c : list (@edge2 RA)) st0 st pend, convex_contour c -> skeleton_start [c] = Ok st0 -> reach st0 st pend ->
  forall a, In a (lo_out st) -> equidistant c (source a) (height a).
Proof. exact (fun c st0 st pend Hc => @convex_nodes c Hc st0 st pend). Qed.
Print Assumptions C47_nodes_equidistant.

(** The skeleton is computed without exception in a bounded number of rounds, and has at most n - 2 nodes. *)
Theorem C47_no_exception :
  forall (c : list (@edge2 RA)) fuel, convex_contour c -> length c + 2 * (length c - 2) < fuel ->
  exists out, raw_skeleton fuel [c] = Ok out /\ length out <= length c - 2.
Proof. exact (fun c fuel Hc => @convex_ends c Hc fuel). Qed.
Print Assumptions C47_no_exception.

(** The wavefront of a convex contour need not vanish, and two walls may get one face: events
    within the tolerance of 0.001 are handled before the events they cause. *)
Theorem C47_face_per_wall_refuted :
  exists ps fs f, convex_foot ps /\ o_result (roof_of 100000 ps) = Ok fs /\ In f fs /\
  has_wall (Z.of_nat (length ps)) 0 f /\ has_wall (Z.of_nat (length ps)) 6 f.
Proof. exact two_walls. Qed.
Print Assumptions C47_face_per_wall_refuted.

(** ** concrete cases *)

(** the trapezoid (0,0) (10,0) (7,4) (3,4) *)
Example C47_case_trapezoid : convex_contour trap /\ exists st0, skeleton_start [trap] = Ok st0.
Proof. exact (conj trap_convex (convex_starts trap_convex)). Qed.

(** the wavefront of the counterexample: 6 nodes instead of 7, one LAV remains *)
Example C47_case_remains : summary (run [apse9_contour]) = (1, 6, 0, 1).
Proof. exact apse9_run. Qed.
