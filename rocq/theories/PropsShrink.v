(** * PropsShrink: property C48, the whole skeleton of a convex contour *)

From Coq Require Import Lia Reals.
From Verif Require Import Py Arith ArithR ArithF Euclid Lav Cluster Poly LoopSpec BisSpec ConvexSpec ConvexLoop ConvexCases ConvexStart ConvexSep ConvexRoofCases.
Set Implicit Arguments.
Unset Strict Implicit.
Local Open Scope nat_scope.

(** If the event loop handles the edge events of a strictly convex contour in the order of their
    distances, the wavefront vanishes: the skeleton has the n - 2 nodes of the roof, every node is
    equidistant from three edges, and no edge is nearer to it than its height. *)
Theorem C48_skeleton_in_order :
  forall (c : list (@edge2 RA)) fuel st0, convex_contour c -> skeleton_start [c] = Ok st0 -> in_order st0 ->
  length c + 2 * (length c - 2) < fuel ->
  exists out, raw_skeleton fuel [c] = Ok out /\ length out = length c - 2 /\
    forall a, In a out -> equidistant c (source a) (height a) /\ forall e, In e c -> (height a <= edge_dist e (source a))%R.
Proof. exact (fun c fuel st0 Hc => @convex_done c Hc fuel st0). Qed.
Print Assumptions C48_skeleton_in_order.

(** It does if the distances at which three edges meet are equal or differ by the tolerance of 0.001. *)
Theorem C48_skeleton_separated :
  forall (c : list (@edge2 RA)) fuel, convex_contour c -> separated c -> length c + 2 * (length c - 2) < fuel ->
  exists out, raw_skeleton fuel [c] = Ok out /\ length out = length c - 2 /\
    forall a, In a out -> equidistant c (source a) (height a) /\ forall e, In e c -> (height a <= edge_dist e (source a))%R.
Proof. exact (fun c fuel Hc Hs => @convex_roof c Hc Hs fuel). Qed.
Print Assumptions C48_skeleton_separated.

(** ** concrete cases *)

(** the trapezoid (0,0) (10,0) (7,4) (3,4): three of its edges meet at distance 2, 2.5 or 4 *)
Example C48_case_trapezoid : convex_contour trap /\ separated trap.
Proof. exact (conj trap_convex trap_separated). Qed.

Example C48_case_in_order : exists st0, skeleton_start [trap] = Ok st0 /\ in_order st0.
Proof. exact (match convex_starts trap_convex with ex_intro _ st0 H => ex_intro _ st0 (conj H (separated_order trap_convex trap_separated H)) end). Qed.
