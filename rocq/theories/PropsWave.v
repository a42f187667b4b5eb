(** * PropsWave: property C40, the wavefront stays intact *)

From Coq Require Import Lia.
From Verif Require Import Py Arith ArithF Euclid Lav Cluster LavSpec LoopSpec WaveSpec LavWave WaveCases PropsLav BisCases FootSpec FootCases.
Set Implicit Arguments.
Unset Strict Implicit.
Local Open Scope nat_scope.

(** Every history keeps the wavefront made of rings, and every node costs capacity: n - 2 for each
    contour at the start, 4 more for each join of two LAVs. *)
Theorem C40_wavefront_intact :
  forall (A : arith) (contours : list (list (@edge2 A))),
  distinct_starts (concat contours) -> (forall c, In c contours -> 3 <= length c) -> detectDormers contours = Ok [] ->
  forall st0 st pend k, skeleton_start contours = Ok st0 -> history st0 st pend k ->
  exists R, intact (lo_slav st) R /\
    length (lo_out st) + capacity (lo_slav st) R = list_sum (map (fun c => length c - 2) contours) + 4 * k.
Proof. exact @wavefront_intact. Qed.
Print Assumptions C40_wavefront_intact.

(** No current event raises an exception. *)
Theorem C40_no_exception :
  forall (A : arith) (contours : list (list (@edge2 A))),
  distinct_starts (concat contours) -> (forall c, In c contours -> 3 <= length c) -> detectDormers contours = Ok [] ->
  forall st0 st e t k, skeleton_start contours = Ok st0 -> history st0 st (e :: t) k -> current (lo_slav st) e ->
  exists r, handle_event (lo_slav st) e = Ok r.
Proof. exact @history_no_exception. Qed.
Print Assumptions C40_no_exception.

(** If all events are current and at most K joins happen, the event loop ends, after a number of
    rounds that only depends on the number of vertices and on K, and without exception. *)
Theorem C40_loop_ends :
  forall (A : arith) (contours : list (list (@edge2 A))),
  distinct_starts (concat contours) -> (forall c, In c contours -> 3 <= length c) -> detectDormers contours = Ok [] ->
  forall st0 K, skeleton_start contours = Ok st0 ->
  (forall st e t k, history st0 st (e :: t) k -> current (lo_slav st) e) ->
  (forall st pend k, history st0 st pend k -> k <= K) ->
  forall fuel, length (concat contours) + 2 * (list_sum (map (fun c => length c - 2) contours) + 4 * K) < fuel ->
  exists st k, event_loop fuel st0 = Ok st /\ history st0 st [] k.
Proof. exact @wavefront_ends. Qed.
Print Assumptions C40_loop_ends.

(** A single contour with n vertices, no joins: at most n - 2 nodes, exactly n - 2 once the
    wavefront has vanished. *)
Theorem C40_single_contour :
  forall (A : arith) (c : list (@edge2 A)) st0 st pend,
  distinct_starts c -> 3 <= length c -> detectDormers [c] = Ok [] ->
  skeleton_start [c] = Ok st0 -> history st0 st pend 0 ->
  length (lo_out st) <= length c - 2 /\ (s_act (lo_slav st) = [] -> length (lo_out st) = length c - 2).
Proof. exact @single_contour. Qed.
Print Assumptions C40_single_contour.

(** a quadrilateral with a hole meets the hypotheses, with one join and 2 + 2 + 4 nodes *)
Example C40_case_hole :
  (distinct_starts (concat yard) /\ (forall c, In c yard -> 3 <= length c) /\ detectDormers yard = Ok []) /\
  exists st0 st, skeleton_start yard = Ok st0 /\ history st0 st [] 1 /\ length (lo_out st) = 8 /\ s_act (lo_slav st) = [] /\
    (forall st' e t k', history st0 st' (e :: t) k' -> current (lo_slav st') e) /\
    (forall st' pend k', history st0 st' pend k' -> k' <= 1).
Proof. exact yard_history. Qed.

(** a contour with a reflex corner, no joins, 5 - 2 nodes *)
Example C40_case_single :
  (distinct_starts dart /\ 3 <= length dart /\ detectDormers [dart] = Ok []) /\
  exists st0 st, skeleton_start [dart] = Ok st0 /\ history st0 st [] 0 /\ length (lo_out st) = 3 /\ s_act (lo_slav st) = [] /\
    (forall st' e t k', history st0 st' (e :: t) k' -> current (lo_slav st') e) /\
    (forall st' pend k', history st0 st' pend k' -> k' <= 0).
Proof. exact dart_history. Qed.

(** Without the condition on joins the bound is wrong: events at the same place can cut the
    wavefront of a single contour in two and join the parts again. *)
Theorem C40_single_contour_bound_refuted :
  exists (c : list (@edge2 F64)) st0 st k, distinct_starts c /\ 3 <= length c /\ detectDormers [c] = Ok [] /\
    skeleton_start [c] = Ok st0 /\ history st0 st [] k /\ length c - 2 < length (lo_out st).
Proof. exact rejoined. Qed.
Print Assumptions C40_single_contour_bound_refuted.

(** The histories above do not cover everything: a simple footprint without dormers reaches an edge
    event whose vertices are valid but no longer neighbours. *)
Theorem C40_events_current_refuted :
  exists ps st0 st e t k, simple_foot ps /\ detectDormers [contour_of ps] = Ok [] /\
  skeleton_start [contour_of ps] = Ok st0 /\ history st0 st (e :: t) k /\ ~ current (lo_slav st) e.
Proof. exact stale_event. Qed.
Print Assumptions C40_events_current_refuted.

(** A simple footprint with a dormer makes the event loop raise. *)
Theorem C40_no_exception_dormers_refuted :
  exists ps, simple_foot ps /\ raw_skeleton 200 [contour_of ps] = Err RuntimeError.
Proof. exact loop_raises. Qed.
Print Assumptions C40_no_exception_dormers_refuted.
