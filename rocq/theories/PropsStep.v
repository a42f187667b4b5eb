(** * PropsStep: property C53, what an event does to the wavefront *)

From Verif Require Import Py Arith ArithF Euclid Lav Cluster LavSpec LoopSpec WaveSpec PropsLav BisCases WaveCases
  StepSpec StepProofs StepDormer StepCases.
Set Implicit Arguments.
Unset Strict Implicit.
Local Open Scope nat_scope.

(** Every event of the loop rewrites the wavefront in one of seven ways: it comes too late, misses,
    lets three vertices meet in a peak or two neighbours meet, cuts a ring in two or joins two rings. *)
Theorem C53_events_rewrite_the_wavefront :
  forall (A : arith) (contours : list (list (@edge2 A))),
  distinct_starts (concat contours) -> (forall c, In c contours -> 3 <= length c) -> detectDormers contours = Ok [] ->
  forall st0 st e t k, skeleton_start contours = Ok st0 -> history st0 st (e :: t) k -> current (lo_slav st) e ->
  exists s' arcs new F F',
    handle_event (lo_slav st) e = Ok (s', arcs, new) /\
    shows (lo_slav st) F /\ shows s' F' /\ keeps (lo_slav st) s' /\ effect (lo_slav st) F e s' F' arcs new.
Proof. exact @history_effect. Qed.
Print Assumptions C53_events_rewrite_the_wavefront.

(** A dormer event takes the four corners of the dormer out of their ring, adds a node at the front
    of the dormer and one where it meets the roof, and schedules nothing. *)
Theorem C53_dormer_event :
  forall (A : arith) (s : @slav A) d dp vp dn vn de ipe va vb a b rest G p,
  woven s ((vp :: a :: b :: vn :: rest) :: G) -> rest <> [] ->
  va < length (s_vs s) -> vb < length (s_vs s) ->
  line_intersect (v_bis (getv (s_vs s) vp)) (v_bis (getv (s_vs s) vn)) = Some p ->
  exists s',
    handle_event s (DormerEv d dp vp dn vn de ipe va vb) =
      Ok (s', [Subtree ipe de [spot s va; spot s vb; p]; Subtree p (ndiv (nadd dp dn) twoN) [spot s vp; spot s vn]], []) /\
    woven s' (rest :: G) /\ keeps s s'.
Proof. exact @dormer_effect. Qed.
Print Assumptions C53_dormer_event.

(** It is not true that every vertex an event creates is looked after: the second of the two vertices
    of a join has a next event, but neither that nor any other event with this vertex is pending. *)
Theorem C53_new_vertices_scheduled_refuted :
  exists (contours : list (list (@edge2 F64))) st0 st e t k s' arcs new n e',
    (distinct_starts (concat contours) /\ (forall c, In c contours -> 3 <= length c) /\ detectDormers contours = Ok []) /\
    skeleton_start contours = Ok st0 /\ history st0 st (e :: t) k /\ current (lo_slav st) e /\
    handle_event (lo_slav st) e = Ok (s', arcs, new) /\
    length (s_vs (lo_slav st)) <= n /\ v_valid (getv (s_vs s') n) = true /\ next_event s' n = Ok (Some e') /\
    (forall e'', In e'' (t ++ put_all (lo_queue st) new) -> looks_after n e'' = false).
Proof. exact yard_refutes. Qed.
Print Assumptions C53_new_vertices_scheduled_refuted.

(** a courtyard meets the hypotheses, and on it late events, peaks, meetings, cuts and joins occur *)
Example C53_case_yard :
  (distinct_starts (concat yard) /\ (forall c, In c yard -> 3 <= length c) /\ detectDormers yard = Ok []) /\
  forall what, In what [0; 2; 3; 4; 5] ->
  exists st0 st k e t, skeleton_start yard = Ok st0 /\ history st0 st (e :: t) k /\ current (lo_slav st) e /\ kind (st, k, e, t) = what.
Proof. exact yard_case. Qed.

(** a wall with a dormer, in the state the loop starts with *)
Example C53_case_dormer : exists st d dp dn de ipe p,
  skeleton_start [lucarne] = Ok st /\ In (DormerEv d dp 0 dn 3 de ipe 1 2) (lo_queue st) /\
  woven (lo_slav st) [[0; 1; 2; 3; 4; 5; 6; 7]] /\ 2 < length (s_vs (lo_slav st)) /\
  line_intersect (v_bis (getv (s_vs (lo_slav st)) 0)) (v_bis (getv (s_vs (lo_slav st)) 3)) = Some p.
Proof. exact lucarne_case. Qed.
