(** * PropsSplit: split events are where a reflex corner meets a moving edge (C55), over exact arithmetic *)

From Coq Require Import Reals ZArith.
From Verif Require Import Py Arith ArithR ArithF Euclid Lav LavSpec LavNext ClusterSpec GeoSpec PropsLav UnitProofs BisSpec BisProofs
  SplitSpec SplitProofs SplitCases.
Set Implicit Arguments.
Open Scope nat_scope.

(** The split event that a corner of the footprint schedules in the beginning: the corner is reflex, the edge is not one of its own,
    both have moved by the same distance d when they meet in b, and b is within the strip that the edge sweeps over
    (up to the tolerance EPSILON of the code). *)
Theorem C55_scheduled_split_is_real :
  forall (contours : list (list (@edge2 RA))) (s : @slav RA) i d b id e,
  (forall c, In c contours -> closed_contour c) ->
  (forall c e1 e2, In c contours -> consecutive c e1 e2 -> plain_corner (concat contours) e1 e2) ->
  init_slav contours = Ok s -> i < length (s_vs s) -> next_event s i = Ok (Some (SplitEv d b id e)) ->
  id = i /\ exists c e1 e2 c' e0 e3, In c contours /\ consecutive c e1 e2 /\ v_point (getv (s_vs s) i) = ep1 e2 /\ (turn_sine e1 e2 < 0)%R /\
    In c' contours /\ successive c' e0 e e3 /\ eid e <> eid e1 /\ eid e <> eid e2 /\ enorm e <> enorm e3 /\
    meet_at e1 e2 e b d /\ swept (2 / 100000) (2 / 10 ^ 17) e0 e e3 b.
Proof. exact (fun contours s i d b id e H1 H2 H3 H4 H5 => @scheduled_split contours H1 s H3 i d b id e H2 H4 H5). Qed.
Print Assumptions C55_scheduled_split_is_real.

(** Right-angled corners included: if no line of an edge crosses those of the corner's own edges nearer than r, except in the corner, the
    corner has moved by up to 2 / (100 r) more than the edge when they are said to meet. *)
Theorem C55_scheduled_split_is_near :
  forall (contours : list (list (@edge2 RA))) (s : @slav RA) r i d b id e,
  (forall c, In c contours -> closed_contour c) -> (1 / 10 <= r)%R ->
  (forall c e1 e2, In c contours -> consecutive c e1 e2 -> (turn_sine e1 e2 < 0)%R -> apart r (concat contours) e1 e2) ->
  init_slav contours = Ok s -> i < length (s_vs s) -> next_event s i = Ok (Some (SplitEv d b id e)) ->
  id = i /\ exists c e1 e2 c' e0 e3, In c contours /\ consecutive c e1 e2 /\ v_point (getv (s_vs s) i) = ep1 e2 /\ (turn_sine e1 e2 < 0)%R /\
    In c' contours /\ successive c' e0 e e3 /\ eid e <> eid e1 /\ eid e <> eid e2 /\ enorm e <> enorm e3 /\
    nearly_meet_at r e1 e2 e b d /\ swept (2 / 100000) (2 / 10 ^ 17) e0 e e3 b.
Proof. exact (fun contours s r i d b id e H1 H2 H3 H4 H5 H6 => @scheduled_split_near contours H1 s H4 r i d b id e H2 H3 H5 H6). Qed.
Print Assumptions C55_scheduled_split_is_near.

(** It is not exact for right-angled corners: the corner of an L has moved 4/1000 more than the wall 2 away that it meets, which is above the
    0.001 within which events count as simultaneous. *)
Theorem C55_right_angle_exact_refuted :
  exists s e1 d b id e, init_slav [corridor] = Ok s /\ nth_error corridor 2 = Some e1 /\
  next_event s 3 = Ok (Some (SplitEv d b id e)) /\ eid e = 5 /\ nltb (nadd d (lit (a := F64) 4 1000)) (line_distance (Line2_edge e1) b) = true.
Proof. exact corridor_spec. Qed.
Print Assumptions C55_right_angle_exact_refuted.

(** No meeting of a reflex corner with an edge is missed: the event that the corner schedules is at most as far away as any point
    in which the corner meets an edge in the strip that the edge sweeps over. For a right-angled corner this holds for the edges whose
    line crosses those of the corner's own edges behind the corner. *)
Theorem C55_no_split_missed :
  forall (contours : list (list (@edge2 RA))) (s : @slav RA) i,
  (forall c, In c contours -> closed_contour c) -> init_slav contours = Ok s -> i < length (s_vs s) ->
  exists c e1 e2, In c contours /\ consecutive c e1 e2 /\ v_point (getv (s_vs s) i) = ep1 e2 /\
  ((turn_sine e1 e2 < 0)%R ->
   forall c' e0 e e3 q d, In c' contours -> successive c' e0 e e3 -> eid e <> eid e1 -> eid e <> eid e2 ->
   (-1 + 1 / 100000 <= turn_sine e1 e2)%R \/ behind e1 e2 e -> enorm e <> enorm e3 -> clear_of e1 e2 e -> meet_at e1 e2 e q d -> swept 0 0 e0 e e3 q ->
   exists ev p, next_event s i = Ok (Some ev) /\ event_point ev = Some p /\ (euclid_dist (ep1 e2) p <= euclid_dist (ep1 e2) q)%R).
Proof. exact (fun contours s i H1 H2 H3 => @no_split_missed contours H1 s H2 i H3). Qed.
Print Assumptions C55_no_split_missed.

(** Without [clear_of] this is false: a corner 3 above the opposite edge, 6000 from the origin. The point [neck_point] is 4/3 from the three
    edges and 5/3 from the corner, but the corner schedules an event more than 1000 times as far away. *)
Theorem C55_narrow_neck_refuted :
  exists s e1 e2 e ev p, init_slav [neck] = Ok s /\ nth_error neck 2 = Some e1 /\ nth_error neck 3 = Some e2 /\ nth_error neck 0 = Some e /\
  v_reflex (getv (s_vs s) 3) = true /\ veq (v_point (getv (s_vs s) 3)) (ep1 e2) = true /\
  (forall f, In f [e1; e2; e] -> within (lit (a := F64) 1 1000) (line_distance (Line2_edge f) neck_point) (lit (a := F64) 4 3) = true) /\
  next_event s 3 = Ok (Some ev) /\ event_point ev = Some p /\
  nltb (nmul (lit (a := F64) 1000 1) (vlen (vsub neck_point (ep1 e2)))) (vlen (vsub p (ep1 e2))) = true.
Proof. exact neck_missed. Qed.
Print Assumptions C55_narrow_neck_refuted.

(** ** concrete cases *)

(** a rectangle with a notch: the hypotheses on the contours hold, and the corner in the notch schedules a split event *)
Example ex_notched_split :
  closed_contour notched /\ (forall c e1 e2, In c [notched] -> consecutive c e1 e2 -> plain_corner (concat [notched]) e1 e2) /\
  exists s d b e, init_slav [notched] = Ok s /\ 3 < length (s_vs s) /\ v_point (getv (s_vs s) 3) = rvec 0 4 /\
    next_event s 3 = Ok (Some (SplitEv d b 3 e)).
Proof. exact (conj notched_closed (conj notched_plain notched_split)). Qed.

(** and it meets the bottom edge at height 16/9, with all hypotheses of the second theorem *)
Example ex_notched_meets :
  (-1 + 1 / 100000 <= turn_sine (side 2) (side 3) < 0)%R /\ successive notched (side 4) (side 0) (side 1) /\
  clear_of (side 2) (side 3) (side 0) /\ meet_at (side 2) (side 3) (side 0) (rvec 0 (16 / 9)) (16 / 9) /\
  swept 0 0 (side 4) (side 0) (side 1) (rvec 0 (16 / 9)).
Proof. exact notched_meets. Qed.

(** an L with a right-angled corner meets the hypotheses for r = 1, and the corner schedules a split event *)
Example ex_ell_split :
  closed_contour ell /\ (forall c e1 e2, In c [ell] -> consecutive c e1 e2 -> (turn_sine e1 e2 < 0)%R -> apart 1 (concat [ell]) e1 e2) /\
  (turn_sine (wall 2) (wall 3) = -1)%R /\
  exists s d b e, init_slav [ell] = Ok s /\ 3 < length (s_vs s) /\ v_point (getv (s_vs s) 3) = rvec 2 2 /\
    next_event s 3 = Ok (Some (SplitEv d b 3 e)).
Proof. exact (conj ell_closed (conj ell_apart (conj ell_sine_3 ell_split))). Qed.

(** the bottom edge of the L passes behind the corner *)
Example ex_ell_meets :
  behind (wall 2) (wall 3) (wall 0) /\ clear_of (wall 2) (wall 3) (wall 0) /\ meet_at (wall 2) (wall 3) (wall 0) (rvec 1 1) 1 /\
  swept 0 0 (wall 5) (wall 0) (wall 1) (rvec 1 1).
Proof. exact (conj ell_behind (conj ell_clear (conj ell_meet ell_swept))). Qed.
