(** * PropsStraight: property C57, vertices within straight walls *)

From Coq Require Import Reals ZArith.
From Verif Require Import Py Arith ArithR ArithF RSpec Euclid Lav Cluster Poly BisSpec PatSpec PatCases StraightSpec StraightProofs StraightCases
  GhostCases PropsLav.
Set Implicit Arguments.
Local Open Scope nat_scope.

(** ** C57 *)
(** a vertex between two parts of a straight wall schedules no event in the beginning, and no other vertex schedules one with it *)
Theorem C57_straight_vertex_has_no_event :
  forall (contours : list (list (@edge2 RA))) (s : @slav RA) i,
  (forall c, In c contours -> closed_contour c) -> init_slav contours = Ok s -> i < length (s_vs s) ->
  straight (v_eprev (getv (s_vs s) i)) (v_enext (getv (s_vs s) i)) ->
  next_event s i = Ok None /\
  forall j ev, j < length (s_vs s) -> next_event s j = Ok (Some ev) -> ~ involves ev i.
Proof. exact (fun contours s i H1 H2 H3 H4 => conj (@straight_none contours H1 s H2 i H3 H4) (@straight_still contours H1 s H2 i H3 H4)). Qed.
Print Assumptions C57_straight_vertex_has_no_event.

(** six or more smooth corners in succession, the first, middle and last of them on a line: merging raises, whatever the skeleton *)
Theorem C57_straight_run_stops :
  forall (contours : list (list (@edge2 RA))) outer s e,
  nth_error contours 0 = Some outer -> smooth_run outer s e -> flat_run outer s e ->
  (forall sk, mergeNodeClusters sk contours = Err ZeroDivisionError) /\
  (forall fuel, exists x, skeletonize fuel contours = Err x) /\
  (forall fuel out, raw_skeleton fuel contours = Ok out -> skeletonize fuel contours = Err ZeroDivisionError).
Proof. exact (@straight_run_stops). Qed.
Print Assumptions C57_straight_run_stops.

(** so polygonize raises, and leaves verts and faces as they were *)
Theorem C57_straight_run_raises :
  forall fuel sw sch debug verts first cnt holes hgt tan faces us zb ctr contours outer s e,
  prepare (A := RA) verts first cnt holes us = Ok (zb, ctr, contours) ->
  nth_error contours 0 = Some outer -> smooth_run outer s e -> flat_run outer s e ->
  exists x, polygonize fuel sw sch debug verts first cnt holes hgt tan faces us = Outcome verts faces None (Err x).
Proof. exact (@straight_run_raises). Qed.
Print Assumptions C57_straight_run_raises.

(** a vertex in the middle of a wall changes the roof: the front and the back of it become one face *)
Theorem C57_straight_vertex_is_harmless_refuted :
  exists (verts : list (vec3 F64)) v,
  o_result (polygonize 300 (fun _ _ => false) (fun _ _ => O) false verts 0 4 None (fq 0) (fq 1) None None)
    = Ok [[3; 0; 4]; [2; 3; 4; 5]; [0; 1; 5; 4]; [1; 2; 5]]%Z /\
  nth_error verts 0 = Some (P3 0 0) /\ nth_error verts 1 = Some (P3 16 0) /\ v = P3 8 0 /\
  o_result (polygonize 300 (fun _ _ => false) (fun _ _ => O) false (firstn 1 verts ++ v :: skipn 1 verts) 0 5 None (fq 0) (fq 1) None None)
    = Ok [[4; 0; 5]; [3; 4; 5; 0; 1; 2; 6]; [2; 3; 6]]%Z.
Proof. exact (ex_intro _ box3 (ex_intro _ (P3 8 0) (conj box3_roof (conj eq_refl (conj eq_refl (conj eq_refl halved3_roof)))))). Qed.
Print Assumptions C57_straight_vertex_is_harmless_refuted.

(** ** a wall of eight parts *)
Example ex_ruler : smooth_run ruler 1 8 /\ flat_run ruler 1 8.
Proof. exact ruler_run. Qed.
Example ex_ruler_stops : (forall sk, mergeNodeClusters sk [ruler] = Err ZeroDivisionError) /\ (forall fuel, exists x, skeletonize fuel [ruler] = Err x).
Proof. exact ruler_stops. Qed.
Example ex_ruler_ieee :
  o_result (polygonize 300 (fun _ _ => false) (fun _ _ => O) false ruler3 0 11 None (fq 0) (fq 1) None None) = Err ZeroDivisionError.
Proof. exact ruler3_raises. Qed.
(** a wall of two parts *)
Example ex_halved : closed_contour halved /\ exists s, init_slav [halved] = Ok s /\ length (s_vs s) = 5 /\
  straight (v_eprev (getv (s_vs s) 1)) (v_enext (getv (s_vs s) 1)) /\ next_event s 1 = Ok None.
Proof. exact (conj halved_closed halved_still). Qed.
