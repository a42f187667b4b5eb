(** * PropsPlan: property C64, the plan of a roof does not depend on its slope and levels *)

From Coq Require Import Reals ZArith List.
From Verif Require Import Py Arith ArithR ArithF Euclid Graph Lav Cluster Poly FootSpec SameCases PlanSpec PlanProofs PlanCases.
Set Implicit Arguments.
Unset Strict Implicit.
Local Open Scope nat_scope.

(** Two calls with slopes, for vertices (and unit vectors) that are the same in plan: the same faces or the same exception, the same
    skeleton, and nodes at the same places in plan. *)
Theorem C64_slopes :
  forall (A : arith) (verts verts' : list (vec3 A)) (us us' : option (list (vec3 A))), same_plan verts verts' -> same_plan_opt us us' ->
  forall (fuel : nat) (sw : Z -> Z -> bool) (sch : schedule) (dbg : bool) (first cnt : Z) (holes : option (list (Z * Z))) (faces : option (list (list Z)))
    (h t h' t' : num A), ntruth h = false -> ntruth h' = false ->
  same_in_plan (polygonize fuel sw sch dbg verts first cnt holes h t faces us) (polygonize fuel sw sch dbg verts' first cnt holes h' t' faces us').
Proof. exact (@plan_slopes). Qed.
Print Assumptions C64_slopes.

(** A call with a slope and one with any height: the same, unless the second one ends before it appends anything: with ValueError if there is
    no node, with ZeroDivisionError if a node has the height 0. *)
Theorem C64_height :
  forall (A : arith) (verts verts' : list (vec3 A)) (us us' : option (list (vec3 A))), same_plan verts verts' -> same_plan_opt us us' ->
  forall (fuel : nat) (sw : Z -> Z -> bool) (sch : schedule) (dbg : bool) (first cnt : Z) (holes : option (list (Z * Z))) (faces : option (list (list Z)))
    (h t h' t' : num A), ntruth h = false ->
  let o := polygonize fuel sw sch dbg verts first cnt holes h t faces us in
  let o' := polygonize fuel sw sch dbg verts' first cnt holes h' t' faces us' in
  same_in_plan o o' \/
  o_verts o' = verts' /\ o_faces o' = faces /\ o_debug o' = o_debug o /\
  (o_result o' = Err ValueError /\ o_verts o = verts \/
   o_result o' = Err ZeroDivisionError /\
   exists sk a, o_debug (polygonize fuel sw sch true verts first cnt holes h t faces us) = Some sk /\ In a sk /\ neqb (height a) zeroN = true).
Proof. exact (@plan_height). Qed.
Print Assumptions C64_height.

(** Every call with a height that does not end that way is a call with some slope, to the last bit. *)
Theorem C64_height_is_a_slope :
  forall (A : arith) (verts : list (vec3 A)) (us : option (list (vec3 A))) (fuel : nat) (sw : Z -> Z -> bool) (sch : schedule) (dbg : bool)
    (first cnt : Z) (holes : option (list (Z * Z))) (faces : option (list (list Z))) (h t h0 : num A), ntruth h0 = false ->
  let o := polygonize fuel sw sch dbg verts first cnt holes h t faces us in
  (exists t', o = polygonize fuel sw sch dbg verts first cnt holes h0 t' faces us) \/
  o_verts o = verts /\ o_faces o = faces /\ (o_result o = Err ValueError \/ o_result o = Err ZeroDivisionError).
Proof. exact (@height_is_slope). Qed.
Print Assumptions C64_height_is_a_slope.

(** Of all levels only that of the first vertex is read. *)
Theorem C64_only_the_first_level :
  forall (A : arith) (verts verts' : list (vec3 A)) (us us' : option (list (vec3 A))), same_plan verts verts' -> same_plan_opt us us' ->
  forall (fuel : nat) (sw : Z -> Z -> bool) (sch : schedule) (dbg : bool) (first cnt : Z) (holes : option (list (Z * Z))) (faces : option (list (list Z)))
    (h t : num A) w w', py_get verts first = Ok w -> py_get verts' first = Ok w' -> wz w = wz w' ->
  let o := polygonize fuel sw sch dbg verts first cnt holes h t faces us in
  let o' := polygonize fuel sw sch dbg verts' first cnt holes h t faces us' in
  exists nodes, o_verts o = verts ++ nodes /\ o_verts o' = verts' ++ nodes /\
    o_result o = o_result o' /\ o_faces o = o_faces o' /\ o_debug o = o_debug o'.
Proof. exact (@plan_level). Qed.
Print Assumptions C64_only_the_first_level.

(** Over the reals each node rises over the first vertex in proportion to the slope. *)
Theorem C64_rise :
  forall (verts verts' : list (vec3 RA)) (us us' : option (list (vec3 RA))) (fuel : nat) (sw : Z -> Z -> bool) (sch : schedule) (dbg : bool)
    (first cnt : Z) (holes : option (list (Z * Z))) (faces : option (list (list Z))) (t t' : R) w w',
  same_plan verts verts' -> same_plan_opt us us' -> py_get verts first = Ok w -> py_get verts' first = Ok w' ->
  let o := polygonize fuel sw sch dbg verts first cnt holes 0%R t faces us in
  let o' := polygonize fuel sw sch dbg verts' first cnt holes 0%R t' faces us' in
  exists nodes nodes', o_verts o = verts ++ nodes /\ o_verts o' = verts' ++ nodes' /\
    Forall2 (fun v v' : vec3 RA => wx v = wx v' /\ wy v = wy v' /\ ((wz v - wz w) * t' = (wz v' - wz w') * t)%R) nodes nodes'.
Proof. exact plan_rise. Qed.
Print Assumptions C64_rise.

(** ** concrete cases *)

(** the T-shaped footprint, level and rough, with two slopes and with a height, in binary64 *)
Example C64_case_levels : same_plan (at_levels tee (repeat 0%Z 8)) (at_levels tee rough).
Proof. exact tee_plan. Qed.

Example C64_case_roofs : o_result (leveled tee (repeat 0%Z 8) 0 1) = Ok tee_roof /\ o_result (leveled tee rough 0 3) = Ok tee_roof /\
  o_result (leveled tee rough 5 0) = Ok tee_roof.
Proof. exact tee_leveled. Qed.

(** both ways to end early *)
Example C64_case_no_node : o_result (leveled clockwise [0; 0; 0; 0]%Z 0 1) = Ok [] /\ o_result (leveled clockwise [0; 0; 0; 0]%Z 5 1) = Err ValueError.
Proof. exact clockwise_runs. Qed.

Example C64_case_flat_node : (exists fs, o_result (leveled folded [0; 0; 0; 0]%Z 0 1) = Ok fs) /\
  o_result (leveled folded [0; 0; 0; 0]%Z 5 1) = Err ZeroDivisionError.
Proof. exact folded_runs. Qed.
