(** * PropsTest: what the tests of the project assert (property C66) *)

From Coq Require Import Reals.
From Verif Require Import Py Arith ArithR ArithF Euclid Graph Lav Cluster Poly GeoSpec BisSpec TriSpec ConvexSpec FootSpec FootCases RoofSpec WholeCases ConvexCases ConvexRoofCases TestSpec TestData TestProofs TestCases.
Set Implicit Arguments.
Unset Strict Implicit.
Local Open Scope nat_scope.

(** Over every convex footprint as in C49 the assertions of the tests hold: polygonize returns, every face has three or
    more corners and none twice, and checkEdgeCrossing finds nothing.  Indeed two links of the skeleton that are not
    parallel have no point in common but end points. *)
Theorem C66_convex :
  forall (verts : list (vec3 RA)) (first : Z), (0 <= first)%Z -> forall c : list (@edge2 RA), footprint verts first c ->
  convex_contour c -> separated c -> simple_roof c -> RoofSpec.apart c -> blunt c ->
  forall (fuel : nat) (sw : Z -> Z -> bool) (sch : schedule) (holes : option (list (Z * Z))) (hgt tan : R),
  length c + 2 * (length c - 2) < fuel -> holes = None \/ holes = Some [] ->
  let o := polygonize fuel sw sch true verts first (Z.of_nat (length c)) holes hgt tan None None in
  passes o /\ forall sk, o_debug o = Some sk -> links_clear sk.
Proof. exact (@convex_passes). Qed.
Print Assumptions C66_convex.

(** They do not hold for every simple footprint: over one of ten corners two pairs of links cross, and a face visits a
    corner more than once. *)
Theorem C66_any_footprint_refuted :
  exists (ps : list (Z * Z)) (den : positive) fs sk, simple_foot ps /\
  o_result (tested den ps) = Ok fs /\ o_debug (tested den ps) = Some sk /\ checkEdgeCrossing sk = 2 /\ exists f, In f fs /\ ~ NoDup f.
Proof. exact any_refuted. Qed.
Print Assumptions C66_any_footprint_refuted.

(** ** concrete cases *)

(** 12 tests of the project, with their own numbers, pass in the model *)
Example C66_project_tests : length suite = 12 /\ forall t, In t suite -> passes (run 1000 t).
Proof. exact (conj eq_refl suite_passes). Qed.

(** a footprint the project keeps as a known failure fails in the model, without an exception *)
Example C66_known_failures : length known_failures = 1 /\ forall t, In t known_failures ->
  ~ passes (run 1000 t) /\ exists fs, o_result (run 1000 t) = Ok fs /\ forall f, In f fs -> 3 <= length f.
Proof. exact (conj eq_refl failures_fail). Qed.

(** the footprint of the refutation *)
Example C66_case_metz : verdict (tested 8 metz) = Some (2, true, true) /\
  filter (fun f => negb (nodupb f)) (faces_in (tested 8 metz)) = [[9; 0; 11; 16; 10; 6; 7; 15; 16; 2; 3; 13; 10; 16; 15; 12]%Z].
Proof. exact (conj metz_verdict metz_faces). Qed.

Example C66_case_trapezoid : (0 <= 1)%Z /\ footprint trap_verts 1 trap /\ convex_contour trap /\ separated trap /\
  simple_roof trap /\ RoofSpec.apart trap /\ blunt trap.
Proof. exact (conj Z.le_0_1 (conj trap_foot (conj trap_convex (conj trap_separated (conj trap_simple (conj trap_apart trap_blunt)))))). Qed.

Example C66_case_count : checkEdgeCrossing square_cross = 1.
Proof. exact square_cross_count. Qed.
