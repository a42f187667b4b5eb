(** * PropsSame: property C63, the roof over a convex footprint follows from its walls *)

From Coq Require Import Permutation Reals ZArith.
From Verif Require Import Py Arith ArithR ArithF Euclid Graph Lav Cluster Poly TriSpec GeoSpec FootSpec FootCases RoofSpec ConvexSpec ConvexCases
  WholeCases ConvexRoofCases SameSpec SameProofs SameCases.
Set Implicit Arguments.
Unset Strict Implicit.
Local Open Scope nat_scope.

(** The nodes are exactly the points with three nearest walls, each once, at the level of the first vertex plus slope times
    distance; the slope, too, follows from the footprint. *)
Theorem C63_nodes_are_the_roof_points :
  forall (verts : list (vec3 RA)) (first : Z) (c : list (@edge2 RA)), (0 <= first)%Z -> footprint verts first c ->
  convex_contour c -> separated c -> simple_roof c -> apart c -> blunt c ->
  forall (fuel : nat) (sw : Z -> Z -> bool) (sch : schedule) (dbg : bool) (holes : option (list (Z * Z)))
    (hgt tan : R) (faces : option (list (list Z))),
  length c + 2 * (length c - 2) < fuel -> holes = None \/ holes = Some [] ->
  let o := polygonize fuel sw sch dbg verts first (Z.of_nat (length c)) holes hgt tan faces None in
  exists w0 nodes s, py_get verts first = Ok w0 /\ o_verts o = verts ++ nodes /\ NoDup nodes /\ length nodes = length c - 2 /\ roof_slope c hgt tan s /\
    forall v, In v nodes <-> exists h, roof_point c (ground v) h /\ wz v = (wz w0 + s * h)%R.
Proof. exact (@convex_nodes_exact). Qed.
Print Assumptions C63_nodes_are_the_roof_points.

(** Two calls for footprints with the same walls: the same nodes are appended, in some order, and the returned faces have the
    same outlines, each beginning at the same wall. *)
Theorem C63_same_walls_same_roof :
  forall (verts verts' : list (vec3 RA)) (first first' : Z) (c d : list (@edge2 RA)) w0 w0',
  (0 <= first)%Z -> (0 <= first')%Z -> footprint verts first c -> footprint verts' first' d ->
  convex_contour c -> convex_contour d -> same_walls c d -> separated c -> simple_roof c -> apart c -> blunt c ->
  py_get verts first = Ok w0 -> py_get verts' first' = Ok w0' -> wz w0 = wz w0' ->
  forall (fuel fuel' : nat) (sw sw' : Z -> Z -> bool) (sch sch' : schedule) (dbg dbg' : bool) (holes holes' : option (list (Z * Z))) (hgt tan : R),
  length c + 2 * (length c - 2) < fuel -> length d + 2 * (length d - 2) < fuel' ->
  holes = None \/ holes = Some [] -> holes' = None \/ holes' = Some [] ->
  let o := polygonize fuel sw sch dbg verts first (Z.of_nat (length c)) holes hgt tan None None in
  let o' := polygonize fuel' sw' sch' dbg' verts' first' (Z.of_nat (length d)) holes' hgt tan None None in
  exists nodes nodes' fs fs', o_verts o = verts ++ nodes /\ o_verts o' = verts' ++ nodes' /\ Permutation nodes nodes' /\
    o_result o = Ok fs /\ o_result o' = Ok fs' /\ Permutation (map (outline (o_verts o)) fs) (map (outline (o_verts o')) fs').
Proof. exact (@convex_same_roof). Qed.
Print Assumptions C63_same_walls_same_roof.

(** In particular the vertex with which the footprint begins does not matter. *)
Theorem C63_first_vertex_does_not_matter :
  forall (verts verts' : list (vec3 RA)) (first first' : Z) (c : list (@edge2 RA)) (r : nat) w0 w0',
  (0 <= first)%Z -> (0 <= first')%Z -> r <= length c -> footprint verts first c -> footprint verts' first' (rot r c) ->
  convex_contour c -> separated c -> simple_roof c -> apart c -> blunt c ->
  py_get verts first = Ok w0 -> py_get verts' first' = Ok w0' -> wz w0 = wz w0' ->
  forall (fuel fuel' : nat) (sw sw' : Z -> Z -> bool) (sch sch' : schedule) (dbg dbg' : bool) (holes holes' : option (list (Z * Z))) (hgt tan : R),
  length c + 2 * (length c - 2) < fuel -> length c + 2 * (length c - 2) < fuel' ->
  holes = None \/ holes = Some [] -> holes' = None \/ holes' = Some [] ->
  let o := polygonize fuel sw sch dbg verts first (Z.of_nat (length c)) holes hgt tan None None in
  let o' := polygonize fuel' sw' sch' dbg' verts' first' (Z.of_nat (length c)) holes' hgt tan None None in
  exists nodes nodes' fs fs', o_verts o = verts ++ nodes /\ o_verts o' = verts' ++ nodes' /\ Permutation nodes nodes' /\
    o_result o = Ok fs /\ o_result o' = Ok fs' /\ Permutation (map (outline (o_verts o)) fs) (map (outline (o_verts o')) fs').
Proof. exact (@convex_other_start). Qed.
Print Assumptions C63_first_vertex_does_not_matter.

(** For footprints that are not convex it does matter: beginning with one vertex of a T-shaped footprint each wall gets its face,
    beginning with the next vertex some faces are missing. *)
Theorem C63_any_footprint_refuted :
  exists ps r fs fs', simple_foot ps /\ simple_foot (rot r ps) /\
  o_result (roof_of 1 ps) = Ok fs /\ o_result (roof_of 1 (rot r ps)) = Ok fs' /\ length fs = length ps /\ length fs' < length ps.
Proof. exact tee_start. Qed.
Print Assumptions C63_any_footprint_refuted.

(** ** concrete cases *)

(** the trapezoid of C49 at index 1 of one list, and beginning with its second corner at index 0 of another *)
Example C63_case_trapezoid : footprint trap_verts 1 trap /\ footprint trap_verts1 0 (rot 1 trap) /\ convex_contour trap /\ separated trap /\
  simple_roof trap /\ RoofSpec.apart trap /\ blunt trap.
Proof. exact (conj trap_foot (conj trap_foot1 (conj trap_convex (conj trap_separated (conj trap_simple (conj trap_apart trap_blunt)))))). Qed.

Example C63_case_level : exists w w', py_get trap_verts 1 = Ok w /\ py_get trap_verts1 0 = Ok w' /\ wz w = wz w'.
Proof. exact trap_level. Qed.

(** in binary64: beginning with either corner each wall gets the same face up to numbers *)
Example C63_case_run : faces_of 1 trap_ints = [[3; 0; 4]; [2; 3; 4; 5]; [0; 1; 5; 4]; [1; 2; 5]]%Z /\
  faces_of 1 (rot 1 trap_ints) = [[3; 0; 5; 4]; [2; 3; 4]; [0; 1; 5]; [1; 2; 4; 5]]%Z.
Proof. exact (conj trap_faces trap_faces1). Qed.

(** the T: walls 7, 1 and 3 get one face in the second run *)
Example C63_case_tee : faces_of 1 tee = [[7; 0; 8; 10]; [6; 7; 10]; [0; 1; 9; 8]; [1; 2; 9]; [2; 3; 11; 8; 9]; [3; 4; 11]; [4; 5; 8; 11]; [5; 6; 10; 8]]%Z /\
  faces_of 1 (rot 1 tee) = [[7; 0; 8; 1; 2; 9; 3; 4; 11]; [6; 7; 11; 10]; [0; 1; 8]; [2; 3; 9]; [4; 5; 10; 11]; [5; 6; 10]]%Z.
Proof. exact tee_faces. Qed.
