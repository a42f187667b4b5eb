(** * PropsOrder: what a call of polygonize gives does not depend on the order of Python's sets, if the faces are plain (property C67) *)

From Coq Require Import ZArith List Permutation Reals.
From Verif Require Import Py Arith ArithF ArithR Euclid Lav Cluster Graph GraphSpec Poly BorderSpec GeoSpec FootSpec FootCases ConvexSpec RoofSpec WholeCases ConvexCases ConvexRoofCases OrderSpec OrderProofs OrderConvex OrderCases.
Set Implicit Arguments.
Local Open Scope nat_scope.

(** ** C67 *)
(** The vertices a call appends, and the skeleton it hands out for debugging, do not depend on the order at all. *)
Theorem C67_vertices_any_order :
  forall (A : arith) (fuel : nat) (sw sw' : Z -> Z -> bool) (sch sch' : schedule) (dbg : bool) (verts : list (vec3 A)) (first cnt : Z)
         (holes : option (list (Z * Z))) (hgt tan : num A) (faces : option (list (list Z))) (us : option (list (vec3 A))),
  let o := polygonize fuel sw sch dbg verts first cnt holes hgt tan faces us in
  let o' := polygonize fuel sw' sch' dbg verts first cnt holes hgt tan faces us in
  o_verts o = o_verts o' /\ o_debug o = o_debug o'.
Proof. exact (@order_only_faces). Qed.
Print Assumptions C67_vertices_any_order.

(** If no line of the roof is drawn twice, and the faces one order yields (before spikes and straight corners are taken out) are plain,
    then every other order gives the same new faces, listed in some order and each read from some corner. *)
Theorem C67_faces_any_order :
  forall (A : arith) (fuel : nat) (sw sw' : Z -> Z -> bool) (sch sch' : schedule) (dbg : bool) (verts : list (vec3 A)) (first cnt : Z)
         (holes : option (list (Z * Z))) (hgt tan : num A) (faces : option (list (list Z))) (us : option (list (vec3 A)))
         (z : num A) (ctr : vec3 A) (cs : list (list (@edge2 A))) (sk : list (@subtree A)) (fs : list (list Z)),
  let hs := match holes with Some h => h | None => [] end in
  let nr := Z.of_nat (length verts) in
  let o := polygonize fuel sw sch dbg verts first cnt holes hgt tan faces us in
  let o' := polygonize fuel sw' sch' dbg verts first cnt holes hgt tan faces us in
  prepare verts first cnt holes us = Ok (z, ctr, cs) -> skeletonize fuel cs = Ok sk ->
  no_parallel_edges (lines_of_roof first cnt hs (skeleton_graph_edges (concat cs) sk nr)) ->
  (forall g emb F, build_graph sw first cnt hs (concat cs) sk nr = Ok g -> circular_embedding g (o_verts o) true = Ok emb ->
     graph_faces sch g emb nr = Ok F -> plain_faces (o_verts o) F) ->
  let old := match faces with Some l => l | None => [] end in
  o_result o = Ok fs -> exists new new', fs = old ++ new /\ o_result o' = Ok (old ++ new') /\ same_faces new new'.
Proof. exact (@roof_order). Qed.
Print Assumptions C67_faces_any_order.

(** Over a convex footprint (with the conditions of C49) all orders give the very same faces, listed in some order. *)
Theorem C67_convex :
  forall (verts : list (vec3 RA)) (first : Z) (c : list (@edge2 RA)), (0 <= first)%Z -> footprint verts first c ->
  convex_contour c -> separated c -> simple_roof c -> RoofSpec.apart c -> blunt c ->
  forall (fuel : nat) (sw sw' : Z -> Z -> bool) (sch sch' : schedule) (dbg : bool) (hgt tan : R) (holes : option (list (Z * Z))),
  length c + 2 * (length c - 2) < fuel -> holes = None \/ holes = Some [] ->
  let o := polygonize fuel sw sch dbg verts first (Z.of_nat (length c)) holes hgt tan None None in
  let o' := polygonize fuel sw' sch' dbg verts first (Z.of_nat (length c)) holes hgt tan None None in
  exists fs fs', o_result o = Ok fs /\ o_result o' = Ok fs' /\ Permutation fs fs'.
Proof. exact (@convex_order). Qed.
Print Assumptions C67_convex.

(** Without the condition on the faces this is false, even for a footprint whose outline does not touch itself. *)
Theorem C67_any_footprint_refuted :
  exists den ps sw sch sw' sch' fs fs', simple_foot ps /\ o_result (ordered sw sch den ps) = Ok fs /\
  o_result (ordered sw' sch' den ps) = Ok fs' /\ ~ same_faces fs fs'.
Proof. exact order_refuted. Qed.
Print Assumptions C67_any_footprint_refuted.

(** ** cases *)
(** an L-shaped footprint meets the conditions; its faces for two orders *)
Example C67_case_ell : plain_footprint unswapped from_first 1 ell.
Proof. exact ell_plain. Qed.

Example C67_case_ell_faces :
  ok_faces (o_result (ordered unswapped from_first 1 ell)) = [[5; 0; 8; 7]; [4; 5; 7]; [0; 1; 6; 8]; [1; 2; 6]; [2; 3; 8; 6]; [3; 4; 7; 8]]%Z /\
  ok_faces (o_result (ordered swapped from_last 1 ell)) = [[5; 0; 8; 7]; [3; 4; 7; 8]; [2; 3; 8; 6]; [0; 1; 6; 8]; [4; 5; 7]; [1; 2; 6]]%Z.
Proof. exact ell_faces. Qed.

Example C67_case_trapezoid : footprint trap_verts 1 trap /\ convex_contour trap /\ separated trap /\ simple_roof trap /\ RoofSpec.apart trap /\ blunt trap.
Proof. exact (conj trap_foot (conj trap_convex (conj trap_separated (conj trap_simple (conj trap_apart trap_blunt))))). Qed.

(** The footprint of the refutation is one of the project's tests that are known to fail, rounded to 1/256.  The face over wall 1 has
    12 corners for one order and 13 for the other. *)
Example C67_case_joho :
  ok_faces (o_result (ordered unswapped from_first 256 joho)) = [[9; 0; 14]; [8; 9; 14; 16; 12; 13]; [0; 1; 17; 16; 14];
    [1; 2; 10; 11; 5; 6; 12; 16; 11; 4; 5; 15]; [2; 3; 10]; [3; 4; 11; 10]; [6; 7; 13; 12]; [7; 8; 13]]%Z /\
  ok_faces (o_result (ordered unswapped from_last 256 joho)) = [[0; 1; 17; 16; 14]; [4; 5; 1; 2; 10; 11; 5; 6; 12; 16; 17; 15; 11]; [8; 9; 14; 16; 12; 13];
    [6; 7; 13; 12]; [3; 4; 11; 10]; [7; 8; 13]; [2; 3; 10]; [9; 0; 14]]%Z.
Proof. exact joho_faces. Qed.
