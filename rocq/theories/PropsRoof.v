(** * PropsRoof: properties C03, C04, C05 and C26 of the roof polygonize builds *)

From Coq Require Import Reals.
From Verif Require Import Py Arith ArithR ArithF RSpec Euclid Graph Lav Cluster Poly PolySpec PolyFaces PolyR RoofFacts PropsPoly.
Set Implicit Arguments.
Unset Strict Implicit.

(** ** C03 *)
Theorem C03_face_indices_valid :
  forall fuel sw sch dbg (verts : list (vec3 RA)) first cnt holes hgt tan us fs,
  let hs := match holes with Some h => h | None => [] end in
  (0 <= first)%Z -> (1 <= cnt)%Z -> (forall h, In h hs -> 0 <= fst h /\ 1 <= snd h)%Z ->
  let o := polygonize fuel sw sch dbg verts first cnt holes hgt tan None us in
  o_result o = Ok fs ->
  forall f i, In f fs -> In i f ->
    (in_blocks first cnt hs i /\ 0 <= i < Z.of_nat (length verts))%Z \/
    (Z.of_nat (length verts) <= i < Z.of_nat (length (o_verts o)))%Z.
Proof. exact face_indices_R. Qed.
Print Assumptions C03_face_indices_valid.

(** for every arithmetic: the only other possibility is -1, from a sink that is neither a vertex nor a node *)
Theorem C03_only_unknown_sinks_can_break_indices :
  forall (A : arith) fuel sw sch dbg (verts : list (vec3 A)) first cnt holes hgt tan us fs,
  let hs := match holes with Some h => h | None => [] end in
  (0 <= first)%Z -> (1 <= cnt)%Z -> (forall h, In h hs -> 0 <= fst h /\ 1 <= snd h)%Z ->
  let o := polygonize fuel sw sch dbg verts first cnt holes hgt tan None us in
  o_result o = Ok fs ->
  exists contours sk zBase center,
    prepare verts first cnt holes us = Ok (zBase, center, contours) /\ skeletonize fuel contours = Ok sk /\
    length (o_verts o) = (length verts + length sk)%nat /\
    (forall i, in_blocks first cnt hs i -> (0 <= i < Z.of_nat (length verts))%Z) /\
    forall f i, In f fs -> In i f ->
      in_blocks first cnt hs i \/
      (Z.of_nat (length verts) <= i < Z.of_nat (length verts) + Z.of_nat (length sk))%Z \/
      (i = (-1)%Z /\ exists a s, In a sk /\ In s (sinks a) /\ ~ sink_known (concat contours) sk s).
Proof. exact (@polygonize_face_indices). Qed.
Print Assumptions C03_only_unknown_sinks_can_break_indices.

Local Open Scope R_scope.

(** ** C04 *)
Theorem C04_heights_proportional :
  forall fuel sw sch (verts : list (vec3 RA)) first cnt holes hgt tan faces us fs,
  (0 <= first)%Z -> (1 <= cnt)%Z ->
  let o := polygonize fuel sw sch true verts first cnt holes hgt tan faces us in
  o_result o = Ok fs ->
  exists sk nodes v0 ta,
    o_debug o = Some sk /\ o_verts o = verts ++ nodes /\ nth_error verts (Z.to_nat first) = Some v0 /\
    slope_spec sk hgt tan ta /\ (forall a, In a sk -> 0 <= height a) /\
    Forall2 (fun (a : @subtree RA) (w : vec3 RA) => wz w = wz v0 + height a * ta) sk nodes.
Proof. exact roof_nodes_R. Qed.
Print Assumptions C04_heights_proportional.

(** the debug argument only decides whether the skeleton is handed out *)
Theorem C04_debug_changes_nothing_else :
  forall (A : arith) fuel sw sch (verts : list (vec3 A)) first cnt holes hgt tan faces us,
  let o b := polygonize fuel sw sch b verts first cnt holes hgt tan faces us in
  o_result (o true) = o_result (o false) /\ o_verts (o true) = o_verts (o false) /\ o_faces (o true) = o_faces (o false).
Proof. exact debug_irrelevant. Qed.
Print Assumptions C04_debug_changes_nothing_else.

(** ** C05, C26 *)
Theorem C05_C26_ridge_and_eaves :
  forall fuel sw sch dbg (verts : list (vec3 RA)) first cnt holes hgt tan faces us fs,
  (0 <= first)%Z -> (1 <= cnt)%Z ->
  let o := polygonize fuel sw sch dbg verts first cnt holes hgt tan faces us in
  o_result o = Ok fs ->
  exists nodes v0, o_verts o = verts ++ nodes /\ nth_error verts (Z.to_nat first) = Some v0 /\
    (0 < hgt -> (forall w : vec3 RA, In w nodes -> wz w <= wz v0 + hgt) /\ exists w, In w nodes /\ wz w = wz v0 + hgt) /\
    (0 <= hgt -> 0 <= tan -> forall w : vec3 RA, In w nodes -> wz v0 <= wz w).
Proof. exact ridge_R. Qed.
Print Assumptions C05_C26_ridge_and_eaves.

(** ** concrete case (IEEE arithmetic): an L-shaped footprint with height 3 *)
Example ex_ridge :
  let o := pg (lshape 77 5) 1 6 None (q 3) None in
  match o_result o with
  | Ok _ => (existsb (fun w : vec3 F64 => neqb (wz w) (q 3)) (skipn 7 (o_verts o)) &&
             forallb (fun w : vec3 F64 => nleb (q 0) (wz w) && nleb (wz w) (q 3)) (skipn 7 (o_verts o)))%bool
  | Err _ => false
  end = true.
Proof. vm_compute. reflexivity. Qed.
