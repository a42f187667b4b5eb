(** * PropsCw: footprints listed clockwise (property C61) *)

From Coq Require Import Reals.
From Verif Require Import Py Arith ArithR Euclid Graph Lav Cluster Poly BisSpec TriSpec RoofSpec CwSpec CwProofs CwPoly CwCases.
Set Implicit Arguments.

(** ** C61 *)
(** A convex outline listed clockwise has no straight skeleton: no corner issues an event that is accepted, and the call ends without an error. *)
Theorem C61_clockwise_skeleton_empty :
  forall c : list (@edge2 RA), clockwise_contour c -> (forall e1 e2, consecutive c e1 e2 -> fair_corner c e1 e2) ->
  forall fuel : nat, (0 < fuel)%nat -> skeletonize fuel [c] = Ok [].
Proof. exact (fun c Hc Hf fuel => @cw_skeleton c Hc Hf fuel). Qed.
Print Assumptions C61_clockwise_skeleton_empty.

(** polygonize then adds no vertex and no face.  With a slope it returns the caller's faces as if it had succeeded;
    with a height it raises ValueError, for want of a highest node. *)
Theorem C61_clockwise_no_roof :
  forall (verts : list (vec3 RA)) (first : Z), (0 <= first)%Z ->
  forall c : list (@edge2 RA), footprint verts first c -> clockwise_contour c ->
  (forall e1 e2, consecutive c e1 e2 -> fair_corner c e1 e2) ->
  forall (fuel : nat) (sw : Z -> Z -> bool) (sch : schedule) (dbg : bool) (holes : option (list (Z * Z)))
    (hgt tan : R) (faces : option (list (list Z))),
  (0 < fuel)%nat -> holes = None \/ holes = Some [] ->
  let o := polygonize fuel sw sch dbg verts first (Z.of_nat (length c)) holes hgt tan faces None in
  o_verts o = verts /\ o_faces o = faces /\ o_debug o = (if dbg then Some [] else None) /\
  (hgt <> 0%R -> o_result o = Err ValueError) /\
  (hgt = 0%R -> o_result o = Ok (match faces with Some old => old | None => [] end)).
Proof. exact (@clockwise_polygonize). Qed.
Print Assumptions C61_clockwise_no_roof.

(** a square with one corner cut off, at index 2 of the mesh; three of its corners are right-angled *)
Example C61_tent : (0 <= 2)%Z /\ footprint cwtent_verts 2 cwtent /\ clockwise_contour cwtent /\
  (forall e1 e2, consecutive cwtent e1 e2 -> fair_corner cwtent e1 e2).
Proof. exact (conj Z.le_0_2 (conj cwtent_foot (conj cwtent_clockwise cwtent_fair))). Qed.

(** in binary64 it gets no roof either *)
Example C61_tent_run : cwrun 0 cwtent_ints = (5%nat, Ok []) /\ cwrun 2 cwtent_ints = (5%nat, Err ValueError).
Proof. exact cwtent_runs. Qed.

(** nor does an L-shaped footprint, which listed counterclockwise gets six faces *)
Example C61_ell_run : cwrun 0 cwell = (6%nat, Ok []) /\ cwrun 2 cwell = (6%nat, Err ValueError) /\
  exists fs, cwrun 0 (rev cwell) = (10%nat, Ok fs) /\ length fs = 6%nat.
Proof. exact (conj (proj1 cwell_runs) (conj (proj2 cwell_runs) ccwell_runs)). Qed.
