(** * PropsWhole: the roof that polygonize builds over a convex footprint (properties C49, C50) *)

From Coq Require Import Reals Permutation.
From Verif Require Import Py Arith ArithR RSpec Euclid Graph Lav Cluster Poly GeoSpec BisSpec TriSpec ConvexSpec ConvexPoly WholeCases ConvexCases ConvexRoofCases FootCases RoofSpec.
Set Implicit Arguments.

(** ** C49 *)
(** A convex footprint c without holes, in general position, over the vertices first, first+1, ... of the mesh.
    polygonize raises no exception.  It appends n-2 nodes to the vertices, each at another place.
    Each node stands over a point where three walls are nearest, at the level of the first vertex plus slope times
    the distance of these walls.  The slope is the given one, or the one with which the highest node has the given height.
    The result, and the list of faces if one is given, gets n new faces, one over each wall: it starts with the wall,
    contains each node to which no wall is nearer, and is a polygon without repeated corners, each turning left. *)
Theorem C49_convex_roof :
  forall (verts : list (vec3 RA)) (first : Z) (c : list (@edge2 RA)), (0 <= first)%Z -> footprint verts first c ->
  convex_contour c -> separated c -> simple_roof c -> apart c -> blunt c ->
  forall (fuel : nat) (sw : Z -> Z -> bool) (sch : schedule) (dbg : bool) (holes : option (list (Z * Z)))
    (hgt tan : R) (faces : option (list (list Z))),
  (length c + 2 * (length c - 2) < fuel)%nat -> holes = None \/ holes = Some [] ->
  let o := polygonize fuel sw sch dbg verts first (Z.of_nat (length c)) holes hgt tan faces None in
  exists w0 nodes s fs face, py_get verts first = Ok w0 /\
    o_verts o = verts ++ nodes /\ length nodes = (length c - 2)%nat /\ NoDup (map ground nodes) /\
    (forall v, In v nodes -> on_roof c (wz w0) s v) /\ slope_of c nodes hgt tan s /\
    Permutation fs (map face (seq 0 (length c))) /\
    (forall k e, nth_error c k = Some e -> wall_face verts nodes first (length c) k c e (face k)) /\
    o_faces o = option_map (fun old => old ++ fs) faces /\
    o_result o = Ok (match faces with Some old => old ++ fs | None => fs end).
Proof. exact (fun verts first c H0 => @convex_polygonize_faces verts first H0 c). Qed.
Print Assumptions C49_convex_roof.

(** a trapezoid at index 1 of the mesh *)
Example C49_trapezoid : (0 <= 1)%Z /\ footprint trap_verts 1 trap /\ convex_contour trap /\ separated trap /\
  simple_roof trap /\ apart trap /\ blunt trap.
Proof. exact (conj Z.le_0_1 (conj trap_foot (conj trap_convex (conj trap_separated (conj trap_simple (conj trap_apart trap_blunt)))))). Qed.

(** its two nodes are known *)
Example C49_trapezoid_nodes : forall q h, roof_point trap q h -> h = 2%R /\ (q = rvec 4 2 \/ q = rvec 6 2).
Proof. exact trap_points. Qed.

(** in binary64 it gets the same roof *)
Example C49_trapezoid_run : faces_of 1 trap_ints = [[3; 0; 4]; [2; 3; 4; 5]; [0; 1; 5; 4]; [1; 2; 5]]%Z.
Proof. exact trap_faces. Qed.

(** ** C50 *)
(** In the same situation the faces cover the footprint.  A point is under the face of a wall exactly if it is in the
    footprint and no wall is nearer; so every point of the footprint is under a face, no point outside is, and
    a point under two faces is equally far from their walls.  The nodes of a face lie in one plane, which rises from
    the wall with the slope of the roof. *)
Theorem C50_faces_cover_footprint :
  forall (verts : list (vec3 RA)) (first : Z) (c : list (@edge2 RA)), (0 <= first)%Z -> footprint verts first c ->
  convex_contour c -> separated c -> simple_roof c -> apart c -> blunt c ->
  forall (fuel : nat) (sw : Z -> Z -> bool) (sch : schedule) (dbg : bool) (holes : option (list (Z * Z)))
    (hgt tan : R) (faces : option (list (list Z))),
  (length c + 2 * (length c - 2) < fuel)%nat -> holes = None \/ holes = Some [] ->
  let o := polygonize fuel sw sch dbg verts first (Z.of_nat (length c)) holes hgt tan faces None in
  exists w0 s fs face, py_get verts first = Ok w0 /\
    o_result o = Ok (match faces with Some old => old ++ fs | None => fs end) /\ Permutation fs (map face (seq 0 (length c))) /\
    (forall k e p, nth_error c k = Some e -> (under (o_verts o) (face k) p <-> nearest_wall c e p)) /\
    (forall p, (forall e, In e c -> (0 <= edge_dist e p)%R) -> exists f, In f fs /\ under (o_verts o) f p) /\
    (forall k e j v, nth_error c k = Some e -> In j (face k) -> (Z.of_nat (length verts) <= j)%Z -> py_get (o_verts o) j = Ok v ->
       wz v = (wz w0 + s * edge_dist e (ground v))%R).
Proof. exact (fun verts first c H0 => @convex_polygonize_tiles verts first H0 c). Qed.
Print Assumptions C50_faces_cover_footprint.

(** in the trapezoid of C49: over (5,1) there is the first wall, over (5,2) there are the first and the third *)
Example C50_trapezoid : forall e f, nth_error trap 0 = Some e -> nth_error trap 2 = Some f ->
  nearest_wall trap e (rvec 5 1) /\ ~ nearest_wall trap f (rvec 5 1) /\
  nearest_wall trap e (rvec 5 2) /\ nearest_wall trap f (rvec 5 2) /\ ~ nearest_wall trap e (rvec 5 (-1)).
Proof. exact trap_nearest. Qed.
