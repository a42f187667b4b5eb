(** * PropsPyramid: the roof of a footprint with an inscribed circle (property C52) *)

From Coq Require Import Reals Permutation.
From Verif Require Import Py Arith ArithR Euclid Graph Poly TriSpec ConvexSpec RoofSpec RectSpec PyramidSpec PyramidPoly SquareProofs PyramidCases FootCases.
Set Implicit Arguments.

(** ** C52 *)
(** A convex footprint all walls of which are equally far from one point x gets a pyramid: one node over x and one
    triangle over each wall, from the wall up to the node.  Neither the number of walls nor the angles between them matter. *)
Theorem C52_pyramid_roof :
  forall (verts : list (vec3 RA)) (first : Z) (c : list (@edge2 RA)), (0 <= first)%Z -> footprint verts first c ->
  convex_contour c -> forall (x : vec RA) (r : R), tangential c x r ->
  forall (fuel : nat) (sw : Z -> Z -> bool) (sch : schedule) (dbg : bool) (holes : option (list (Z * Z)))
    (hgt tan : R) (faces : option (list (list Z))),
  (length c + 2 * (length c - 2) < fuel)%nat -> holes = None \/ holes = Some [] ->
  let o := polygonize fuel sw sch dbg verts first (Z.of_nat (length c)) holes hgt tan faces None in
  exists w0 h fs, py_get verts first = Ok w0 /\ top_height hgt tan r (wz w0) h /\
    o_verts o = verts ++ [V3 (A := RA) (vx x) (vy x) h] /\
    Permutation fs (map (fun k => [first + Z.of_nat k; first + Z.of_nat (S k mod length c); Z.of_nat (length verts)]%Z) (seq 0 (length c))) /\
    o_faces o = option_map (fun old => old ++ fs) faces /\
    o_result o = Ok (match faces with Some old => old ++ fs | None => fs end).
Proof. exact (fun verts first c H0 => @pyramid_polygonize verts first H0 c). Qed.
Print Assumptions C52_pyramid_roof.

(** a square with one corner cut off, around a circle of radius 6, at index 2 of the mesh *)
Example C52_tent : (0 <= 2)%Z /\ footprint tent_verts 2 tent /\ convex_contour tent /\ tangential tent (rvec 0 0) 6.
Proof. exact (conj Z.le_0_2 (conj tent_foot (conj tent_convex tent_tangential))). Qed.

(** in binary64 it gets the same roof *)
Example C52_tent_run : faces_of 1 tent_ints = [[4; 0; 5]; [3; 4; 5]; [0; 1; 5]; [1; 2; 5]; [2; 3; 5]]%Z.
Proof. exact tent_faces. Qed.

(** In particular a square in any position and direction gets four triangles. *)
Theorem C52_square_roof :
  forall (verts : list (vec3 RA)) (first : Z) (w : vec3 RA) (u : vec RA) (a : R), (0 <= first)%Z ->
  rectangle verts first w u a a -> (/ 10 ^ 35 < a * a)%R -> (0 < a)%R ->
  forall (fuel : nat) (sw : Z -> Z -> bool) (sch : schedule) (dbg : bool) (holes : option (list (Z * Z)))
    (hgt tan : R) (faces : option (list (list Z))),
  (8 < fuel)%nat -> holes = None \/ holes = Some [] ->
  let out := polygonize fuel sw sch dbg verts first 4 holes hgt tan faces None in
  let N := Z.of_nat (length verts) in
  exists h fs, top_height hgt tan (a / 2) (wz w) h /\
    (forall X, X = in_frame (ground w) u (a / 2) (a / 2) -> o_verts out = verts ++ [V3 (A := RA) (vx X) (vy X) h]) /\
    Permutation fs [[first; first + 1; N]; [first + 1; first + 2; N]; [first + 2; first + 3; N]; [first + 3; first; N]]%Z /\
    o_faces out = option_map (fun old => old ++ fs) faces /\
    o_result out = Ok (match faces with Some old => old ++ fs | None => fs end).
Proof. exact square_roof. Qed.
Print Assumptions C52_square_roof.

Example C52_hut : rectangle hut 0 (V3 (A := RA) 1 1 5) (rvec (3 / 5) (4 / 5)) 10 10 /\ (/ 10 ^ 35 < 10 * 10)%R /\ (0 < 10)%R.
Proof. exact hut_ok. Qed.
