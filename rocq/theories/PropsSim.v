(** * PropsSim: property C65, convex footprints of the same shape get roofs of the same shape *)

From Coq Require Import Permutation Reals ZArith.
From Verif Require Import Py Arith ArithR ArithF Euclid Graph Lav Cluster Poly TriSpec GeoSpec FootSpec FootCases RoofSpec ConvexSpec ConvexCases
  WholeCases ConvexRoofCases SameSpec SameCases SimSpec SimProofs SimCases.
Set Implicit Arguments.
Unset Strict Implicit.
Local Open Scope nat_scope.

(** The footprint d is c turned, scaled by k and shifted: the nodes of its roof are those of c carried in the same way, and so are the
    outlines of the faces.  With a slope the nodes rise k times as far, with a height as far as before. *)
Theorem C65_moved :
  forall (a b tx ty k : R) (verts verts' : list (vec3 RA)) (first first' : Z) (c d : list (@edge2 RA)) (w0 w0' : vec3 RA),
  factor a b k ->
  (0 <= first)%Z -> (0 <= first')%Z -> footprint verts first c -> footprint verts' first' d -> convex_contour c -> convex_contour d ->
  walls_carried (moved a b tx ty) c d ->
  separated c -> simple_roof c -> apart c -> blunt c -> separated d -> apart d -> py_get verts first = Ok w0 -> py_get verts' first' = Ok w0' ->
  forall (fuel fuel' : nat) (sw sw' : Z -> Z -> bool) (sch sch' : schedule) (dbg dbg' : bool) (holes holes' : option (list (Z * Z))) (hgt tan r : R),
  length c + 2 * (length c - 2) < fuel -> length d + 2 * (length d - 2) < fuel' ->
  holes = None \/ holes = Some [] -> holes' = None \/ holes' = Some [] -> rise_factor hgt k r ->
  let o := polygonize fuel sw sch dbg verts first (Z.of_nat (length c)) holes hgt tan None None in
  let o' := polygonize fuel' sw' sch' dbg' verts' first' (Z.of_nat (length d)) holes' hgt tan None None in
  exists nodes nodes' fs fs', o_verts o = verts ++ nodes /\ o_verts o' = verts' ++ nodes' /\
    Permutation (map (node_carried (moved a b tx ty) (wz w0) (wz w0') r) nodes) nodes' /\
    o_result o = Ok fs /\ o_result o' = Ok fs' /\
    Permutation (map (outline_carried (moved a b tx ty)) (map (outline (o_verts o)) fs)) (map (outline (o_verts o')) fs').
Proof. exact (@convex_moved). Qed.
Print Assumptions C65_moved.

(** The same for the mirror image, whose walls run the other way: each outline is followed the other way. *)
Theorem C65_mirrored :
  forall (a b tx ty k : R) (verts verts' : list (vec3 RA)) (first first' : Z) (c d : list (@edge2 RA)) (w0 w0' : vec3 RA),
  factor a b k ->
  (0 <= first)%Z -> (0 <= first')%Z -> footprint verts first c -> footprint verts' first' d -> convex_contour c -> convex_contour d ->
  walls_turned_over (mirrored a b tx ty) c d ->
  separated c -> simple_roof c -> apart c -> blunt c -> separated d -> apart d -> py_get verts first = Ok w0 -> py_get verts' first' = Ok w0' ->
  forall (fuel fuel' : nat) (sw sw' : Z -> Z -> bool) (sch sch' : schedule) (dbg dbg' : bool) (holes holes' : option (list (Z * Z))) (hgt tan r : R),
  length c + 2 * (length c - 2) < fuel -> length d + 2 * (length d - 2) < fuel' ->
  holes = None \/ holes = Some [] -> holes' = None \/ holes' = Some [] -> rise_factor hgt k r ->
  let o := polygonize fuel sw sch dbg verts first (Z.of_nat (length c)) holes hgt tan None None in
  let o' := polygonize fuel' sw' sch' dbg' verts' first' (Z.of_nat (length d)) holes' hgt tan None None in
  exists nodes nodes' fs fs', o_verts o = verts ++ nodes /\ o_verts o' = verts' ++ nodes' /\
    Permutation (map (node_carried (mirrored a b tx ty) (wz w0) (wz w0') r) nodes) nodes' /\
    o_result o = Ok fs /\ o_result o' = Ok fs' /\
    Permutation (map (fun l => other_way (outline_carried (mirrored a b tx ty) l)) (map (outline (o_verts o)) fs)) (map (outline (o_verts o')) fs').
Proof. exact (@convex_mirrored). Qed.
Print Assumptions C65_mirrored.

(** A footprint k >= 1 times as large needs no conditions of its own. *)
Theorem C65_enlarged :
  forall (tx ty k : R) (verts verts' : list (vec3 RA)) (first first' : Z) (c d : list (@edge2 RA)) (w0 w0' : vec3 RA),
  (1 <= k)%R ->
  (0 <= first)%Z -> (0 <= first')%Z -> footprint verts first c -> footprint verts' first' d -> convex_contour c -> convex_contour d ->
  walls_carried (moved k 0 tx ty) c d ->
  separated c -> simple_roof c -> apart c -> blunt c -> py_get verts first = Ok w0 -> py_get verts' first' = Ok w0' ->
  forall (fuel fuel' : nat) (sw sw' : Z -> Z -> bool) (sch sch' : schedule) (dbg dbg' : bool) (holes holes' : option (list (Z * Z))) (hgt tan r : R),
  length c + 2 * (length c - 2) < fuel -> length d + 2 * (length d - 2) < fuel' ->
  holes = None \/ holes = Some [] -> holes' = None \/ holes' = Some [] -> rise_factor hgt k r ->
  let o := polygonize fuel sw sch dbg verts first (Z.of_nat (length c)) holes hgt tan None None in
  let o' := polygonize fuel' sw' sch' dbg' verts' first' (Z.of_nat (length d)) holes' hgt tan None None in
  exists nodes nodes' fs fs', o_verts o = verts ++ nodes /\ o_verts o' = verts' ++ nodes' /\
    Permutation (map (node_carried (moved k 0 tx ty) (wz w0) (wz w0') r) nodes) nodes' /\
    o_result o = Ok fs /\ o_result o' = Ok fs' /\
    Permutation (map (outline_carried (moved k 0 tx ty)) (map (outline (o_verts o)) fs)) (map (outline (o_verts o')) fs').
Proof. exact (@convex_enlarged). Qed.
Print Assumptions C65_enlarged.

(** Nor does a mirror image of the same size. *)
Theorem C65_mirror_image :
  forall (tx ty : R) (verts verts' : list (vec3 RA)) (first first' : Z) (c d : list (@edge2 RA)) (w0 w0' : vec3 RA),
  (0 <= first)%Z -> (0 <= first')%Z -> footprint verts first c -> footprint verts' first' d -> convex_contour c -> convex_contour d ->
  walls_turned_over (mirrored 1 0 tx ty) c d ->
  separated c -> simple_roof c -> apart c -> blunt c -> py_get verts first = Ok w0 -> py_get verts' first' = Ok w0' ->
  forall (fuel fuel' : nat) (sw sw' : Z -> Z -> bool) (sch sch' : schedule) (dbg dbg' : bool) (holes holes' : option (list (Z * Z))) (hgt tan : R),
  length c + 2 * (length c - 2) < fuel -> length d + 2 * (length d - 2) < fuel' ->
  holes = None \/ holes = Some [] -> holes' = None \/ holes' = Some [] ->
  let o := polygonize fuel sw sch dbg verts first (Z.of_nat (length c)) holes hgt tan None None in
  let o' := polygonize fuel' sw' sch' dbg' verts' first' (Z.of_nat (length d)) holes' hgt tan None None in
  exists nodes nodes' fs fs', o_verts o = verts ++ nodes /\ o_verts o' = verts' ++ nodes' /\
    Permutation (map (node_carried (mirrored 1 0 tx ty) (wz w0) (wz w0') 1) nodes) nodes' /\
    o_result o = Ok fs /\ o_result o' = Ok fs' /\
    Permutation (map (fun l => other_way (outline_carried (mirrored 1 0 tx ty) l)) (map (outline (o_verts o)) fs)) (map (outline (o_verts o')) fs').
Proof. exact (@convex_mirror_image). Qed.
Print Assumptions C65_mirror_image.

(** A smaller footprint does: two ends of a ridge less than 0.1 apart become one node. *)
Theorem C65_shrunk_refuted :
  exists ps den fs fs', convex_foot ps /\ o_result (roof_of 1 ps) = Ok fs /\ o_result (roof_of den ps) = Ok fs' /\
  (exists f, In f fs /\ length f = 4) /\ forall f, In f fs' -> length f = 3.
Proof. exact shrunk_refuted. Qed.
Print Assumptions C65_shrunk_refuted.

(** A footprint that is not convex and its mirror image, both beginning with the same corner, can get different numbers of faces. *)
Theorem C65_any_mirror_image_refuted :
  exists ps fs fs', simple_foot ps /\ simple_foot (mirror_foot ps) /\
  o_result (roof_of 1 ps) = Ok fs /\ o_result (roof_of 1 (mirror_foot ps)) = Ok fs' /\ length fs < length fs'.
Proof. exact mirror_refuted. Qed.
Print Assumptions C65_any_mirror_image_refuted.

(** ** concrete cases *)

(** the trapezoid of C49 and the same three times as large, beginning with another corner *)
Example C65_case_enlarged : footprint trap_verts 1 trap /\ footprint big_verts 0 big /\ convex_contour trap /\ convex_contour big /\
  walls_carried (moved 3 0 1 2)%R trap big /\ separated trap /\ simple_roof trap /\ RoofSpec.apart trap /\ blunt trap.
Proof. exact (conj trap_foot (conj big_foot (conj trap_convex (conj big_convex (conj big_walls (conj trap_separated (conj trap_simple (conj trap_apart trap_blunt)))))))). Qed.

(** the node over (4, 2) at level 5, two above the base 3, goes to (13, 8) at level 14, six above the base 8 *)
Example C65_case_node : (node_carried (moved 3 0 1 2) 3 8 3 (V3 (A := RA) 4 2 5) = V3 (A := RA) 13 8 14)%R.
Proof. exact carried_node. Qed.

Example C65_case_factor : factor 3 4 5.
Proof. exact five. Qed.

(** the trapezoid and its mirror image *)
Example C65_case_mirror : footprint flat_verts 0 flat /\ convex_contour flat /\ walls_turned_over (mirrored 1 0 0 0) trap flat.
Proof. exact (conj flat_foot (conj flat_convex flat_walls)). Qed.

Example C65_case_other_way : other_way [1; 2; 3; 4; 5] = [2; 1; 5; 4; 3].
Proof. exact eq_refl. Qed.

(** a rectangle of 17 by 16 and one of 17/16 by 1, in binary64 *)
Example C65_case_shrunk : convex_foot nearly_square /\ faces_of 1 nearly_square = [[3; 0; 4]; [2; 3; 4; 5]; [0; 1; 5; 4]; [1; 2; 5]]%Z /\
  faces_of 16 nearly_square = [[3; 0; 4]; [2; 3; 4]; [0; 1; 4]; [1; 2; 4]]%Z.
Proof. exact (conj nearly_square_convex nearly_square_faces). Qed.

(** the T of C63 beginning with its sixth corner, and its mirror image *)
Example C65_case_tee : length (faces_of 1 (rot 5 tee)) = 6 /\ length (faces_of 1 (mirror_foot (rot 5 tee))) = 8.
Proof. exact tee_mirror_faces. Qed.
