(** * PropsTri: property C39, triangles *)

From Coq Require Import Permutation Reals ZArith.
From Verif Require Import Py Arith ArithR Euclid Lav Cluster Graph Poly ClusterSpec GeoSpec BisSpec TriSpec TriSkel TriRoof TriCases.
Set Implicit Arguments.
Unset Strict Implicit.
Local Open Scope R_scope.

(** One node: the incenter, with the inradius as height, connected to the three corners. *)
Theorem C39_skeleton :
  forall (c : list (@edge2 RA)) p q r fuel, triangle_contour c p q r -> (2 <= fuel)%nat ->
  skeletonize fuel [c] = Ok [Subtree (A := RA) (incenter p q r) (inradius p q r) [p; q; r]].
Proof. exact tri_skeleton. Qed.
Print Assumptions C39_skeleton.

(** The incenter and the inradius are what their names say: the distance of the incenter from each
    side is the inradius, and it is positive. *)
Theorem C39_incenter :
  forall (c : list (@edge2 RA)) p q r, triangle_contour c p q r ->
  0 < inradius p q r /\ forall e, In e c -> edge_dist e (incenter p q r) = inradius p q r.
Proof. exact incenter_dist. Qed.
Print Assumptions C39_incenter.

(** polygonize appends the apex over the incenter and returns one triangular face for each wall,
    starting with the wall; for all heights and slopes, and whatever order the sets of edges are
    traversed in. *)
Theorem C39_roof :
  forall (verts : list (vec3 RA)) (first : Z) (w0 w1 w2 : vec3 RA), (0 <= first)%Z ->
  py_get verts first = Ok w0 -> py_get verts (first + 1) = Ok w1 -> py_get verts (first + 2) = Ok w2 ->
  let p := ground w0 in let q := ground w1 in let r := ground w2 in
  0 < orient p q r -> long_enough p q -> long_enough q r -> long_enough r p ->
  forall fuel sw sch dbg holes hgt tan faces h, (2 <= fuel)%nat -> holes = None \/ holes = Some [] ->
  hgt <> 0 /\ h = hgt \/ hgt = 0 /\ h = inradius p q r * tan ->
  let n := Z.of_nat (length verts) in
  let o := polygonize fuel sw sch dbg verts first 3 holes hgt tan faces None in
  o_verts o = verts ++ [apex (incenter p q r) (wz w0) h] /\
  exists fs, Permutation fs [[first; first + 1; n]; [first + 1; first + 2; n]; [first + 2; first; n]]%Z /\
    o_faces o = option_map (fun old => old ++ fs) faces /\
    o_result o = Ok (match faces with Some old => old ++ fs | None => fs end).
Proof. exact (fun verts first w0 w1 w2 Hf G0 G1 G2 => @tri_roof verts first Hf w0 w1 w2 G0 G1 G2). Qed.
Print Assumptions C39_roof.

(** The right triangle with sides 3, 4, 5 at height 7, roof height 2. *)
Example C39_case : exists fs, Permutation fs [[0; 1; 3]; [1; 2; 3]; [2; 0; 3]]%Z /\
  let o := polygonize (A := RA) 2 (fun _ _ => true) (fun _ _ => O) false [t0; t1; t2] 0 3 None 2 0 None None in
  o_verts o = [t0; t1; t2; V3 (A := RA) 11 21 9] /\ o_result o = Ok fs.
Proof. exact (roof345 _ _). Qed.

Example C39_case_hyps : 0 < orient (ground t0) (ground t1) (ground t2) /\
  long_enough (ground t0) (ground t1) /\ long_enough (ground t1) (ground t2) /\ long_enough (ground t2) (ground t0).
Proof. split; [rewrite orient345; apply IZR_lt; reflexivity|exact long345]. Qed.
