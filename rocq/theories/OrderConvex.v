(** * OrderConvex: over a convex footprint the order of Python's sets only changes the order of the faces *)

From Coq Require Import Permutation Reals Lra.
From Verif Require Import Py PyFacts Arith ArithR Euclid Graph GraphSpec GraphProofs Lav Cluster Poly PySort ClusterSpec GeoSpec GeoLines BisSpec BisProofs BisStart
  PatSpec PolyR PolyFaces TriSpec TriSkel TriRoof ConvexSpec ConvexGeo ConvexWave RoofSpec ConvexComb ConvexTree ConvexPost ConvexFaces ConvexGraph ConvexClean ConvexMove ConvexTile ConvexPoly.
Set Implicit Arguments.
Unset Strict Implicit.
Local Open Scope nat_scope.

(** the face over each wall does not depend on the order of the sets *)
Lemma convex_one_face (verts : list (vec3 RA)) (first : Z) (c : list (@edge2 RA)) :
  (0 <= first)%Z -> footprint verts first c -> convex_contour c -> separated c -> simple_roof c -> apart c -> blunt c ->
  forall fuel hgt tan holes faces, length c + 2 * (length c - 2) < fuel -> holes = None \/ holes = Some [] ->
  exists face : nat -> list Z, forall sw sch dbg,
  let o := polygonize fuel sw sch dbg verts first (Z.of_nat (length c)) holes hgt tan faces None in
  exists fs, o_result o = Ok (match faces with Some old => old ++ fs | None => fs end) /\ Permutation fs (map face (seq 0 (length c))).
Proof.
  intros Hfirst Hfoot Hc Hsep Hsimple Hapart Hblunt fuel hgt tan holes faces Hfu Hh.
  destruct (convex_prepare Hc Hfoot Hh) as (w0 & center & c' & G0 & Hp & Hz & Hm & Hid).
  pose proof (proj1 Hm) as Hlen. pose proof (moved_convex Hm Hc) as Hc'. set (n := length c) in *.
  destruct (@convex_tree c' Hc' (moved_separated Hm Hc Hsep) (moved_simple Hm Hc Hsimple) fuel) as (out & wp & wl & A & B & U & F & P & H & Hraw & Lout & Hr); [rewrite Hlen; auto|].
  pose proof (post_none Hc' (moved_apart Hm Hc Hapart) (moved_blunt Hm Hc Hblunt) Hr Hraw) as Hsk.
  destruct (kids_exist Hc' Hr) as (kids & Kout & Kin & Kpk). pose proof (first_bound Hfirst Hfoot Hc Hm) as Hb.
  exists (roof_face c' F first (Z.of_nat (length verts))). intros sw sch dbg o.
  destruct (convex_polygonize_all Hfirst Hfoot Hc Hsep Hsimple Hapart Hblunt sw sch dbg hgt tan faces Hfu Hh) as (_ & _ & _ & fs0 & _ & _ & _ & _ & _ & _ & _ & _ & _ & _ & _ & Res).
  assert (Hs : exists s, slope out hgt tan = Ok s).
  { fold n in Res. unfold polygonize in Res. rewrite Hp in Res. cbn [bind] in Res. rewrite Hsk in Res. cbn [bind] in Res. destruct (slope out hgt tan); [eauto|discriminate]. }
  destruct Hs as (s & Hs). set (nodes := map (skeleton_node3D center s (wz w0)) out).
  assert (Hvl : forall v, v < length c' + (length c' - 2) -> exists w, py_get (verts ++ nodes) (vid c' first (Z.of_nat (length verts)) v) = Ok w /\ loc (ground center) (ground w) = P v).
  { intros v Hv. exact (vid_at Hfirst Hfoot Hc Hz Hm Hr (wz w0) s Hv). }
  destruct (roof_embedded Hc' Hr Hb Kin Kpk Hvl sw sch) as (emb & fs & He & Hg & Hperm).
  pose proof (clean_none Hc' (moved_blunt Hm Hc Hblunt) Hr Hb Hvl Hperm) as Hcl.
  pose proof (roof_graph Hc' Hr (Z.of_nat (length verts)) Hid Kout Kin Kpk sw) as Hbg. rewrite Hlen in *.
  exists fs. split; auto.
  assert (Hrf : roof_faces sw sch (verts ++ nodes) first (Z.of_nat n) (match holes with Some l => l | None => [] end) (concat [c']) out (Z.of_nat (length verts)) = Ok fs).
  { unfold roof_faces. replace (match holes with Some l => l | None => [] end) with (@nil (Z * Z)) by (destruct Hh as [-> | ->]; auto).
    cbn [concat]. rewrite app_nil_r. rewrite Hbg. cbn [bind]. rewrite He. cbn [bind]. rewrite Hg. cbn [bind]. exact Hcl. }
  unfold o, polygonize. rewrite Hp. cbn [bind]. rewrite Hsk. cbn [bind]. rewrite Hs. fold nodes. rewrite Hrf. destruct faces; auto.
Qed.

Theorem convex_order (verts : list (vec3 RA)) (first : Z) (c : list (@edge2 RA)) :
  (0 <= first)%Z -> footprint verts first c -> convex_contour c -> separated c -> simple_roof c -> apart c -> blunt c ->
  forall fuel sw sw' sch sch' dbg hgt tan holes, length c + 2 * (length c - 2) < fuel -> holes = None \/ holes = Some [] ->
  let o := polygonize fuel sw sch dbg verts first (Z.of_nat (length c)) holes hgt tan None None in
  let o' := polygonize fuel sw' sch' dbg verts first (Z.of_nat (length c)) holes hgt tan None None in
  exists fs fs', o_result o = Ok fs /\ o_result o' = Ok fs' /\ Permutation fs fs'.
Proof.
  intros F1 F2 F3 S1 S2 S3 S4 fuel sw sw' sch sch' dbg hgt tan holes Hfu Hh o o'.
  destruct (convex_one_face F1 F2 F3 S1 S2 S3 S4 hgt tan None Hfu Hh) as (face & H).
  destruct (H sw sch dbg) as (fs & R & P). destruct (H sw' sch' dbg) as (fs' & R' & P'). exists fs, fs'. split; auto. split; auto.
  etransitivity; [exact P|]. apply Permutation_sym. exact P'.
Qed.
