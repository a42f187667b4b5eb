(** * SquareProofs: the pyramid over a square (C52) *)

From Coq Require Import Permutation Reals Lra.
From Verif Require Import Py PyFacts Arith ArithR Euclid Graph Poly BisSpec TriSpec ConvexSpec RoofSpec RectSpec RectProofs PyramidSpec PyramidPoly.
Set Implicit Arguments.
Unset Strict Implicit.
Local Open Scope R_scope.

Lemma square_tangential (o u : vec RA) (a : R) : vx u * vx u + vy u * vy u = 1 -> 0 < a -> tangential (walls o u a a) (in_frame o u (a / 2) (a / 2)) (a / 2).
Proof.
  intros Hu Ha. split; [lra|]. intros e He. destruct (walls_in He) as (k & Lk & Hk).
  pose proof (wall_dist Hu Ha (Rle_refl a) (in_frame o u (a / 2) (a / 2)) Hk) as W. unfold wall_dists in W. rewrite (fx_frame _ Hu), (fy_frame _ Hu) in W.
  destruct k as [|[|[|[|k]]]]; try lia; cbn [nth_error] in W; injection W as <-; lra.
Qed.

Theorem square_roof verts first w u a : (0 <= first)%Z -> rectangle verts first w u a a -> / 10 ^ 35 < a * a -> 0 < a ->
  forall fuel sw sch dbg holes hgt tan faces, (8 < fuel)%nat -> holes = None \/ holes = Some [] ->
  let out := polygonize fuel sw sch dbg verts first 4 holes hgt tan faces None in
  let N := Z.of_nat (length verts) in
  exists h fs, top_height hgt tan (a / 2) (wz w) h /\
    (forall X, X = in_frame (ground w) u (a / 2) (a / 2) -> o_verts out = verts ++ [V3 (A := RA) (vx X) (vy X) h]) /\
    Permutation fs [[first; first + 1; N]; [first + 1; first + 2; N]; [first + 2; first + 3; N]; [first + 3; first; N]]%Z /\
    o_faces out = option_map (fun old => old ++ fs) faces /\
    o_result out = Ok (match faces with Some old => old ++ fs | None => fs end).
Proof.
  intros Hf Hr Hl Ha fuel sw sch dbg holes hgt tan faces Hfu Hh out N. pose proof (proj1 Hr) as Hu.
  destruct (@pyramid_polygonize verts first Hf _ (rect_foot Hr Hl Ha (Rle_refl a)) (walls_convex _ Hu Ha (Rle_refl a)) _ _ (square_tangential (ground w) Hu Ha)
    fuel sw sch dbg holes hgt tan faces) as (w0 & h & fs & G0 & Ht & O1 & Hp & O2 & O3); auto.
  rewrite (proj1 (proj2 Hr)) in G0. apply Ok_inj in G0. subst w0. exists h, fs. split; auto. split; [intros X ->; exact O1|]. split; auto.
  cbn [walls length seq map] in Hp. change (4 mod 4)%nat with 0%nat in Hp. rewrite !Z.add_0_r in Hp. exact Hp.
Qed.
