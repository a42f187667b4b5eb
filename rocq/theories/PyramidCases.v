(** * PyramidCases: a square with one corner cut off (case for C52) *)

From Coq Require Import Reals Lra ZArith.
From Verif Require Import Py Arith ArithR ArithF RSpec Euclid Lav LoopSpec ClusterSpec GeoSpec GeoLines BisSpec BisProofs TriSpec ConvexSpec RoofSpec FootSpec FootCases RectSpec RectCases PyramidSpec.
Set Implicit Arguments.
Unset Strict Implicit.
Local Open Scope R_scope.

(** the walls around a circle of radius 6: the corner at (6,6) is cut along 3x + 4y = 30 *)
Definition tent : list (@edge2 RA) :=
  [Edge (A := RA) 0 (rvec (-6) (-6)) (rvec 6 (-6)) (rvec 1 0) 2 3;
   Edge (A := RA) 1 (rvec 6 (-6)) (rvec 6 3) (rvec 0 1) 3 4;
   Edge (A := RA) 2 (rvec 6 3) (rvec 2 6) (rvec (- 4 / 5) (3 / 5)) 4 5;
   Edge (A := RA) 3 (rvec 2 6) (rvec (-6) 6) (rvec (-1) 0) 5 6;
   Edge (A := RA) 4 (rvec (-6) 6) (rvec (-6) (-6)) (rvec 0 (-1)) 6 2].
Definition tent_verts : list (vec3 RA) :=
  [V3 (A := RA) 100 100 0; V3 (A := RA) 7 7 7; V3 (A := RA) (-6) (-6) 3; V3 (A := RA) 6 (-6) 3; V3 (A := RA) 6 3 3; V3 (A := RA) 2 6 3; V3 (A := RA) (-6) 6 3].

Lemma tent_directed : forall e, In e tent -> directed e.
Proof.
  assert (S12 : sqrt (12 * 12) = 12) by (apply sqrt_square; lra). assert (S9 : sqrt (9 * 9) = 9) by (apply sqrt_square; lra).
  assert (S5 : sqrt (5 * 5) = 5) by (apply sqrt_square; lra). assert (S8 : sqrt (8 * 8) = 8) by (apply sqrt_square; lra).
  intros e [<-|[<-|[<-|[<-|[<-|[]]]]]]; unfold directed, euclid_dist, Rsqr; cbn [ep1 ep2 enorm rvec vx vy]; simpl;
    (split; [intros K; pose proof (f_equal (@vx RA) K) as K1; pose proof (f_equal (@vy RA) K) as K2; simpl in K1, K2; lra|]).
  - match goal with |- context [sqrt ?x] => replace x with (12 * 12) by (simpl; ring) end. rewrite S12. split; lra.
  - match goal with |- context [sqrt ?x] => replace x with (9 * 9) by (simpl; ring) end. rewrite S9. split; lra.
  - match goal with |- context [sqrt ?x] => replace x with (5 * 5) by (simpl; ring) end. rewrite S5. split; lra.
  - match goal with |- context [sqrt ?x] => replace x with (8 * 8) by (simpl; ring) end. rewrite S8. split; lra.
  - match goal with |- context [sqrt ?x] => replace x with (12 * 12) by (simpl; ring) end. rewrite S12. split; lra.
Qed.

Lemma tent_convex : convex_contour tent.
Proof.
  split; [|split].
  - split; [discriminate|]. split; [exact tent_directed|].
    intros e1 e2 (j & Hj & N1 & N2). simpl in Hj.
    destruct j as [|[|[|[|[|j]]]]]; simpl in N1, N2; [| | | | |lia]; injection N1 as <-; injection N2 as <-; reflexivity.
  - simpl. lia.
  - intros i j k a b d Hij Hjk Ha Hb Hd.
    assert (Lk : (k < 5)%nat) by (change 5%nat with (length tent); apply nth_error_Some; congruence).
    destruct i as [|[|[|i]]]; [| | |exfalso; lia]; (destruct j as [|[|[|[|j]]]]; [try (exfalso; lia)|try (exfalso; lia)|try (exfalso; lia)|try (exfalso; lia)|exfalso; lia]);
    (destruct k as [|[|[|[|[|k]]]]]; [try (exfalso; lia)|try (exfalso; lia)|try (exfalso; lia)|try (exfalso; lia)|try (exfalso; lia)|exfalso; lia]);
    simpl in Ha, Hb, Hd; injection Ha as <-; injection Hb as <-; injection Hd as <-; unfold orient; cbn [ep1 rvec vx vy]; change (num RA) with R in *; lra.
Qed.

Lemma tent_tangential : tangential tent (rvec 0 0) 6.
Proof.
  split; [lra|]. intros e He. rewrite edge_dist_n by (apply tent_directed; auto).
  destruct He as [<-|[<-|[<-|[<-|[<-|[]]]]]]; unfold ndist; cbn [ep1 enorm rvec vx vy]; change (num RA) with R in *; lra.
Qed.

Lemma tent_foot : footprint tent_verts 2 tent.
Proof.
  assert (T : / 10 ^ 35 < 1) by (rewrite <- Rinv_1; apply Rinv_lt_contravar; [|apply Rlt_pow_R1; [lra|lia]]; rewrite Rmult_1_l; apply pow_lt; lra).
  intros i e Hi. destruct i as [|[|[|[|[|i]]]]]; simpl in Hi; [| | | | |destruct i; discriminate]; injection Hi as <-;
    (split; [unfold long_enough; cbn [ep1 ep2 rvec vx vy]; change (num RA) with R in *; lra|eexists; split; [reflexivity|reflexivity]]).
Qed.

(** the roof of the same footprint in binary64 *)
Definition tent_ints : list (Z * Z) := [(-6, -6); (6, -6); (6, 3); (2, 6); (-6, 6)]%Z.
Lemma tent_faces : faces_of 1 tent_ints = [[4; 0; 5]; [3; 4; 5]; [0; 1; 5]; [1; 2; 5]; [2; 3; 5]]%Z.
Proof. vm_compute. reflexivity. Qed.

(** a square standing askew *)
Definition hut : list (vec3 RA) := [V3 (A := RA) 1 1 5; V3 (A := RA) 7 9 5; V3 (A := RA) (-1) 15 5; V3 (A := RA) (-7) 7 5].
Lemma hut_ok : rectangle hut 0 (V3 (A := RA) 1 1 5) (rvec (3 / 5) (4 / 5)) 10 10 /\ / 10 ^ 35 < 10 * 10 /\ 0 < 10.
Proof.
  split; [|split; [apply long_side; lra|lra]]. unfold rectangle, ground, in_frame, rvec. cbn [vx vy wx wy wz]. change (num RA) with R in *.
  split; [field|]. split; [reflexivity|]. exists (V3 (A := RA) 7 9 5), (V3 (A := RA) (-1) 15 5), (V3 (A := RA) (-7) 7 5). cbn [wx wy]. change (num RA) with R in *.
  split; [reflexivity|]. split; [f_equal; field|]. split; [reflexivity|]. split; [f_equal; field|]. split; [reflexivity|f_equal; field].
Qed.
