(** * CwCases: a footprint listed clockwise (cases for C61) *)

From Coq Require Import Reals Lra ZArith.
From Verif Require Import Py Arith ArithR ArithF RSpec Euclid Lav Cluster Poly LoopSpec ClusterSpec GeoSpec GeoLines BisSpec BisProofs SplitSpec TriSpec ConvexSpec RoofSpec FootSpec FootCases CwSpec.
Set Implicit Arguments.
Unset Strict Implicit.
Local Open Scope R_scope.

(** the square with one corner cut off of PyramidCases, the other way round *)
Definition cwtent : list (@edge2 RA) :=
  [Edge (A := RA) 0 (rvec (-6) 6) (rvec 2 6) (rvec 1 0) 2 3;
   Edge (A := RA) 1 (rvec 2 6) (rvec 6 3) (rvec (4 / 5) (- 3 / 5)) 3 4;
   Edge (A := RA) 2 (rvec 6 3) (rvec 6 (-6)) (rvec 0 (-1)) 4 5;
   Edge (A := RA) 3 (rvec 6 (-6)) (rvec (-6) (-6)) (rvec (-1) 0) 5 6;
   Edge (A := RA) 4 (rvec (-6) (-6)) (rvec (-6) 6) (rvec 0 1) 6 2].
Definition cwtent_verts : list (vec3 RA) :=
  [V3 (A := RA) 100 100 0; V3 (A := RA) 7 7 7; V3 (A := RA) (-6) 6 3; V3 (A := RA) 2 6 3; V3 (A := RA) 6 3 3; V3 (A := RA) 6 (-6) 3; V3 (A := RA) (-6) (-6) 3].

Lemma cwtent_lengths : sqrt (12 * 12) = 12 /\ sqrt (9 * 9) = 9 /\ sqrt (5 * 5) = 5 /\ sqrt (8 * 8) = 8.
Proof. repeat split; apply sqrt_square; lra. Qed.

Ltac side x := match goal with |- context [sqrt ?y] => replace y with (x * x) by (simpl; ring) end.

Lemma cwtent_directed : forall e, In e cwtent -> directed e.
Proof.
  destruct cwtent_lengths as (S12 & S9 & S5 & S8).
  intros e [<-|[<-|[<-|[<-|[<-|[]]]]]]; unfold directed, euclid_dist, Rsqr; cbn [ep1 ep2 enorm rvec vx vy]; simpl;
    (split; [intros K; pose proof (f_equal (@vx RA) K) as K1; pose proof (f_equal (@vy RA) K) as K2; simpl in K1, K2; lra|]).
  - side 8. rewrite S8. split; lra.
  - side 5. rewrite S5. split; lra.
  - side 9. rewrite S9. split; lra.
  - side 12. rewrite S12. split; lra.
  - side 12. rewrite S12. split; lra.
Qed.

Lemma cwtent_clockwise : clockwise_contour cwtent.
Proof.
  split; [|split].
  - split; [discriminate|]. split; [exact cwtent_directed|].
    intros e1 e2 (j & Hj & N1 & N2). simpl in Hj.
    destruct j as [|[|[|[|[|j]]]]]; simpl in N1, N2; [| | | | |lia]; injection N1 as <-; injection N2 as <-; reflexivity.
  - simpl. lia.
  - intros i j k a b d Hij Hjk Ha Hb Hd.
    assert (Lk : (k < 5)%nat) by (change 5%nat with (length cwtent); apply nth_error_Some; congruence).
    destruct i as [|[|[|i]]]; [| | |exfalso; lia]; (destruct j as [|[|[|[|j]]]]; [try (exfalso; lia)|try (exfalso; lia)|try (exfalso; lia)|try (exfalso; lia)|exfalso; lia]);
    (destruct k as [|[|[|[|[|k]]]]]; [try (exfalso; lia)|try (exfalso; lia)|try (exfalso; lia)|try (exfalso; lia)|try (exfalso; lia)|exfalso; lia]);
    simpl in Ha, Hb, Hd; injection Ha as <-; injection Hb as <-; injection Hd as <-; unfold orient; cbn [ep1 rvec vx vy]; change (num RA) with R in *; lra.
Qed.

Lemma cwtent_foot : footprint cwtent_verts 2 cwtent.
Proof.
  assert (T : / 10 ^ 35 < 1) by (rewrite <- Rinv_1; apply Rinv_lt_contravar; [|apply Rlt_pow_R1; [lra|lia]]; rewrite Rmult_1_l; apply pow_lt; lra).
  intros i e Hi. destruct i as [|[|[|[|[|i]]]]]; simpl in Hi; [| | | | |destruct i; discriminate]; injection Hi as <-;
    (split; [unfold long_enough; cbn [ep1 ep2 rvec vx vy]; change (num RA) with R in *; lra|eexists; split; [reflexivity|reflexivity]]).
Qed.

Lemma sq_far x y : x <= -1 \/ 1 <= x \/ y <= -1 \/ 1 <= y -> 1 <= x * x + y * y.
Proof. intros H. assert (0 <= x * x) by nra. assert (0 <= y * y) by nra. destruct H as [H|[H|[H|H]]]; nra. Qed.

(** the lines of the walls cross in the corners or 1 or more away from them *)
Lemma cwtent_crossings e1 e2 f q : consecutive cwtent e1 e2 -> In f cwtent -> cross_in e1 f q \/ cross_in e2 f q ->
  q = ep1 e2 \/ 1 <= (vx q - vx (ep1 e2)) * (vx q - vx (ep1 e2)) + (vy q - vy (ep1 e2)) * (vy q - vy (ep1 e2)).
Proof.
  intros (j & Hj & N1 & N2) Hf Hx. simpl in Hj.
  destruct j as [|[|[|[|[|j]]]]]; simpl in N1, N2; [| | | | |lia]; injection N1 as <-; injection N2 as <-;
  destruct Hf as [<-|[<-|[<-|[<-|[<-|[]]]]]]; destruct Hx as [(N & (t & Tx & Ty) & (u & Ux & Uy))|(N & (t & Tx & Ty) & (u & Ux & Uy))];
  cbn [ep1 ep2 rvec vx vy] in *; change (num RA) with R in *;
  first [exfalso; apply N; lra | left; apply vec_ext; cbn [rvec vx vy]; change (num RA) with R in *; lra
    | right; apply sq_far; first [left; lra | right; left; lra | right; right; left; lra | right; right; right; lra]].
Qed.

Lemma cwtent_fair e1 e2 : consecutive cwtent e1 e2 -> fair_corner cwtent e1 e2.
Proof.
  intros Hcon. pose proof (fun f q => @cwtent_crossings e1 e2 f q Hcon) as Hcr.
  assert (T : / 10 ^ 35 < 1) by (rewrite <- Rinv_1; apply Rinv_lt_contravar; [|apply Rlt_pow_R1; [lra|lia]]; rewrite Rmult_1_l; apply pow_lt; lra).
  destruct cwtent_lengths as (S12 & S9 & S5 & S8).
  assert (Hplain : -1 + 1 / 100000 <= turn_sine e1 e2 -> fair_corner cwtent e1 e2).
  { intros H. left. intros _. split; auto. intros f q Hf Hx. destruct (Hcr f q Hf Hx) as [K|K]; auto. right. lra. }
  assert (Hright : (forall e q, In e cwtent -> e <> e1 -> e <> e2 -> edge_dist e1 q = 1 -> edge_dist e2 q = 1 -> edge_dist e q <= edge_dist e (ep1 e2) + 5 / 6) -> fair_corner cwtent e1 e2).
  { intros H. right. split; auto. intros f q Hf Hx. destruct (Hcr f q Hf Hx) as [K|K]; auto. right. unfold euclid_dist, Rsqr. apply Rle_trans with 1; [lra|].
    rewrite <- sqrt_1. apply sqrt_le_1; [lra| |exact K]. apply Rle_trans with 1; [lra|exact K]. }
  destruct Hcon as (j & Hj & N1 & N2). simpl in Hj.
  assert (He : forall e q, In e cwtent -> edge_dist e q = ndist e q) by (intros; apply edge_dist_n, cwtent_directed; auto).
  destruct j as [|[|[|[|[|j]]]]]; simpl in N1, N2; [| | | | |lia]; injection N1 as <-; injection N2 as <-.
  2, 3: apply Hplain; unfold turn_sine, orient, euclid_dist, Rsqr; cbn [ep1 ep2 rvec vx vy]; simpl.
  - apply Hright. intros e q Hin N1 N2 D1 D2. rewrite !He in * by (simpl; auto 6). destruct Hin as [<-|[<-|[<-|[<-|[<-|[]]]]]]; try congruence;
      unfold ndist in *; cbn [ep1 enorm rvec vx vy] in *; change (num RA) with R in *; lra.
  - side 8. rewrite S8. match goal with |- context [sqrt ?y] => replace y with (5 * 5) by (simpl; ring) end. rewrite S5. lra.
  - side 5. rewrite S5. match goal with |- context [sqrt ?y] => replace y with (9 * 9) by (simpl; ring) end. rewrite S9. lra.
  - apply Hright. intros e q Hin N1 N2 D1 D2. rewrite !He in * by (simpl; auto 6). destruct Hin as [<-|[<-|[<-|[<-|[<-|[]]]]]]; try congruence;
      unfold ndist in *; cbn [ep1 enorm rvec vx vy] in *; change (num RA) with R in *; lra.
  - apply Hright. intros e q Hin N1 N2 D1 D2. rewrite !He in * by (simpl; auto 6). destruct Hin as [<-|[<-|[<-|[<-|[<-|[]]]]]]; try congruence;
      unfold ndist in *; cbn [ep1 enorm rvec vx vy] in *; change (num RA) with R in *; lra.
Qed.

(** ** in binary64 *)
Local Open Scope Z_scope.
Definition cwpt (p : Z * Z) : vec3 F64 := V3 (A := F64) (lit (a := F64) (fst p) 1) (lit (a := F64) (snd p) 1) (lit (a := F64) 3 1).
(** what is left of a call with slope 1 (height 0) or with the given height: the number of vertices and the result *)
Definition cwrun (h : Z) ps : nat * res (list (list Z)) :=
  let o := polygonize (A := F64) 60 (fun _ _ => false) (fun _ _ => O) false (map cwpt ps) 0 (Z.of_nat (length ps)) None (lit (a := F64) h 1) (lit (a := F64) 1 1) None None in
  (length (o_verts o), o_result o).
Definition cwtent_ints : list (Z * Z) := [(-6, 6); (2, 6); (6, 3); (6, -6); (-6, -6)].
Definition cwell : list (Z * Z) := [(0, 0); (0, 20); (8, 20); (8, 9); (22, 9); (22, 0)].

Lemma cwtent_runs : cwrun 0 cwtent_ints = (5%nat, Ok []) /\ cwrun 2 cwtent_ints = (5%nat, Err ValueError).
Proof. split; vm_compute; reflexivity. Qed.
Lemma cwell_runs : cwrun 0 cwell = (6%nat, Ok []) /\ cwrun 2 cwell = (6%nat, Err ValueError).
Proof. split; vm_compute; reflexivity. Qed.
Lemma ccwell_runs : exists fs, cwrun 0 (rev cwell) = (10%nat, Ok fs) /\ length fs = 6%nat.
Proof. eexists. split; [vm_compute; reflexivity|reflexivity]. Qed.
