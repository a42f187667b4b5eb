(** * PropsGeo: properties C34, C35, C36, C37, C38 and C45 of the geometric helpers, over the real numbers *)

From Coq Require Import Reals Lra.
From Verif Require Import Py Arith ArithR ArithF Euclid Lav Cluster ClusterSpec GeoSpec GeoR GeoLines.
Set Implicit Arguments.
Unset Strict Implicit.
Local Open Scope R_scope.

(** ** C34 *)
Theorem C34_line_and_ray_intersection :
  forall (a b : @lin RA) (p : vec RA),
  line_intersect a b = Some p <->
  vx (lv a) * vy (lv b) <> vy (lv a) * vx (lv b) /\ on_lin a p /\ on_lin b p.
Proof. exact line_intersect_R. Qed.
Print Assumptions C34_line_and_ray_intersection.

(** ** C35 *)
Theorem C35_reported_segments_meet :
  forall a b c d : vec RA, seg_intersect a b c d = true -> exists p, on_segment a b p /\ on_segment c d p.
Proof. exact seg_sound_R. Qed.
Print Assumptions C35_reported_segments_meet.

Theorem C35_segments_in_general_position :
  forall a b c d : vec RA,
  orient a b c <> 0 -> orient a b d <> 0 -> orient a c d <> 0 -> orient b c d <> 0 ->
  (seg_intersect a b c d = true <-> exists p, on_segment a b p /\ on_segment c d p).
Proof. exact seg_intersect_R. Qed.
Print Assumptions C35_segments_in_general_position.

Theorem C35_touching_segments_refuted :
  exists a b c d p : vec RA,
  on_segment a b p /\ on_segment c d p /\ a <> b /\ c <> d /\ orient a b d <> 0 /\ seg_intersect a b c d = false.
Proof. exact seg_touch_refuted. Qed.
Print Assumptions C35_touching_segments_refuted.

(** ** C36 *)
Theorem C36_distance_to_line :
  forall (l : @lin RA) p, vx (lv l) <> 0 \/ vy (lv l) <> 0 ->
  dist_to_line (lp l) (vadd (lp l) (lv l)) p (line_distance l p).
Proof. exact line_distance_R. Qed.
Print Assumptions C36_distance_to_line.

(** ** C37 *)
Theorem C37_circle_through_three_points :
  forall (pts : list (vec RA)) p0 pm pl,
  nth_error pts 0 = Some p0 -> nth_error pts (length pts / 2) = Some pm -> nth_error pts (length pts - 1) = Some pl ->
  (orient p0 pm pl = 0 -> fitCircle3Points pts = Err ZeroDivisionError) /\
  (orient p0 pm pl <> 0 -> exists c r, fitCircle3Points pts = Ok (c, r) /\
     euclid_dist c p0 = r /\ euclid_dist c pm = r /\ euclid_dist c pl = r).
Proof. exact fitCircle_R. Qed.
Print Assumptions C37_circle_through_three_points.

(** ** C38: L lists the pairs of positions, in the list of skeleton edges, of edges that cross *)
Theorem C38_counts_crossings :
  forall sk : list (@subtree RA),
  let edges := concat (map (fun a => map (fun p => (source a, p)) (sinks a)) sk) in
  exists L, NoDup L /\ length L = checkEdgeCrossing sk /\
    forall i j, In (i, j) L <-> (i < j)%nat /\
      exists e f, nth_error edges i = Some e /\ nth_error edges j = Some f /\ crossing (1 / 100000) e f.
Proof. exact checkEdgeCrossing_R. Qed.
Print Assumptions C38_counts_crossings.

(** ** C45 *)
Theorem C45_robustFloatEqual_meaning :
  forall f1 f2 : R, robustFloatEqual (A := RA) f1 f2 = true <->
  Rabs (f1 - f2) <= 1 / 100000 * Rmax 1 (Rmax (Rabs f1) (Rabs f2)).
Proof. exact robust_R. Qed.
Print Assumptions C45_robustFloatEqual_meaning.

Theorem C45_approximately_equals_meaning :
  forall a b : vec RA, approximately_equals a b = true <->
  euclid_dist a b <= 1 / 1000 * Rmax (euclid_dist a (rvec 0 0)) (euclid_dist b (rvec 0 0)).
Proof. exact approx_R. Qed.
Print Assumptions C45_approximately_equals_meaning.

Theorem C45_robustFloatEqual_reflexive : forall f : R, robustFloatEqual (A := RA) f f = true.
Proof. exact robust_refl. Qed.
Print Assumptions C45_robustFloatEqual_reflexive.
Theorem C45_robustFloatEqual_symmetric : forall f g : R, robustFloatEqual (A := RA) f g = robustFloatEqual (A := RA) g f.
Proof. exact robust_sym. Qed.
Print Assumptions C45_robustFloatEqual_symmetric.
Theorem C45_approximately_equals_reflexive : forall a : vec RA, approximately_equals a a = true.
Proof. exact approx_refl. Qed.
Print Assumptions C45_approximately_equals_reflexive.
Theorem C45_approximately_equals_symmetric : forall a b : vec RA, approximately_equals a b = approximately_equals b a.
Proof. exact approx_sym. Qed.
Print Assumptions C45_approximately_equals_symmetric.

(** ** concrete cases *)

(** a slanted line and a vertical ray meet at (2,2); the opposite ray misses the line *)
Example ex_line_ray :
  line_intersect (Line2_pv (rvec 0 0) (rvec 1 1)) (Ray2 (rvec 2 0) (rvec 0 3)) = Some (rvec 2 2) /\
  line_intersect (Line2_pv (rvec 0 0) (rvec 1 1)) (Ray2 (rvec 2 0) (rvec 0 (-3))) = None.
Proof.
  split.
  - apply C34_line_and_ray_intersection. unfold on_lin, Line2_pv, Ray2, rvec; cbn [lp lv vx vy l_is_ray]. split; [simpl; lra|].
    split; [exists 2|exists (2 / 3)]; simpl; repeat split; intros; try discriminate; lra.
  - destruct (line_intersect _ _) as [p|] eqn:E; auto. exfalso.
    apply C34_line_and_ray_intersection in E. unfold on_lin, Line2_pv, Ray2, rvec in E; cbn [lp lv vx vy l_is_ray] in E.
    destruct E as (_ & (t & _ & H1 & H2) & (s & Hs & H3 & H4)). specialize (Hs eq_refl). simpl in *. lra.
Qed.

(** the diagonals of a square meet *)
Example ex_diagonals : seg_intersect (rvec 0 0) (rvec 2 2) (rvec 2 0) (rvec 0 2) = true.
Proof.
  apply C35_segments_in_general_position; try (unfold orient, rvec; cbn [vx vy]; simpl; lra).
  exists (rvec 1 1). split; exists (1 / 2); unfold rvec; cbn [vx vy]; simpl; lra.
Qed.

(** the distance of (3,4) from the x axis *)
Example ex_distance : line_distance (Line2_pv (rvec 0 0) (rvec 5 0)) (rvec 3 4) = 4.
Proof.
  destruct (@C36_distance_to_line (Line2_pv (rvec 0 0) (rvec 5 0)) (rvec 3 4)) as [(q & (t & H1 & H2) & H3) H4].
  - left. cbn [lv Line2_pv rvec vx]. simpl. lra.
  - cbn [lp lv Line2_pv] in *. rewrite vadd_R in *. cbn [rvec vx vy] in *. apply Rle_antisym.
    + eapply Rle_trans; [apply (H4 (rvec 3 0)); exists (3 / 5); cbn [rvec vx vy]; simpl; lra|].
      unfold euclid_dist; cbn [rvec vx vy]. replace (Rsqr (3 - 3) + Rsqr (4 - 0)) with (Rsqr 4) by (unfold Rsqr; lra).
      rewrite sqrt_Rsqr; lra.
    + rewrite <- H3. unfold euclid_dist; cbn [rvec vx vy]. rewrite <- (sqrt_Rsqr 4) at 1 by lra. apply sqrt_le_1_alt.
      replace (vy q) with 0 by (simpl in *; lra). pose proof (Rle_0_sqr (3 - vx q)). unfold Rsqr in *. simpl in *. lra.
Qed.

(** three points of a circle, and three points of a line *)
Example ex_circle :
  (exists c r, fitCircle3Points [rvec 1 0; rvec 0 1; rvec (-1) 0] = Ok (c, r) /\ euclid_dist c (rvec 0 1) = r) /\
  fitCircle3Points [rvec 1 0; rvec 2 0; rvec 5 0] = Err ZeroDivisionError.
Proof.
  split.
  - destruct (@C37_circle_through_three_points [rvec 1 0; rvec 0 1; rvec (-1) 0] _ _ _ eq_refl eq_refl eq_refl) as [_ H].
    destruct H as (c & r & H1 & _ & H2 & _); [unfold orient, rvec; cbn [vx vy]; simpl; lra|]. exists c, r. auto.
  - apply (@C37_circle_through_three_points [rvec 1 0; rvec 2 0; rvec 5 0] _ _ _ eq_refl eq_refl eq_refl).
    unfold orient, rvec; cbn [vx vy]; simpl; lra.
Qed.

(** two crossing edges and one beside them *)
Example ex_crossings :
  crossing (1 / 100000) (rvec 0 0, rvec 2 2) (rvec 2 0, rvec 0 2) /\
  ~ crossing (1 / 100000) (rvec 0 0, rvec 2 2) (rvec 2 0, rvec 2 9).
Proof.
  unfold crossing, rvec; cbn [vx vy]. split.
  - split; [simpl; lra|]. exists (1 / 2), (1 / 2). simpl. lra.
  - intros (_ & r & s & H1 & H2 & H3 & H4). simpl in *. lra.
Qed.

(** the same edges as a skeleton, in IEEE arithmetic: one crossing *)
Example ex_crossing_count :
  let f := ArithF.F64 in let n := fun k : Z => lit (a := f) k 1%positive in let P := fun x y => @mkvec f (n x) (n y) in
  checkEdgeCrossing [Subtree (P 0 0)%Z (n 1%Z) [P 2 2]%Z; Subtree (P 2 0)%Z (n 2%Z) [P 0 2; P 2 9]%Z] = 1%nat.
Proof. vm_compute. reflexivity. Qed.
