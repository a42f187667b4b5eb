(** * BisProofs: bisectors, edge events and split events over the real numbers (C31, C32, C46) *)

From Coq Require Import Reals Lra Psatz.
From Verif Require Import Py PyFacts Arith ArithR Euclid Lav ClusterSpec GeoSpec GeoR GeoLines UnitProofs BisSpec.
Set Implicit Arguments.
Unset Strict Implicit.
Open Scope R_scope.

(** the same distance, by means of the unit vector *)
Definition ndist (e : @edge2 RA) (q : vec RA) : R :=
  vx (enorm e) * (vy q - vy (ep1 e)) - vy (enorm e) * (vx q - vx (ep1 e)).
Definition ncross (a b : vec RA) : R := vx a * vy b - vy a * vx b.

Lemma dist_zero (a b : vec RA) : euclid_dist a b = 0 <-> a = b.
Proof.
  destruct a as [ax ay], b as [bx by_]. unfold euclid_dist, Rsqr; cbn [vx vy]. change (num RA) with R in *.
  pose proof (Rle_0_sqr (ax - bx)) as S1. pose proof (Rle_0_sqr (ay - by_)) as S2. unfold Rsqr in *. split.
  - intros H. apply sqrt_eq_0 in H; [|lra].
    assert (ax - bx = 0) by nra. assert (ay - by_ = 0) by nra. f_equal; lra.
  - intros [= -> ->]. replace (_ + _) with 0 by ring. apply sqrt_0.
Qed.

Lemma dist_pos (a b : vec RA) : a <> b -> 0 < euclid_dist a b.
Proof.
  intros H. assert (0 <= euclid_dist a b) by apply sqrt_pos. assert (euclid_dist a b <> 0) by (rewrite dist_zero; auto). lra.
Qed.

Lemma dist_sq (a b : vec RA) :
  euclid_dist a b * euclid_dist a b = (vx b - vx a) * (vx b - vx a) + (vy b - vy a) * (vy b - vy a).
Proof.
  unfold euclid_dist. rewrite sqrt_sqrt. unfold Rsqr. simpl; ring.
  pose proof (Rle_0_sqr (vx a - vx b)) as S1. pose proof (Rle_0_sqr (vy a - vy b)) as S2. simpl in *. lra.
Qed.

Lemma directed_unit e : directed e -> vx (enorm e) * vx (enorm e) + vy (enorm e) * vy (enorm e) = 1.
Proof.
  intros (H & Hx & Hy). pose proof (dist_pos H) as Hp. pose proof (dist_sq (ep1 e) (ep2 e)) as Hs.
  rewrite <- Hx, <- Hy in Hs. set (L := euclid_dist (ep1 e) (ep2 e)) in *.
  destruct (enorm e) as [nx ny]; cbn [vx vy] in *. change (num RA) with R in *.
  apply Rmult_eq_reg_r with (L * L); [|nra]. lra.
Qed.

Lemma edge_dist_n e q : directed e -> edge_dist e q = ndist e q.
Proof.
  intros (H & Hx & Hy). pose proof (dist_pos H) as Hp. unfold edge_dist, signed_dist, orient, ndist.
  rewrite <- Hx, <- Hy. set (L := euclid_dist _ _) in *.
  destruct (enorm e) as [nx ny], q as [qx qy], (ep1 e) as [px py]; cbn [vx vy] in *. change (num RA) with R in *. field. lra.
Qed.

Lemma edge_dist_end1 e : edge_dist e (ep1 e) = 0.
Proof. unfold edge_dist, signed_dist, orient, Rdiv. simpl. ring. Qed.
Lemma edge_dist_end2 e : edge_dist e (ep2 e) = 0.
Proof. unfold edge_dist, signed_dist, orient, Rdiv. simpl. ring. Qed.

(** the distance from the line is the absolute value *)
Lemma dist_to_line_unique a b p d d' : dist_to_line a b p d -> dist_to_line a b p d' -> d = d'.
Proof.
  intros ((q & Q1 & Q2) & Q3) ((r & R1 & R2) & R3). apply Rle_antisym.
  - rewrite <- R2. auto.
  - rewrite <- Q2. auto.
Qed.

Lemma signed_dist_abs a b q : a <> b -> dist_to_line a b q (Rabs (signed_dist a b q)).
Proof.
  intros H. pose proof (dist_pos H) as Hp. pose proof (dist_sq a b) as Hs.
  unfold signed_dist. set (L := euclid_dist a b) in *. set (o := orient a b q).
  assert (G : forall X, 0 <= X -> X * X * (L * L) = o * o -> X = Rabs (o / L)).
  { intros X HX HH. rewrite <- (Rabs_right X) by lra. apply Rsqr_eq_abs_0. unfold Rsqr.
    apply Rmult_eq_reg_r with (L * L); [|nra]. rewrite HH. field. lra. }
  set (t := ((vx q - vx a) * (vx b - vx a) + (vy q - vy a) * (vy b - vy a)) / (L * L)).
  assert (Ht : t * (L * L) = (vx q - vx a) * (vx b - vx a) + (vy q - vy a) * (vy b - vy a)) by (unfold t; simpl; field; lra).
  destruct a as [ax ay], b as [bx by_], q as [qx qy]; cbn [vx vy] in *. change (num RA) with R in *.
  assert (Z : forall s, (Rsqr (qx - (ax + s * (bx - ax))) + Rsqr (qy - (ay + s * (by_ - ay)))) * (L * L) =
               o * o + (s - t) * (s - t) * (L * L) * (L * L)).
  { intros s. rewrite Rmult_assoc. replace ((s - t) * (s - t) * (L * L * (L * L))) with
      ((s * (L * L) - t * (L * L)) * (s * (L * L) - t * (L * L))) by ring.
    rewrite Ht, Hs. unfold o, orient, Rsqr; cbn [vx vy]. ring. }
  split.
  - exists (rvec (ax + t * (bx - ax)) (ay + t * (by_ - ay))). split; [exists t; cbn [rvec vx vy]; auto|].
    unfold euclid_dist, rvec; cbn [vx vy]. apply G; [apply sqrt_pos|].
    rewrite sqrt_sqrt by (pose proof (Rle_0_sqr (qx - (ax + t * (bx - ax)))); pose proof (Rle_0_sqr (qy - (ay + t * (by_ - ay)))); lra).
    rewrite Z. ring.
  - intros [rx ry] (s & S1 & S2); cbn [vx vy] in *. subst rx ry.
    unfold euclid_dist; cbn [vx vy]. rewrite <- (Rabs_right (sqrt _)) by (apply Rle_ge, sqrt_pos).
    apply Rsqr_le_abs_0. rewrite Rsqr_sqrt by (pose proof (Rle_0_sqr (qx - (ax + s * (bx - ax)))); pose proof (Rle_0_sqr (qy - (ay + s * (by_ - ay)))); lra).
    apply Rmult_le_reg_r with (L * L); [nra|]. rewrite Z. unfold Rsqr.
    replace (o / L * (o / L) * (L * L)) with (o * o) by (field; lra).
    assert (0 <= (s - t) * (s - t) * (L * L) * (L * L)); [|lra].
    pose proof (Rle_0_sqr ((s - t) * (L * L))) as K. unfold Rsqr in K. nra.
Qed.

Lemma line_distance_abs e q : directed e -> line_distance (Line2_edge e) q = Rabs (edge_dist e q).
Proof.
  intros (H & _). eapply dist_to_line_unique; [apply edge_line_distance_R|apply signed_dist_abs; auto].
Qed.

(** ** C31 *)

(** distances along a ray *)
Lemma ndist_along e (p q d : vec RA) t : vx q = vx p + t * vx d -> vy q = vy p + t * vy d ->
  ndist e q = ndist e p + t * ncross (enorm e) d.
Proof. intros Hx Hy. unfold ndist, ncross. rewrite Hx, Hy. simpl. ring. Qed.

Lemma mk_vertex_R id p e1 e2 dirs fc : exists sg, (sg = 1 \/ sg = -1) /\
  let v := mk_vertex (A := RA) id p e1 e2 dirs fc in
  v_bis v = Ray2 p (rvec (sg * (vx (enorm e2) - vx (enorm e1))) (sg * (vy (enorm e2) - vy (enorm e1)))) /\
  (v_reflex v = true -> sg = -1) /\ (v_reflex v = false -> sg = 1).
Proof.
  unfold mk_vertex. destruct (match dirs with Some d => d | None => _ end) as [d0 d1].
  set (r := if fc then false else _). exists (if r then -1 else 1). split; [destruct r; auto|].
  cbn [v_bis v_reflex]. split; [|destruct r; split; auto; discriminate].
  rewrite vadd_R, !vscale_R. f_equal. unfold rvec. f_equal; destruct r; simpl; lra.
Qed.

Lemma corner_reflex id p e1 e2 :
  v_reflex (mk_vertex (A := RA) id p e1 e2 None false) = true <-> ncross (enorm e1) (enorm e2) < 0.
Proof.
  unfold mk_vertex, ngtb. cbn [v_reflex]. rewrite vcross_R, vscale_R, zeroN_R. cbn [RA nltb vx vy]. rewrite Rltb_lt.
  unfold ncross. simpl. split; intros; lra.
Qed.

Lemma bisects_dir p e1 e2 sg : directed e1 -> directed e2 -> edge_dist e1 p = edge_dist e2 p ->
  bisects (Ray2 p (rvec (sg * (vx (enorm e2) - vx (enorm e1))) (sg * (vy (enorm e2) - vy (enorm e1))))) e1 e2.
Proof.
  intros D1 D2 H q (t & _ & Hx & Hy). cbn [Ray2 lp lv] in Hx, Hy.
  rewrite !edge_dist_n in * by auto. rewrite (ndist_along e1 Hx Hy), (ndist_along e2 Hx Hy), H.
  unfold ncross, rvec; cbn [vx vy]. simpl. ring.
Qed.

Lemma mk_vertex_bisects id p e1 e2 dirs fc : directed e1 -> directed e2 -> edge_dist e1 p = edge_dist e2 p ->
  bisects (v_bis (mk_vertex (A := RA) id p e1 e2 dirs fc)) e1 e2.
Proof.
  intros D1 D2 H. destruct (@mk_vertex_R id p e1 e2 dirs fc) as (sg & _ & -> & _). apply bisects_dir; auto.
Qed.

Lemma orient_cross e1 e2 p : directed e1 -> directed e2 -> ep2 e1 = p -> ep1 e2 = p ->
  orient (ep1 e1) p (ep2 e2) =
  euclid_dist (ep1 e1) (ep2 e1) * euclid_dist (ep1 e2) (ep2 e2) * ncross (enorm e1) (enorm e2).
Proof.
  intros (H1 & X1 & Y1) (H2 & X2 & Y2) Hp Hq. unfold orient, ncross. rewrite <- Hp at 1 2. rewrite <- X1, <- Y1.
  replace (vx (ep2 e2) - vx (ep1 e1)) with ((vx (ep2 e2) - vx (ep1 e2)) + (vx (ep2 e1) - vx (ep1 e1)))
    by (rewrite Hp, Hq; simpl; ring).
  replace (vy (ep2 e2) - vy (ep1 e1)) with ((vy (ep2 e2) - vy (ep1 e2)) + (vy (ep2 e1) - vy (ep1 e1)))
    by (rewrite Hp, Hq; simpl; ring).
  rewrite <- X1, <- Y1, <- X2, <- Y2. simpl. ring.
Qed.

Lemma corner_bisector id p e1 e2 : directed e1 -> directed e2 -> ep2 e1 = p -> ep1 e2 = p ->
  let v := mk_vertex (A := RA) id p e1 e2 None false in
  (v_reflex v = true <-> orient (ep1 e1) p (ep2 e2) < 0) /\
  lp (v_bis v) = p /\ l_is_ray (v_bis v) = true /\
  forall q, on_lin (v_bis v) q ->
    edge_dist e1 q = edge_dist e2 q /\ 0 <= edge_dist e1 q /\
    (orient (ep1 e1) p (ep2 e2) <> 0 -> q <> p -> 0 < edge_dist e1 q).
Proof.
  intros D1 D2 Hp Hq v.
  assert (Ho := orient_cross D1 D2 Hp Hq).
  assert (L1 : 0 < euclid_dist (ep1 e1) (ep2 e1)) by (apply dist_pos; apply D1).
  assert (L2 : 0 < euclid_dist (ep1 e2) (ep2 e2)) by (apply dist_pos; apply D2).
  set (c := ncross (enorm e1) (enorm e2)) in *.
  assert (L12 : 0 < euclid_dist (ep1 e1) (ep2 e1) * euclid_dist (ep1 e2) (ep2 e2)) by nra.
  set (LL := euclid_dist (ep1 e1) (ep2 e1) * euclid_dist (ep1 e2) (ep2 e2)) in *.
  assert (Hr : v_reflex v = true <-> c < 0) by apply corner_reflex.
  split; [rewrite Hr, Ho; split; intros; nra|].
  destruct (@mk_vertex_R id p e1 e2 None false) as (sg & Hsg & Hb & S1 & S2). fold v in Hb, S1, S2. rewrite Hb.
  split; [auto|]. split; [auto|]. intros q Hl.
  assert (E0 : edge_dist e1 p = 0) by (rewrite <- Hp; apply edge_dist_end2).
  assert (E0' : edge_dist e2 p = 0) by (rewrite <- Hq; apply edge_dist_end1).
  split; [exact (bisects_dir D1 D2 (eq_trans E0 (eq_sym E0')) Hl)|].
  destruct Hl as (t & Ht & Hx & Hy). cbn [Ray2 lp lv l_is_ray] in Ht, Hx, Hy. specialize (Ht eq_refl).
  assert (Ed : edge_dist e1 q = t * Rabs c).
  { rewrite edge_dist_n in * by auto. rewrite (ndist_along e1 Hx Hy), E0.
    assert (Hc : ncross (enorm e1) (rvec (sg * (vx (enorm e2) - vx (enorm e1))) (sg * (vy (enorm e2) - vy (enorm e1)))) = sg * c).
    { unfold c, ncross, rvec; cbn [vx vy]. simpl. ring. }
    rewrite Hc. destruct (v_reflex v) eqn:Er.
    - rewrite (S1 eq_refl). apply Hr in Er || (assert (c < 0) by (apply Hr; auto)).
      rewrite Rabs_left by tauto. ring.
    - rewrite (S2 eq_refl). rewrite Rabs_right; [ring|]. apply Rle_ge, Rnot_lt_le. intros K. apply Hr in K. discriminate. }
  rewrite Ed. pose proof (Rabs_pos c). split; [nra|]. intros Hn Hqp.
  assert (c <> 0) by (intros K; apply Hn; rewrite Ho, K; ring).
  assert (0 < Rabs c) by (apply Rabs_pos_lt; auto).
  assert (t <> 0). { intros ->. apply Hqp. apply vec_ext; [rewrite Hx|rewrite Hy]; simpl; ring. }
  apply Rmult_lt_0_compat; lra.
Qed.
