(** * GeoR: the geometric primitives over the real numbers *)

From Coq Require Import Reals Lra Psatz.
From Verif Require Import Py PyFacts Arith ArithR Euclid ClusterSpec GeoSpec.
Set Implicit Arguments.
Unset Strict Implicit.
Open Scope R_scope.

(** ring, when a type is displayed as num RA *)
Ltac rring := simpl; lra.

Lemma line_distance_R (l : @lin RA) p : vx (lv l) <> 0 \/ vy (lv l) <> 0 ->
  dist_to_line (lp l) (vadd (lp l) (lv l)) p (line_distance l p).
Proof.
  intros Hn. destruct l as [[ax ay] [ux uy] ray], p as [px py]. cbn [lp lv vx vy] in *.
  unfold line_distance, point_line. cbn [lp lv].
  assert (Hd : 0 < ux * ux + uy * uy) by nra.
  set (lam := (ux * (px - ax) + uy * (py - ay)) / (ux * ux + uy * uy)).
  assert (Hl : lam * (ux * ux + uy * uy) = ux * (px - ax) + uy * (py - ay)) by (unfold lam; field; lra).
  match goal with |- dist_to_line _ _ _ (vlen (vsub _ ?q)) => replace q with (rvec (ax + lam * ux) (ay + lam * uy)) end.
  2: { runfold. destruct (Reqb_spec ((ax + ux - ax) * (ax + ux - ax) + (ay + uy - ay) * (ay + uy - ay)) (0 / 1)) as [K|K].
       - exfalso. nra.
       - unfold rvec. f_equal; unfold lam; field; nra. }
  assert (Hv : vlen (A := RA) (vsub (@V2 RA px py) (rvec (ax + lam * ux) (ay + lam * uy))) =
               euclid_dist (rvec px py) (rvec (ax + lam * ux) (ay + lam * uy))).
  { unfold euclid_dist, rvec. runfold. f_equal. unfold Rsqr. lra. }
  change (@V2 RA px py) with (rvec px py) in *. rewrite Hv. split.
  - exists (rvec (ax + lam * ux) (ay + lam * uy)). split; auto. exists lam. runfold. unfold rvec; cbn [vx vy]. split; ring.
  - intros q (t & Hx & Hy). runfold. destruct q as [qx qy]; cbn [vx vy] in *. unfold euclid_dist, rvec, Rsqr; cbn [vx vy].
    apply sqrt_le_1_alt. subst qx qy. clear Hv. clearbody lam.
    replace (ax + ux - ax) with ux by ring. replace (ay + uy - ay) with uy by ring.
    assert (K : 0 <= (t - lam) * (t - lam) * (ux * ux + uy * uy)) by (apply Rmult_le_pos; [apply Rle_0_sqr|lra]).
    set (hx := px - ax) in *. set (hy := py - ay) in *.
    replace (px - (ax + lam * ux)) with (hx - lam * ux) by (unfold hx; ring).
    replace (py - (ay + lam * uy)) with (hy - lam * uy) by (unfold hy; ring).
    replace (px - (ax + t * ux)) with (hx - t * ux) by (unfold hx; ring).
    replace (py - (ay + t * uy)) with (hy - t * uy) by (unfold hy; ring).
    assert (E : (hx - t * ux) * (hx - t * ux) + (hy - t * uy) * (hy - t * uy) -
                ((hx - lam * ux) * (hx - lam * ux) + (hy - lam * uy) * (hy - lam * uy)) =
                (t - lam) * (t - lam) * (ux * ux + uy * uy)).
    { transitivity ((t * t - lam * lam) * (ux * ux + uy * uy) - 2 * (t - lam) * (ux * hx + uy * hy)); [ring|].
      rewrite <- Hl. ring. }
    lra.
Qed.

Lemma edge_line_distance_R (e : @edge2 RA) p : dist_to_line (ep1 e) (ep2 e) p (line_distance (Line2_edge e) p).
Proof.
  assert (E : vadd (lp (Line2_edge e)) (lv (Line2_edge e)) = ep2 e).
  { unfold Line2_edge; cbn [lp lv]. rewrite vadd_R, vsub_R; cbn [vx vy]. apply vec_ext; simpl; ring. }
  destruct (Req_dec (vx (lv (Line2_edge e))) 0) as [Hx|Hx];
    [destruct (Req_dec (vy (lv (Line2_edge e))) 0) as [Hy|Hy]|].
  2, 3: rewrite <- E; refine (@line_distance_R (Line2_edge e) p _); auto.
  unfold Line2_edge in Hx, Hy; cbn [lv] in Hx, Hy. rewrite vsub_R in Hx, Hy; cbn [vx vy] in Hx, Hy.
  destruct e as [id [ax ay] [bx by_] nrm i1 i2], p as [px py]; cbn [ep1 ep2 vx vy] in *.
  assert (D : line_distance (Line2_edge (Edge id (V2 ax ay) (V2 bx by_) nrm i1 i2)) (V2 px py) =
              euclid_dist (rvec px py) (rvec ax ay)).
  { unfold line_distance, point_line, Line2_edge. cbn [lp lv ep1 ep2]. runfold.
    destruct (Reqb_spec ((ax + (bx - ax) - ax) * (ax + (bx - ax) - ax) + (ay + (by_ - ay) - ay) * (ay + (by_ - ay) - ay)) (0 / 1)) as [K|K].
    - unfold euclid_dist, rvec, Rsqr; cbn [vx vy]. f_equal. lra.
    - exfalso. apply K. replace (bx - ax) with 0 by lra. replace (by_ - ay) with 0 by lra. lra. }
  rewrite D. split.
  - exists (rvec ax ay). split; auto. exists 0. unfold rvec; simpl. split; rring.
  - intros [qx qy] (t & K1 & K2); cbn [vx vy] in *. subst. unfold euclid_dist, rvec, Rsqr; cbn [vx vy].
    replace (bx - ax) with 0 by lra. replace (by_ - ay) with 0 by lra. right. f_equal. rring.
Qed.
