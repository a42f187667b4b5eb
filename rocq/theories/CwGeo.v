(** * CwGeo: outside of a convex polygon listed clockwise (C61) *)

From Coq Require Import Reals Lra.
From Verif Require Import Py PyFacts Arith ArithR Euclid Lav ClusterSpec GeoSpec GeoLines BisSpec BisProofs BisStart PatSpec ConvexSpec ConvexGeo CwSpec.
Set Implicit Arguments.
Unset Strict Implicit.
Local Open Scope R_scope.

(** ** the mirror image is listed counterclockwise *)
Definition mir (p : pt) : pt := rvec (- vx p) (vy p).
Definition mire (e : @edge2 RA) : @edge2 RA := Edge (eid e) (mir (ep1 e)) (mir (ep2 e)) (mir (enorm e)) (ei1 e) (ei2 e).

Lemma mir_orient a b d : orient (mir a) (mir b) (mir d) = - orient a b d.
Proof. unfold orient, mir, rvec. cbn [vx vy]. change (num RA) with R in *. ring. Qed.
Lemma mir_cross a b : ncross (mir a) (mir b) = - ncross a b.
Proof. unfold ncross, mir, rvec. cbn [vx vy]. change (num RA) with R in *. ring. Qed.
Lemma mir_tri a b d : tri (mir a) (mir b) (mir d) = - tri a b d.
Proof. unfold tri. rewrite !mir_cross. ring. Qed.
Lemma mir_dist a b : euclid_dist (mir a) (mir b) = euclid_dist a b.
Proof. unfold euclid_dist, mir, rvec, Rsqr. cbn [vx vy]. change (num RA) with R in *. f_equal. ring. Qed.
Lemma mir_inj a b : mir a = mir b -> a = b.
Proof.
  intros H. apply vec_ext; [|exact (f_equal vy H)]. pose proof (f_equal vx H) as K. unfold mir, rvec in K. cbn [vx] in K. change (num RA) with R in *. lra.
Qed.

Lemma nth_mire c i f : nth_error (map mire c) i = Some f -> exists e, nth_error c i = Some e /\ f = mire e.
Proof. rewrite nth_error_map. destruct (nth_error c i) as [e|]; simpl; intros H; [|discriminate]. injection H as <-. eauto. Qed.

Section Cw.
Variable c : list (@edge2 RA).
Hypothesis Hc : clockwise_contour c.
Let n := length c.

Lemma mirrored : convex_contour (map mire c).
Proof.
  destruct Hc as ((Hne & Hd & Hj) & H3 & Ho). split; [split; [|split]|split].
  - intros K. apply map_eq_nil in K. auto.
  - intros f Hf. apply in_map_iff in Hf as (e & <- & He). destruct (Hd e He) as (N & X & Y). unfold directed, mire. cbn [ep1 ep2 enorm]. rewrite mir_dist.
    split; [intros K; apply N, mir_inj, K|]. unfold mir, rvec. cbn [vx vy]. change (num RA) with R in *. split; lra.
  - intros f1 f2 (j & Lj & J1 & J2). rewrite map_length in *. apply nth_mire in J1 as (e1 & J1 & ->). apply nth_mire in J2 as (e2 & J2 & ->).
    cbn [mire ep1 ep2]. f_equal. apply Hj. exists j. auto.
  - rewrite map_length. auto.
  - intros i j k a b d Hij Hjk Ha Hb Hdd. apply nth_mire in Ha as (a' & Ha & ->). apply nth_mire in Hb as (b' & Hb & ->). apply nth_mire in Hdd as (d' & Hdd & ->).
    cbn [mire ep1]. rewrite mir_orient. specialize (Ho i j k a' b' d' Hij Hjk Ha Hb Hdd). lra.
Qed.

Lemma cw_pos : (3 <= n)%nat.
Proof. apply Hc. Qed.

Lemma at_mire i e : edge_at c i = Some e -> edge_at (map mire c) i = Some (mire e).
Proof. unfold edge_at. rewrite map_length. intros H. rewrite nth_error_map, H. auto. Qed.

Lemma cw_tri i p q e f g : (0 < p)%nat -> (p < q)%nat -> (q < n)%nat ->
  edge_at c i = Some e -> edge_at c (i + p) = Some f -> edge_at c (i + q) = Some g -> tri (enorm e) (enorm f) (enorm g) < 0.
Proof.
  intros Hp Hq Hn He Hf Hg. pose proof (@turn_tri _ mirrored i p q (mire e) (mire f) (mire g) Hp Hq ltac:(rewrite map_length; exact Hn) (at_mire He) (at_mire Hf) (at_mire Hg)) as K.
  cbn [mire enorm] in K. rewrite mir_tri in K. lra.
Qed.

Lemma cw_right i e f : edge_at c i = Some e -> edge_at c (S i) = Some f -> ncross (enorm e) (enorm f) < 0.
Proof.
  intros He Hf. pose proof (turn_left mirrored (at_mire He) (at_mire Hf)) as K. cbn [mire enorm] in K. rewrite mir_cross in K. lra.
Qed.

Lemma cw_some i : exists e, edge_at c i = Some e.
Proof.
  unfold edge_at. destruct (nth_error c (i mod length c)) as [e|] eqn:Hn; eauto. exfalso. apply nth_error_None in Hn.
  pose proof cw_pos. pose proof (Nat.mod_upper_bound i (length c)). unfold n in *. lia.
Qed.

Lemma cw_pnt i e : edge_at c i = Some e -> pnt (map mire c) i = mir (ep1 e).
Proof. intros H. unfold pnt. rewrite (at_mire H). auto. Qed.

Lemma cw_directed i e : edge_at c i = Some e -> directed e.
Proof. intros H. apply nth_error_In in H. apply Hc. auto. Qed.

Lemma cw_succ i e f : edge_at c i = Some e -> edge_at c (S i) = Some f -> ep2 e = ep1 f.
Proof.
  intros He Hf. pose proof (edge_at_succ mirrored (at_mire He)) as K. rewrite (cw_pnt Hf) in K. cbn [mire ep2] in K. apply mir_inj. auto.
Qed.

(** the corners are behind the walls that do not end there *)
Lemma cw_behind i k e f : (2 <= k)%nat -> (k < n)%nat -> edge_at c i = Some e -> edge_at c (i + k) = Some f -> ndist e (ep1 f) < 0.
Proof.
  intros H2 Hk He Hf. destruct (cw_some (S i)) as (g & Hg).
  pose proof (@pnt_orient _ mirrored i 0 1 k ltac:(lia) ltac:(lia) ltac:(rewrite map_length; exact Hk)) as K.
  rewrite Nat.add_0_r, Nat.add_1_r, (cw_pnt He), (cw_pnt Hg), (cw_pnt Hf), mir_orient, <- (cw_succ He Hg) in K.
  pose proof (cw_directed He) as D. rewrite <- edge_dist_n by auto. unfold edge_dist, signed_dist. pose proof (dist_pos (proj1 D)) as P.
  apply Rmult_lt_reg_r with (euclid_dist (ep1 e) (ep2 e)); auto. unfold Rdiv. rewrite Rmult_assoc, Rinv_l, Rmult_1_r, Rmult_0_l by lra. lra.
Qed.

Definition lag (e1 e2 e : @edge2 RA) : R := tri (enorm e1) (enorm e2) (enorm e) / ncross (enorm e1) (enorm e2).

(** outside, on the bisector of a corner, the walls of the corner are farther away than the lines of all others *)
Lemma cw_farther i k e1 e2 e q h : (2 <= k)%nat -> (k < n)%nat -> edge_at c i = Some e1 -> edge_at c (S i) = Some e2 -> edge_at c (i + k) = Some e ->
  0 <= h -> ndist e1 q = h -> ndist e2 q = h ->
  ndist e q = ndist e (ep1 e2) + h * (1 - lag e1 e2 e) /\ 0 < lag e1 e2 e /\ ndist e (ep1 e2) < 0.
Proof.
  intros H2 Hk E1 E2 E Hh Q1 Q2. pose proof cw_pos as H3. rewrite <- Nat.add_1_r in E2.
  pose proof (@cw_tri i 1 k e1 e2 e ltac:(lia) ltac:(lia) Hk E1 E2 E) as T. rewrite Nat.add_1_r in E2. pose proof (cw_right E1 E2) as X.
  unfold lag.
  assert (Hpos : 0 < tri (enorm e1) (enorm e2) (enorm e) / ncross (enorm e1) (enorm e2)).
  { set (a := tri _ _ _) in *. set (b := ncross _ _) in *. clearbody a b. apply Rmult_lt_reg_r with (- b); [lra|]. replace (a / b * - b) with (- a) by (field; lra). lra. }
  split; [|split; [exact Hpos|]].
  - pose proof (cw_succ E1 E2) as J. assert (Z1 : ndist e1 (ep1 e2) = 0) by (rewrite <- J, <- edge_dist_n by (eapply cw_directed; eauto); apply edge_dist_end2).
    apply Rmult_eq_reg_r with (ncross (enorm e1) (enorm e2)); [|lra].
    rewrite Rmult_plus_distr_r, Rmult_assoc. replace ((1 - tri (enorm e1) (enorm e2) (enorm e) / ncross (enorm e1) (enorm e2)) * ncross (enorm e1) (enorm e2))
      with (ncross (enorm e1) (enorm e2) - tri (enorm e1) (enorm e2) (enorm e)) by (field; lra).
    assert (A1 : vx (enorm e1) * (vy q - vy (ep1 e2)) - vy (enorm e1) * (vx q - vx (ep1 e2)) = h).
    { rewrite <- Q1. unfold ndist in *. change (num RA) with R in *. lra. }
    assert (A2 : vx (enorm e2) * (vy q - vy (ep1 e2)) - vy (enorm e2) * (vx q - vx (ep1 e2)) = h) by (rewrite <- Q2; unfold ndist; auto).
    unfold tri, ncross, ndist in *. change (num RA) with R in *. clear - A1 A2.
    set (a := vx (enorm e1)) in *. set (b := vy (enorm e1)) in *. set (u := vx (enorm e2)) in *. set (w := vy (enorm e2)) in *. set (x := vx (enorm e)) in *. set (y := vy (enorm e)) in *.
    set (px := vx q) in *. set (py := vy q) in *. set (vX := vx (ep1 e2)) in *. set (vY := vy (ep1 e2)) in *. clearbody a b u w x y px py vX vY.
    assert (K : (x * (py - vY) - y * (px - vX)) * (a * w - b * u) = (x * w - y * u) * (a * (py - vY) - b * (px - vX)) + (a * y - b * x) * (u * (py - vY) - w * (px - vX))) by ring.
    rewrite A1, A2 in K. lra.
  - assert (E2' : edge_at c (i + k + (n - k + 1)) = Some e2).
    { replace (i + k + (n - k + 1))%nat with (S i + 1 * n)%nat by lia. unfold edge_at in E2 |- *. fold n in E2 |- *. rewrite Nat.mod_add by lia. auto. }
    apply (@cw_behind (i + k) (n - k + 1)); auto; lia.
Qed.
End Cw.
