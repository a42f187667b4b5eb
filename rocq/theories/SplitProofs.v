(** * SplitProofs: split events are where a reflex corner meets a moving edge (over the real numbers) *)

From Coq Require Import Reals Lra Psatz.
From Verif Require Import Py PyFacts Arith ArithR Euclid Lav LavSpec LavWalk LavWf LavInit LavNext LavGrow ClusterSpec GeoSpec GeoR GeoLines UnitProofs
  BisSpec BisProofs BisLoop BisInv BisStart SplitSpec.
Set Implicit Arguments.
Unset Strict Implicit.
Open Scope R_scope.

Implicit Type v : @lavertex RA.

(** ** normalized vectors *)
Lemma tiny_sqrt : sqrt (/ 10 ^ 35) <= / 10 ^ 17.
Proof.
  rewrite <- (sqrt_Rsqr (/ 10 ^ 17)); [|left; apply Rinv_0_lt_compat; apply pow_lt; lra]. apply sqrt_le_1_alt.
  unfold Rsqr. rewrite <- Rinv_mult, <- pow_add. apply Rinv_le_contravar; [apply pow_lt; lra|]. apply Rle_pow; [lra|]. simpl. repeat constructor.
Qed.

(** the normalized vector is a positive multiple, or the vector is tiny *)
Lemma normalized_cases (u : vec RA) :
  (exists k, 0 < k /\ vnormalized u = V2 (A := RA) (k * vx u) (k * vy u) /\ k * vlen u = 1) \/
  (vnormalized u = V2 (A := RA) 0 0 /\ vlen u <= / 10 ^ 17).
Proof.
  destruct (Rlt_dec (/ 10 ^ 35) (vx u * vx u + vy u * vy u)) as [H|H].
  - left. pose proof tiny_pos as Ht. assert (HL : 0 < vlen u) by (rewrite vlen_R; apply sqrt_lt_R0; simpl in *; lra).
    exists (/ vlen u). split; [apply Rinv_0_lt_compat; auto|]. split; [|apply Rinv_l; simpl in *; lra].
    rewrite vnormalized_R by exact H. f_equal; unfold Rdiv; apply Rmult_comm.
  - right. split.
    + unfold vnormalized, ngtb. rewrite lit_tiny, vlen2_R. cbn [RA nltb]. destruct (Rltb_spec (/ 10 ^ 35) (vx u * vx u + vy u * vy u)) as [K|K]; [contradiction|].
      rewrite zeroN_R. reflexivity.
    + rewrite vlen_R. eapply Rle_trans; [|apply tiny_sqrt]. apply sqrt_le_1_alt. simpl in *. lra.
Qed.

Lemma cross_bound (a b : vec RA) : Rabs (ncross a b) <= vlen a * vlen b.
Proof.
  rewrite !vlen_R. rewrite <- sqrt_mult_alt by (simpl in *; nra). rewrite <- sqrt_Rsqr_abs. apply sqrt_le_1_alt. unfold Rsqr, ncross.
  destruct a as [ax ay], b as [bx by_]; cbn [vx vy]. change (num RA) with R in *.
  pose proof (Rle_0_sqr (ax * bx + ay * by_)) as S. unfold Rsqr in S. lra.
Qed.

Lemma vlen_pos (u : vec RA) : 0 <= vlen u.
Proof. rewrite vlen_R. apply sqrt_pos. Qed.

(** the test against a threshold, multiplied out *)
Lemma norm_cross (u w : vec RA) :
  (exists k, 0 < k /\ vcross (vnormalized u) (vnormalized w) = k * ncross u w /\ k * (vlen u * vlen w) = 1) \/
  (vcross (vnormalized u) (vnormalized w) = 0 /\ (vlen u <= / 10 ^ 17 \/ vlen w <= / 10 ^ 17)).
Proof.
  destruct (normalized_cases u) as [(k & Hk & -> & Hk1)|[-> Hu]]; [|right; split; [rewrite vcross_R; cbn [vx vy]; simpl; lra|auto]].
  destruct (normalized_cases w) as [(j & Hj & -> & Hj1)|[-> Hw]]; [|right; split; [rewrite vcross_R; cbn [vx vy]; simpl; lra|auto]].
  left. exists (k * j). split; [apply Rmult_lt_0_compat; auto|]. split.
  - rewrite vcross_R. unfold ncross. cbn [vx vy]. simpl. ring.
  - transitivity ((k * vlen u) * (j * vlen w)); [simpl; ring|]. rewrite Hk1, Hj1. ring.
Qed.

Lemma cross_lt (u w : vec RA) : nltb (vcross (vnormalized u) (vnormalized w)) EPSILON = true -> vlen u <= 2 ->
  ncross u w <= 2 / 100000 * vlen w + 2 / 10 ^ 17.
Proof.
  unfold EPSILON. cbn [RA nltb lit]. rewrite Rltb_lt. intros H Hu. pose proof (vlen_pos u) as P1. pose proof (vlen_pos w) as P2.
  assert (T : 0 < / 10 ^ 17) by (apply Rinv_0_lt_compat, pow_lt; lra).
  destruct (norm_cross u w) as [(k & Hk & E & K)|[_ Ht]].
  - rewrite E in H. assert (G : ncross u w < 1 / 100000 * (vlen u * vlen w)).
    { apply (Rmult_lt_reg_l k); auto. rewrite (Rmult_comm k (1 / 100000 * _)), Rmult_assoc, (Rmult_comm (vlen u * vlen w)), K. simpl in *. lra. }
    assert (vlen u * vlen w <= 2 * vlen w) by (apply Rmult_le_compat_r; auto). unfold Rdiv in *. simpl in *. lra.
  - pose proof (cross_bound u w) as B. pose proof (Rle_abs (ncross u w)) as B'.
    assert (vlen u * vlen w <= 2 / 100000 * vlen w + 2 / 10 ^ 17); [|lra]. destruct Ht as [Ht|Ht].
    + assert (vlen u * vlen w <= / 10 ^ 17 * vlen w) by (apply Rmult_le_compat_r; auto).
      assert (L : / 10 ^ 17 <= 2 / 100000) by (apply Rmult_le_reg_l with (10 ^ 17); [apply pow_lt; lra|rewrite Rinv_r by (apply pow_nonzero; lra); simpl; lra]).
      assert (/ 10 ^ 17 * vlen w <= 2 / 100000 * vlen w) by (apply Rmult_le_compat_r; auto). unfold Rdiv in *. simpl in *. lra.
    + assert (vlen u * vlen w <= 2 * / 10 ^ 17) by (apply Rmult_le_compat; auto). 
      assert (0 <= 2 / 100000 * vlen w) by (apply Rmult_le_pos; [lra|auto]). unfold Rdiv in *. simpl in *. lra.
Qed.

Lemma ncross_neg (u w : vec RA) : vcross (vnormalized (vneg u)) (vnormalized w) = - vcross (vnormalized u) (vnormalized w).
Proof.
  assert (E : vnormalized (vneg u) = vneg (vnormalized u)).
  { unfold vnormalized, ngtb. rewrite !vlen2_R, !vlen_R. unfold vneg. cbn [vx vy RA nneg].
    replace (- vx u * - vx u + - vy u * - vy u) with (vx u * vx u + vy u * vy u) by (simpl; ring).
    destruct (nltb _ _); [|cbn [vx vy]; rewrite zeroN_R; cbn [RA rnd]; f_equal; simpl; ring].
    rewrite !vscale_R. cbn [vx vy]. f_equal; simpl; ring. }
  rewrite E, !vcross_R. unfold vneg. cbn [vx vy RA nneg]. simpl. ring.
Qed.

Lemma vlen_neg (u : vec RA) : vlen (vneg u) = vlen u.
Proof. rewrite !vlen_R. unfold vneg. cbn [vx vy RA nneg]. f_equal. simpl. ring. Qed.

Lemma cross_gt (u w : vec RA) : ngtb (vcross (vnormalized u) (vnormalized w)) (nneg EPSILON) = true -> vlen u <= 2 ->
  - ncross u w <= 2 / 100000 * vlen w + 2 / 10 ^ 17.
Proof.
  intros H Hu. replace (- ncross u w) with (ncross (vneg u) w) by (unfold ncross, vneg; cbn [vx vy RA nneg]; simpl; ring).
  apply cross_lt; [|rewrite vlen_neg; auto]. rewrite ncross_neg. unfold ngtb, EPSILON in *. cbn [RA nltb nneg lit] in *.
  rewrite Rltb_lt in *. lra.
Qed.

Lemma cross_lt_true (u w : vec RA) : ncross u w <= 0 -> nltb (vcross (vnormalized u) (vnormalized w)) EPSILON = true.
Proof.
  intros H. unfold EPSILON. cbn [RA nltb lit]. apply Rltb_lt. destruct (norm_cross u w) as [(k & Hk & E & K)|[-> _]]; [|lra].
  rewrite E. assert (k * ncross u w <= 0); [|lra]. rewrite <- (Rmult_0_r k). apply Rmult_le_compat_l; lra.
Qed.

Lemma cross_gt_true (u w : vec RA) : 0 <= ncross u w -> ngtb (vcross (vnormalized u) (vnormalized w)) (nneg EPSILON) = true.
Proof.
  intros H. assert (K : nltb (vcross (vnormalized (vneg u)) (vnormalized w)) EPSILON = true).
  { apply cross_lt_true. unfold ncross, vneg in *. cbn [vx vy RA nneg]. simpl in *. lra. }
  rewrite ncross_neg in K. unfold ngtb, EPSILON in *. cbn [RA nltb nneg lit] in *. rewrite Rltb_lt in *. lra.
Qed.

Lemma cross_gt1 (u w : vec RA) : ngtb (vcross u (vnormalized w)) (nneg EPSILON) = true -> vlen u = 1 ->
  - ncross u w <= 2 / 100000 * vlen w + 2 / 10 ^ 17.
Proof.
  intros H Hu. pose proof (vlen_pos w) as P. assert (T : 0 < / 10 ^ 17) by (apply Rinv_0_lt_compat, pow_lt; lra).
  unfold ngtb, EPSILON in H. cbn [RA nltb nneg lit] in H. rewrite Rltb_lt in H.
  destruct (normalized_cases w) as [(k & Hk & E & K)|[E Hw]]; rewrite E, vcross_R in H; cbn [vx vy] in H.
  - assert (G : - ncross u w < 1 / 100000 * vlen w).
    { apply (Rmult_lt_reg_l k); auto. rewrite (Rmult_comm (1 / 100000)), <- Rmult_assoc, K. unfold ncross. simpl in *. lra. }
    unfold Rdiv in *. simpl in *. lra.
  - pose proof (cross_bound u w) as B. pose proof (Rabs_Ropp (ncross u w)) as B'. pose proof (Rle_abs (- ncross u w)) as B2. rewrite Hu in B.
    unfold Rdiv in *. simpl in *. lra.
Qed.

Lemma cross_gt1_true (u w : vec RA) : 0 <= ncross u w -> ngtb (vcross u (vnormalized w)) (nneg EPSILON) = true.
Proof.
  intros H. unfold ngtb, EPSILON. cbn [RA nltb nneg lit]. apply Rltb_lt.
  destruct (normalized_cases w) as [(k & Hk & -> & K)|[-> _]]; rewrite vcross_R; cbn [vx vy]; [|simpl; lra].
  replace (vx u * (k * vy w) - vy u * (k * vx w)) with (k * ncross u w) by (unfold ncross; simpl; ring).
  assert (0 <= k * ncross u w) by (apply Rmult_le_pos; lra). simpl in *. lra.
Qed.

(** ** what the tests of a split candidate say *)
Definition split_ok (oe : @orig_edge RA) (b : vec RA) : bool :=
  let e := oe_edge oe in
  nltb (vcross (vnormalized (lv (oe_bprev oe))) (vnormalized (vsub b (lp (oe_bprev oe))))) EPSILON &&
  ngtb (vcross (vnormalized (lv (oe_bnext oe))) (vnormalized (vsub b (lp (oe_bnext oe))))) (nneg EPSILON) &&
  ngtb (vcross (enorm e) (vnormalized (vsub b (ep1 e)))) (nneg EPSILON) &&
  negb (neqb (vlen (lv (oe_bnext oe))) zeroN).

Lemma split_tests id v oe ev : split_candidate id v oe = Some ev ->
  exists b, ev = SplitEv (line_distance (Line2_edge (oe_edge oe)) b) b id (oe_edge oe) /\ split_ok oe b = true /\ on_lin (v_bis v) b.
Proof.
  unfold split_candidate. destruct (_ || _); [discriminate|].
  destruct (line_intersect _ _) as [i|]; [|discriminate]. destruct (approximately_equals _ _); [discriminate|]. cbv zeta.
  destruct (negb (ntruth _)); [discriminate|].
  destruct (line_intersect (Line2_pv _ _) _) as [b|] eqn:E; [|discriminate].
  destruct (_ && _) eqn:T; [|discriminate]. intros [= <-]. exists b. split; auto. split; [exact T|].
  apply line_intersect_R in E. apply E.
Qed.

(** ** every meeting point is found *)
Lemma lines_meet (a b : @lin RA) : l_is_ray a = false -> l_is_ray b = false -> vx (lv a) * vy (lv b) <> vy (lv a) * vx (lv b) ->
  exists p, line_intersect a b = Some p.
Proof.
  intros Ha Hb H. destruct (line_intersect a b) as [p|] eqn:E; eauto. exfalso.
  unfold line_intersect in E. rewrite zeroN_R in E. cbn [RA nsub nmul neqb] in E. unfold intsecttest in E. rewrite Ha, Hb in E. cbn [negb] in E.
  destruct (Reqb_spec (vy (lv b) * vx (lv a) - vx (lv b) * vy (lv a)) 0) as [K|K]; [|discriminate].
  apply H. simpl in *. lra.
Qed.

Lemma cross_directed e f : directed e -> directed f -> ncross (enorm e) (enorm f) <> 0 ->
  vx (lv (Line2_edge e)) * vy (lv (Line2_edge f)) <> vy (lv (Line2_edge e)) * vx (lv (Line2_edge f)).
Proof.
  intros (He & X1 & Y1) (Hf & X2 & Y2) H. unfold Line2_edge. cbn [lv]. rewrite !vsub_R. cbn [vx vy]. rewrite <- X1, <- X2, <- Y1, <- Y2.
  pose proof (dist_pos He). pose proof (dist_pos Hf). set (L := euclid_dist (ep1 e) (ep2 e)) in *. set (M := euclid_dist (ep1 f) (ep2 f)) in *.
  intros K. apply H. unfold ncross. apply Rmult_eq_reg_r with (L * M); [|apply Rmult_integral_contrapositive; lra]. simpl in *. lra.
Qed.

Lemma nonparallel_self e1 e2 e : directed e1 -> directed e2 -> directed e -> ncross (enorm e1) (enorm e2) <> 0 ->
  ncross (enorm (if nltb (nabs (vdot (enorm e1) (enorm e))) (nabs (vdot (enorm e2) (enorm e))) then e1 else e2)) (enorm e) <> 0.
Proof.
  intros D1 D2 D H. pose proof (directed_unit D1) as U1. pose proof (directed_unit D2) as U2. pose proof (directed_unit D) as U.
  rewrite !vdot_R. cbn [RA nltb nabs].
  destruct (enorm e1) as [ax ay] eqn:Ea, (enorm e2) as [bx by_] eqn:Eb, (enorm e) as [cx cy] eqn:Ec. cbn [vx vy] in *. change (num RA) with R in *.
  assert (P : forall x y, x * x + y * y = 1 -> (x * cx + y * cy) * (x * cx + y * cy) + (x * cy - y * cx) * (x * cy - y * cx) = 1).
  { intros x y Hu. transitivity ((x * x + y * y) * (cx * cx + cy * cy)); [ring|]. rewrite Hu, U. ring. }
  pose proof (P _ _ U1) as Q1. pose proof (P _ _ U2) as Q2.
  set (d1 := ax * cx + ay * cy) in *. set (d2 := bx * cx + by_ * cy) in *.
  (* if both were parallel to e they would be parallel *)
  assert (N : ax * cy - ay * cx <> 0 \/ bx * cy - by_ * cx <> 0).
  { destruct (Req_dec (ax * cy - ay * cx) 0) as [Z1|]; auto. right. intros Z2. apply H. unfold ncross. cbn [vx vy].
    assert (Wx : ax = d1 * cx /\ ay = d1 * cy) by (apply unit_part; auto; lra).
    assert (Wb : bx = d2 * cx /\ by_ = d2 * cy) by (apply unit_part; auto; lra).
    destruct Wx as [W1 W2], Wb as [W3 W4]. rewrite W1, W2, W3, W4. ring. }
  destruct (Rltb_spec (Rabs d1) (Rabs d2)) as [K|K]; unfold ncross.
  - rewrite Ea. cbn [vx vy]. intros Z. rewrite Z in Q1. apply Rsqr_lt_abs_1 in K. unfold Rsqr in K. pose proof (Rle_0_sqr (bx * cy - by_ * cx)) as S. unfold Rsqr in S. lra.
  - rewrite Eb. cbn [vx vy]. intros Z. rewrite Z in Q2. destruct N as [N|N]; [|lra]. apply Rnot_lt_le, Rsqr_le_abs_1 in K. unfold Rsqr in K.
    assert (0 < (ax * cy - ay * cx) * (ax * cy - ay * cx)) by (destruct (Rdichotomy _ _ N); nra). lra.
Qed.

Lemma split_found id v oe b : equi v -> v_reflex v = true ->
  ndist (v_eprev v) (v_point v) = 0 -> directed (oe_edge oe) ->
  ncross (enorm (v_eprev v)) (enorm (v_enext v)) < 0 ->
  -1 + 1 / 100000 <= ncross (enorm (v_eprev v)) (enorm (v_enext v)) \/
  (forall f q, f = v_eprev v \/ f = v_enext v -> cross_in f (oe_edge oe) q ->
     0 <= (vx (v_point v) - vx q) * vx (enorm f) + (vy (v_point v) - vy q) * vy (enorm f)) ->
  (forall q, cross_in (v_eprev v) (oe_edge oe) q \/ cross_in (v_enext v) (oe_edge oe) q ->
     1 / 1000 * Rmax (euclid_dist q (rvec 0 0)) (euclid_dist (v_point v) (rvec 0 0)) < euclid_dist q (v_point v) /\
     / 10 ^ 35 < Rsqr (euclid_dist q (v_point v))) ->
  same_edge (oe_edge oe) (v_eprev v) = false -> same_edge (oe_edge oe) (v_enext v) = false ->
  on_lin (v_bis v) b -> ndist (v_eprev v) b = ndist (oe_edge oe) b -> split_ok oe b = true ->
  split_candidate id v oe = Some (SplitEv (line_distance (Line2_edge (oe_edge oe)) b) b id (oe_edge oe)).
Proof.
  intros Ev Hr H0 De Hc Hra Hfar S1 S2 Ob Hb Ht. unfold split_candidate. rewrite S1, S2. cbn [orb].
  set (e := oe_edge oe) in *. pose proof (equi_on Ev Ob) as Hb2.
  pose proof Ev as (D1 & D2 & Hp & Hq & sg & Hsg & Hrs & Hl). specialize (Hrs Hr). subst sg.
  pose proof (@nonparallel_self (v_eprev v) (v_enext v) e D1 D2 De ltac:(lra)) as Hnp.
  set (selfedge := if nltb _ _ then _ else _) in *.
  assert (Hself : selfedge = v_eprev v \/ selfedge = v_enext v) by (unfold selfedge; destruct (nltb _ _); auto).
  clearbody selfedge.
  assert (Dself : directed selfedge) by (destruct Hself; subst; auto).
  destruct (@lines_meet (Line2_edge selfedge) (Line2_edge e) eq_refl eq_refl (cross_directed Dself De Hnp)) as (i & Ei).
  rewrite Ei. apply line_intersect_R in Ei. destruct Ei as (Hnp' & Oi & Oe).
  assert (Zi : ndist selfedge i = 0) by (apply on_edge_line; auto).
  assert (Ze : ndist e i = 0) by (apply on_edge_line; auto).
  assert (Zp : ndist selfedge (v_point v) = 0) by (destruct Hself; subst; congruence).
  assert (Zb : ndist selfedge b = ndist e b) by (destruct Hself; subst; congruence).
  set (p := v_point v) in *.
  assert (X : cross_in selfedge e i).
  { split; [|split; apply on_line_n; auto]. unfold Line2_edge in Hnp'. cbn [lv] in Hnp'. rewrite !vsub_R in Hnp'. exact Hnp'. }
  destruct (Hfar i) as [F1 F2]; [destruct Hself; subst selfedge; [left|right]; exact X|].
  assert (Ea : approximately_equals i p = false) by (apply not_true_is_false; intros K; apply approx_R in K; simpl in *; lra).
  rewrite Ea.
  assert (Hip : i <> p) by (intros ->; rewrite (proj2 (dist_zero p p) eq_refl), Rsqr_0 in F2; pose proof tiny_pos; lra).
  assert (Hlen : / 10 ^ 35 < (vx p - vx i) * (vx p - vx i) + (vy p - vy i) * (vy p - vy i)).
  { unfold Rsqr in F2. rewrite dist_sq in F2. simpl in *. lra. }
  set (c := ncross (enorm (v_eprev v)) (enorm (v_enext v))) in *.
  assert (Hvec : exists sl, (sl = 1 \/ sl = -1) /\ vnormalized (vsub p i) = V2 (A := RA) (sl * vx (enorm selfedge)) (sl * vy (enorm selfedge))).
  { rewrite vsub_R. apply unit_multiple; auto.
    - apply directed_unit; auto.
    - unfold ndist in Zi, Zp. clear - Zi Zp. destruct p as [px py], i as [ix iy], (enorm selfedge) as [nx ny], (ep1 selfedge) as [sx sy].
      cbn [vx vy] in *. simpl in *. lra. }
  destruct Hvec as (sl & Hsl & Hvec). rewrite Hvec. cbv zeta.
  assert (Hcr : vcross (lv (v_bis v)) (V2 (A := RA) (sl * vx (enorm selfedge)) (sl * vy (enorm selfedge))) = sl * c).
  { rewrite vcross_R, Hl. unfold rvec; cbn [vx vy]. unfold c, ncross. destruct Hself; subst selfedge; simpl; ring. }
  rewrite Hcr.
  assert (Htw : nltb (nabs (nsub (sl * c : num RA) oneN)) EPSILON = false).
  { rewrite oneN_R. unfold EPSILON. cbn [RA nltb nabs nsub lit]. apply Rltb_ge.
    destruct Hsl as [Hsl|Hsl]; subst sl; [unfold Rabs; destruct (Rcase_abs _); simpl in *; lra|].
    destruct Hra as [Hra|Hra]; [unfold Rabs; destruct (Rcase_abs _); simpl in *; lra|exfalso].
    assert (K : 0 <= (vx p - vx i) * vx (enorm selfedge) + (vy p - vy i) * vy (enorm selfedge)).
    { destruct Hself; subst selfedge; apply Hra; auto; exact X. }
    destruct (normalized_cases (vsub p i)) as [(k & Hk & Ek & _)|[Ek _]]; rewrite Ek in Hvec; rewrite ?vsub_R in Hvec; cbn [vx vy] in Hvec;
      injection Hvec as N1 N2; pose proof (directed_unit Dself) as U.
    - assert (k * ((vx p - vx i) * vx (enorm selfedge) + (vy p - vy i) * vy (enorm selfedge)) = -1).
      { transitivity (k * (vx p - vx i) * vx (enorm selfedge) + k * (vy p - vy i) * vy (enorm selfedge)); [simpl; ring|]. rewrite N1, N2. simpl in *. lra. }
      assert (0 <= k * ((vx p - vx i) * vx (enorm selfedge) + (vy p - vy i) * vy (enorm selfedge))) by (apply Rmult_le_pos; simpl in *; lra). simpl in *. lra.
    - assert (vx (enorm selfedge) = 0) by (simpl in *; lra). assert (vy (enorm selfedge) = 0) by (simpl in *; lra). rewrite H, H1 in U. simpl in *. lra. }
  rewrite Htw, Hcr.
  set (ed := if nltb (sl * c : num RA) zeroN then _ else _).
  assert (Hed : ed = V2 (A := RA) (- sl * vx (enorm e)) (- sl * vy (enorm e))).
  { unfold ed. rewrite zeroN_R. cbn [RA nltb]. destruct (Rltb_spec (sl * c) 0) as [K|K].
    - assert (sl = 1) by (destruct Hsl; subst; auto; lra). subst sl. unfold vneg. cbn [RA nneg]. f_equal; simpl; lra.
    - assert (sl = -1) by (destruct Hsl; subst; auto; lra). subst sl. destruct (enorm e) as [nx ny]; cbn [vx vy]. f_equal; simpl; lra. }
  rewrite Hed, vadd_R. cbn [vx vy]. clear ed Hed Htw.
  set (w := V2 (A := RA) _ _).
  assert (Wx : vx w = sl * (vx (enorm selfedge) - vx (enorm e))) by (unfold w; cbn [vx]; simpl; ring).
  assert (Wy : vy w = sl * (vy (enorm selfedge) - vy (enorm e))) by (unfold w; cbn [vy]; simpl; ring).
  clearbody w.
  set (gx := vx (enorm selfedge) - vx (enorm e)) in *. set (gy := vy (enorm selfedge) - vy (enorm e)) in *.
  assert (Hg : gx * gx + gy * gy <> 0).
  { intros K. assert (gx = 0 /\ gy = 0) as [G1 G2] by (clear - K; split; nra). apply Hnp. unfold ncross. unfold gx, gy in G1, G2.
    replace (vx (enorm selfedge)) with (vx (enorm e)) by (simpl in *; lra). replace (vy (enorm selfedge)) with (vy (enorm e)) by (simpl in *; lra). simpl; ring. }
  assert (Hlw : ntruth (vlen w) = true).
  { rewrite ntruth_R, vlen_R, Wx, Wy. apply negb_true_iff. destruct (Reqb_spec (sqrt (sl * gx * (sl * gx) + sl * gy * (sl * gy))) 0) as [K|K]; auto.
    exfalso. apply Hg. apply sqrt_eq_0 in K; [destruct Hsl; subst sl; simpl in *; lra|destruct Hsl; subst sl; simpl in *; nra]. }
  rewrite Hlw. cbn [negb].
  (* the bisector of the two lines *)
  assert (Gb : gx * (vy b - vy i) - gy * (vx b - vx i) = 0).
  { unfold gx, gy. unfold ndist in Zb, Zi, Ze. clear - Zb Zi Ze. destruct b as [bx by_], i as [ix iy], (enorm selfedge) as [nx ny], (enorm e) as [mx my], (ep1 selfedge) as [sx sy], (ep1 e) as [tx ty].
    cbn [vx vy] in *. simpl in *. lra. }
  assert (Obl : on_lin (Line2_pv i w) b).
  { exists (((vx b - vx i) * gx + (vy b - vy i) * gy) / (gx * gx + gy * gy) / sl). split; [discriminate|]. unfold Line2_pv; cbn [lp lv]. rewrite Wx, Wy.
    assert (sl <> 0) by (destruct Hsl; lra). clear - Gb Hg H. clearbody gx gy. destruct b as [bx by_], i as [ix iy]; cbn [vx vy] in *. change (num RA) with R in *.
    set (X := bx - ix) in *. set (Y := by_ - iy) in *. split.
    - replace ((X * gx + Y * gy) / (gx * gx + gy * gy) / sl * (sl * gx)) with X; [unfold X; ring|].
      apply Rmult_eq_reg_r with (gx * gx + gy * gy); auto. transitivity (gx * (X * gx + Y * gy)); [|field; auto].
      transitivity (X * gx * gx + Y * gx * gy - gy * (gx * Y - gy * X)); [ring|]. rewrite Gb. ring.
    - replace ((X * gx + Y * gy) / (gx * gx + gy * gy) / sl * (sl * gy)) with Y; [unfold Y; ring|].
      apply Rmult_eq_reg_r with (gx * gx + gy * gy); auto. transitivity (gy * (X * gx + Y * gy)); [|field; auto].
      transitivity (X * gx * gy + Y * gy * gy + gx * (gx * Y - gy * X)); [ring|]. rewrite Gb. ring. }
  assert (Hx : line_intersect (Line2_pv i w) (v_bis v) = Some b).
  { apply line_intersect_R. split; [|auto]. unfold Line2_pv; cbn [lv]. rewrite Wx, Wy. intros K.
    (* otherwise the corner itself is on the bisector, and on the line of e *)
    assert (K' : gx * vy (lv (v_bis v)) - gy * vx (lv (v_bis v)) = 0) by (destruct Hsl; subst sl; simpl in *; lra).
    destruct Ob as (t & _ & Bx & By). rewrite Hp in Bx, By. change (v_point v) with p in Bx, By.
    assert (Ep : ndist e p = 0).
    { assert (gx * (vy p - vy i) - gy * (vx p - vx i) = 0).
      { rewrite Bx, By in Gb. replace (gx * (vy p - vy i) - gy * (vx p - vx i)) with (gx * (vy p + t * vy (lv (v_bis v)) - vy i) - gy * (vx p + t * vx (lv (v_bis v)) - vx i) - t * (gx * vy (lv (v_bis v)) - gy * vx (lv (v_bis v)))) by (simpl; ring).
        rewrite Gb, K'. ring. }
      unfold gx, gy in H. unfold ndist in *. clear - H Zi Ze Zp. destruct p as [px py], i as [ix iy], (enorm selfedge) as [nx ny], (enorm e) as [mx my], (ep1 selfedge) as [sx sy], (ep1 e) as [tx ty].
      cbn [vx vy] in *. simpl in *. lra. }
    assert (Xp : cross_in selfedge e p) by (split; [apply X|split; apply on_line_n; auto]).
    destruct (Hfar p) as [_ F]; [destruct Hself; subst selfedge; [left|right]; exact Xp|].
    change (v_point v) with p in F. rewrite (proj2 (dist_zero p p) eq_refl), Rsqr_0 in F. pose proof tiny_pos. lra. }
  rewrite Hx. unfold split_ok in Ht. cbv zeta in Ht. fold e in Ht. rewrite Ht. reflexivity.
Qed.

(** ** the contours *)
Section Contours.
Variable contours : list (list (@edge2 RA)).
Hypothesis Hclosed : forall c, In c contours -> closed_contour c.
Variable s : @slav RA.
Hypothesis Hinit : init_slav contours = Ok s.
Local Open Scope nat_scope.

Let Hne : forall c, In c contours -> c <> [].
Proof. intros c Hc. apply (Hclosed Hc). Qed.

Let W : wavefront_of contours s.
Proof. destruct (init_slav_ok Hne) as (s' & Hi' & H & _). rewrite Hinit in Hi'. apply Ok_inj in Hi'. subst s'. exact H. Qed.

Let L : initial_wavefront contours s.
Proof. destruct (init_slav_spec Hne) as (s' & Hi' & H). rewrite Hinit in Hi'. apply Ok_inj in Hi'. subst s'. exact H. Qed.

Definition corner (e1 e2 : @edge2 RA) := mk_vertex 0 (ep1 e2) e1 e2 None false.

Lemma vertex_corner i : i < length (s_vs s) ->
  body_kept (getv (s_vs s) i) (corner (v_eprev (getv (s_vs s) i)) (v_enext (getv (s_vs s) i))).
Proof.
  intros Hi. destruct (wavefront_corner Hclosed W Hi) as (c & e1 & e2 & _ & _ & B). pose proof B as (_ & B1 & B2 & _).
  simpl in B1, B2. rewrite B1, B2. exact B.
Qed.

Lemma pred_succ m x : 0 < m -> ((x + 1) mod m + m - 1) mod m = x mod m.
Proof.
  intros Hm. rewrite <- Nat.add_sub_assoc by lia. rewrite Nat.add_mod_idemp_l by lia. replace (x + 1 + (m - 1)) with (x + 1 * m) by lia. apply Nat.mod_add. lia.
Qed.

Lemma orig_of_edge c e0 e e3 : In c contours -> successive c e0 e e3 ->
  exists oe, In oe (s_orig s) /\ oe_edge oe = e /\ oe_bprev oe = v_bis (corner e0 e) /\ oe_bnext oe = v_bis (corner e e3).
Proof.
  intros Hc (a & Ha & N0 & N1 & N3). destruct (In_nth_error _ _ Hc) as (k & Hk).
  destruct L as (L1 & _ & _ & L4 & L5 & L6). destruct (L4 k c Hk) as (_ & _ & _ & HV). set (off := length (concat (firstn k contours))) in *. set (m := length c) in *.
  assert (M : 0 < m) by lia.
  assert (J2 : (a + 2) mod m < m) by (apply Nat.mod_upper_bound; lia). assert (J1 : (a + 1) mod m < m) by (apply Nat.mod_upper_bound; lia).
  destruct (HV _ J2) as (ep & en & P1 & P2 & P3 & P4 & P5 & _ & P6 & _). fold m in P1, P6.
  assert (X : ((a + 2) mod m + m - 1) mod m = (a + 1) mod m) by (replace (a + 2) with ((a + 1) + 1) by lia; apply pred_succ; auto).
  rewrite X in P1, P6. rewrite N1 in P1. injection P1 as <-. rewrite N3 in P2. injection P2 as <-.
  destruct (HV _ J1) as (ep & en & Q1 & Q2 & Q3 & Q4 & Q5 & _). fold m in Q1. rewrite pred_succ in Q1 by auto. rewrite (Nat.mod_small a) in Q1 by auto.
  rewrite N0 in Q1. injection Q1 as <-. rewrite N1 in Q2. injection Q2 as <-.
  assert (B : forall j, j < m -> off + j < length (s_vs s)) by (intros j Hj; rewrite L1; apply (@offset_lt _ contours k c j); auto).
  destruct (L6 _ (B _ J2)) as (oe & Ho & O1 & O2 & O3). exists oe. split; [eapply nth_error_In; eauto|].
  split; [congruence|]. rewrite O2, O3, P6. destruct (vertex_corner (B _ J1)) as (_ & _ & _ & _ & V1). destruct (vertex_corner (B _ J2)) as (_ & _ & _ & _ & V2).
  rewrite Q4, Q5 in V1. rewrite P4, P5 in V2. split; auto.
Qed.

Lemma edge_of_orig oe : In oe (s_orig s) -> exists c e0 e3, In c contours /\ successive c e0 (oe_edge oe) e3 /\
  oe_bprev oe = v_bis (corner e0 (oe_edge oe)) /\ oe_bnext oe = v_bis (corner (oe_edge oe) e3).
Proof.
  intros Ho. apply In_nth_error in Ho as (i & Ho). destruct L as (L1 & _ & _ & L4 & L5 & L6).
  assert (Hi : i < length (s_vs s)) by (rewrite <- L5; apply nth_error_Some; congruence).
  destruct (L6 i Hi) as (oe' & Ho' & O1 & O2 & O3). rewrite Ho in Ho'. injection Ho' as <-.
  pose proof Hi as Hi'. rewrite L1 in Hi'. destruct (offset_find Hi') as (k & Hk & Hin). pose proof (nth_error_nth' contours [] Hk) as Hc.
  set (c := nth k contours []) in *. unfold contour_ids in Hin. fold c in Hin. apply in_seq in Hin. destruct (L4 k c Hc) as (_ & _ & _ & HV). unfold offset in Hin.
  set (off := length (concat (firstn k contours))) in *. set (m := length c) in *.
  set (j := i - off). assert (Ej : i = off + j) by (unfold j; lia). assert (Hj : j < m) by (unfold j; lia). clearbody j. subst i.
  assert (J1 : (j + m - 1) mod m < m) by (apply Nat.mod_upper_bound; lia).
  destruct (HV _ Hj) as (ep & en & P1 & P2 & P3 & P4 & P5 & _ & P6 & _). fold m in P1, P6.
  destruct (HV _ J1) as (ep' & en' & Q1 & Q2 & Q3 & Q4 & Q5 & _). fold m in Q1.
  rewrite P1 in Q2. injection Q2 as <-.
  assert (B : forall j, j < m -> off + j < length (s_vs s)) by (intros j' Hj'; rewrite L1; apply (@offset_lt _ contours k c j'); auto).
  exists c, ep', en. split; [eapply nth_error_In; eauto|].
  assert (E : oe_edge oe = ep) by congruence. rewrite E. split.
  - exists (((j + m - 1) mod m + m - 1) mod m). fold m. split; [apply Nat.mod_upper_bound; lia|]. split; auto.
    assert (S1 : forall x, ((x + m - 1) mod m + 1) mod m = x mod m).
    { intros x. rewrite Nat.add_mod_idemp_l by lia. replace (x + m - 1 + 1) with (x + 1 * m) by lia. apply Nat.mod_add. lia. }
    split; [rewrite S1, Nat.mod_mod by lia; auto|].
    replace ((((j + m - 1) mod m + m - 1) mod m + 2) mod m) with j; auto.
    rewrite Nat.add_mod_idemp_l by lia. replace ((j + m - 1) mod m + m - 1 + 2) with ((j + m - 1) mod m + 1 + 1 * m) by lia.
    rewrite Nat.mod_add, S1, Nat.mod_small by lia. auto.
  - rewrite O2, O3, P6. destruct (vertex_corner (B _ J1)) as (_ & _ & _ & _ & V1). destruct (vertex_corner (B _ Hj)) as (_ & _ & _ & _ & V2).
    rewrite Q4, Q5 in V1. rewrite P4, P5 in V2. split; auto.
Qed.

Lemma successive_in c e0 e e3 : In c contours -> successive c e0 e e3 ->
  directed e0 /\ directed e /\ directed e3 /\ ep2 e0 = ep1 e /\ ep2 e = ep1 e3 /\ consecutive c e0 e /\ consecutive c e e3.
Proof.
  intros Hc (a & Ha & N0 & N1 & N3). destruct (Hclosed Hc) as (_ & Hd & Hj). set (m := length c) in *.
  assert (J2 : (a + 2) mod m < m) by (apply Nat.mod_upper_bound; lia). assert (J1 : (a + 1) mod m < m) by (apply Nat.mod_upper_bound; lia).
  assert (C1 : consecutive c e0 e).
  { exists ((a + 1) mod m). fold m. split; auto. split; auto. rewrite pred_succ, Nat.mod_small by lia. auto. }
  assert (C2 : consecutive c e e3).
  { exists ((a + 2) mod m). fold m. split; auto. split; auto. replace (a + 2) with (a + 1 + 1) by lia. rewrite pred_succ by lia. auto. }
  apply nth_error_In in N0, N1, N3. repeat (split; auto).
Qed.
End Contours.

(** ** bisectors of corners *)
Lemma turn_sine_n e1 e2 : directed e1 -> directed e2 -> ep2 e1 = ep1 e2 -> turn_sine e1 e2 = ncross (enorm e1) (enorm e2).
Proof.
  intros D1 D2 Hp. unfold turn_sine. pose proof (orient_cross D1 D2 Hp eq_refl) as Ho. rewrite <- Hp in Ho. rewrite Ho.
  assert (0 < euclid_dist (ep1 e1) (ep2 e1)) by (apply dist_pos; apply D1).
  assert (0 < euclid_dist (ep1 e2) (ep2 e2)) by (apply dist_pos; apply D2).
  rewrite Hp in *. simpl. field. split; lra.
Qed.

Lemma corner_ray e1 e2 : exists sg, lp (v_bis (corner e1 e2)) = ep1 e2 /\ l_is_ray (v_bis (corner e1 e2)) = true /\
  lv (v_bis (corner e1 e2)) = rvec (sg * (vx (enorm e2) - vx (enorm e1))) (sg * (vy (enorm e2) - vy (enorm e1))) /\
  (ncross (enorm e1) (enorm e2) < 0 -> sg = -1) /\ (0 <= ncross (enorm e1) (enorm e2) -> sg = 1).
Proof.
  destruct (@mk_vertex_R 0 (ep1 e2) e1 e2 None false) as (sg & _ & Hb & H1 & H2). cbv zeta in *. exists sg. unfold corner. rewrite Hb. cbn [Ray2 lp lv l_is_ray].
  do 3 (split; auto). split.
  - intros H. apply H1. apply corner_reflex. auto.
  - intros H. apply H2. apply not_true_is_false. intros K. apply corner_reflex in K. lra.
Qed.

Lemma corner_cross e1 e2 q sg : directed e1 -> directed e2 -> ep2 e1 = ep1 e2 ->
  lv (v_bis (corner e1 e2)) = rvec (sg * (vx (enorm e2) - vx (enorm e1))) (sg * (vy (enorm e2) - vy (enorm e1))) ->
  ncross (lv (v_bis (corner e1 e2))) (vsub q (ep1 e2)) = sg * (edge_dist e2 q - edge_dist e1 q).
Proof.
  intros D1 D2 Hp ->. rewrite !edge_dist_n by auto.
  assert (Z : ndist e1 (ep1 e2) = 0) by (rewrite <- Hp, <- edge_dist_n by auto; apply edge_dist_end2).
  unfold ncross. rewrite vsub_R. unfold ndist in *. unfold rvec. cbn [vx vy].
  assert (K : ndist e1 q = vx (enorm e1) * (vy q - vy (ep1 e2)) - vy (enorm e1) * (vx q - vx (ep1 e2))) by (unfold ndist; simpl in *; lra).
  unfold ndist in K. rewrite K. simpl. ring.
Qed.

Lemma vlen_sub (p q : vec RA) : vlen (vsub q p) = euclid_dist p q.
Proof. rewrite vlen_R, vsub_R. cbn [vx vy]. unfold euclid_dist, Rsqr. f_equal. simpl. ring. Qed.

Lemma corner_len e1 e2 sg : directed e1 -> directed e2 -> sg = 1 \/ sg = -1 ->
  vlen (rvec (sg * (vx (enorm e2) - vx (enorm e1))) (sg * (vy (enorm e2) - vy (enorm e1)))) <= 2.
Proof.
  intros D1 D2 Hs. pose proof (directed_unit D1) as U1. pose proof (directed_unit D2) as U2. rewrite vlen_R. unfold rvec. cbn [vx vy].
  replace 2 with (sqrt (2 * 2)) by (apply sqrt_square; lra). apply sqrt_le_1_alt.
  destruct (enorm e1) as [ax ay], (enorm e2) as [bx by_]. cbn [vx vy] in *. change (num RA) with R in *.
  replace (sg * (bx - ax) * (sg * (bx - ax)) + sg * (by_ - ay) * (sg * (by_ - ay))) with (sg * sg * ((bx - ax) * (bx - ax) + (by_ - ay) * (by_ - ay))) by ring.
  replace (sg * sg) with 1 by (destruct Hs; subst; ring).
  pose proof (Rle_0_sqr (ax + bx)) as S1. pose proof (Rle_0_sqr (ay + by_)) as S2. unfold Rsqr in *. lra.
Qed.

Lemma sg_cases e1 e2 sg : (ncross (enorm e1) (enorm e2) < 0 -> sg = -1) -> (0 <= ncross (enorm e1) (enorm e2) -> sg = 1) -> sg = 1 \/ sg = -1.
Proof. intros H1 H2. destruct (Rlt_dec (ncross (enorm e1) (enorm e2)) 0); [right; auto|left; apply H2; lra]. Qed.

(** the tests mean that the point is swept by the edge *)
Lemma ok_swept oe e0 e3 b : directed e0 -> directed (oe_edge oe) -> directed e3 -> ep2 e0 = ep1 (oe_edge oe) -> ep2 (oe_edge oe) = ep1 e3 ->
  oe_bprev oe = v_bis (corner e0 (oe_edge oe)) -> oe_bnext oe = v_bis (corner (oe_edge oe) e3) -> split_ok oe b = true ->
  swept (2 / 100000) (2 / 10 ^ 17) e0 (oe_edge oe) e3 b /\ enorm (oe_edge oe) <> enorm e3.
Proof.
  intros D0 D D3 J0 J3 B0 B3 H. unfold split_ok in H. cbv zeta in H. set (e := oe_edge oe) in *. rewrite B0, B3 in H.
  apply andb_true_iff in H as [H H4]. apply andb_true_iff in H as [H H3]. apply andb_true_iff in H as [H1 H2].
  destruct (corner_ray e0 e) as (s0 & P0 & _ & V0 & M0 & N0). destruct (corner_ray e e3) as (s3 & P3 & _ & V3 & M3 & N3).
  rewrite P0 in H1. rewrite P3 in H2.
  assert (U : vlen (enorm e) = 1).
  { rewrite vlen_R. pose proof (directed_unit D) as U. simpl in *. rewrite U. apply sqrt_1. }
  pose proof (cross_gt1 H3 U) as C1. apply cross_lt in H1; [|rewrite V0; apply corner_len; auto; eapply sg_cases; eauto].
  apply cross_gt in H2; [|rewrite V3; apply corner_len; auto; eapply sg_cases; eauto].
  rewrite (corner_cross b D0 D J0 V0) in H1. rewrite (corner_cross b D D3 J3 V3) in H2. rewrite vlen_sub in C1, H1, H2.
  split.
  - split; [|split].
    + rewrite edge_dist_n by auto. assert (E : ncross (enorm e) (vsub b (ep1 e)) = ndist e b) by (unfold ncross, ndist; rewrite vsub_R; reflexivity).
      rewrite E in C1. lra.
    + unfold after_corner. rewrite (turn_sine_n D0 D J0). split; intros K; [rewrite (M0 K) in H1|rewrite (N0 K) in H1]; lra.
    + unfold before_corner. rewrite (turn_sine_n D D3 J3). split; intros K; [rewrite (M3 K) in H2|rewrite (N3 K) in H2]; lra.
  - intros K. apply negb_true_iff in H4. rewrite V3, K, vlen_R, zeroN_R in H4. cbn [RA neqb rvec vx vy] in H4.
    rewrite !Rminus_eq_0, !Rmult_0_r, Rplus_0_r, sqrt_0 in H4. destruct (Reqb_spec 0 0); [discriminate|congruence].
Qed.

Lemma sqrt_sum_0 a b : sqrt (a * a + b * b) = 0 -> a = 0 /\ b = 0.
Proof.
  intros H. pose proof (Rle_0_sqr a) as A. pose proof (Rle_0_sqr b) as B. apply sqrt_eq_0 in H; [|unfold Rsqr in *; lra].
  split; apply Rsqr_eq_0; unfold Rsqr in *; lra.
Qed.

Lemma swept_ok oe e0 e3 b : directed e0 -> directed (oe_edge oe) -> directed e3 -> ep2 e0 = ep1 (oe_edge oe) -> ep2 (oe_edge oe) = ep1 e3 ->
  oe_bprev oe = v_bis (corner e0 (oe_edge oe)) -> oe_bnext oe = v_bis (corner (oe_edge oe) e3) ->
  swept 0 0 e0 (oe_edge oe) e3 b -> enorm (oe_edge oe) <> enorm e3 -> split_ok oe b = true.
Proof.
  intros D0 D D3 J0 J3 B0 B3 (S1 & S2 & S3) Hn. unfold split_ok. cbv zeta. set (e := oe_edge oe) in *. rewrite B0, B3.
  destruct (corner_ray e0 e) as (s0 & P0 & _ & V0 & M0 & N0). destruct (corner_ray e e3) as (s3 & P3 & _ & V3 & M3 & N3).
  rewrite P0, P3. unfold after_corner, before_corner in *. rewrite (turn_sine_n D0 D J0) in S2. rewrite (turn_sine_n D D3 J3) in S3.
  cbv zeta in S2, S3. destruct S2 as [S2 S2'], S3 as [S3 S3'].
  rewrite cross_lt_true, cross_gt_true, cross_gt1_true; cbn [andb].
  - rewrite V3, vlen_R, zeroN_R. cbn [RA neqb rvec vx vy]. apply negb_true_iff.
    match goal with |- Reqb ?x 0 = false => destruct (Reqb_spec x 0) as [K|K]; auto end. exfalso. apply Hn.
    assert (Hs : s3 = 1 \/ s3 = -1) by (eapply sg_cases; eauto).
    apply sqrt_sum_0 in K as [K1 K2]. clear - K1 K2 Hs.
    destruct (enorm e) as [ax ay], (enorm e3) as [bx by_]. cbn [vx vy] in *. change (num RA) with R in *.
    destruct Hs; subst s3; f_equal; lra.
  - assert (E : ncross (enorm e) (vsub b (ep1 e)) = ndist e b) by (unfold ncross, ndist; rewrite vsub_R; reflexivity).
    rewrite E, <- edge_dist_n by auto. lra.
  - rewrite (corner_cross b D D3 J3 V3). destruct (Rlt_dec (ncross (enorm e) (enorm e3)) 0) as [K|K]; [rewrite (M3 K); specialize (S3 K)|rewrite (N3 ltac:(lra)); specialize (S3' ltac:(lra))]; lra.
  - rewrite (corner_cross b D0 D J0 V0). destruct (Rlt_dec (ncross (enorm e0) (enorm e)) 0) as [K|K]; [rewrite (M0 K); specialize (S2 K)|rewrite (N0 ltac:(lra)); specialize (S2' ltac:(lra))]; lra.
Qed.

(** ** points equidistant from two edges of a reflex corner *)
Lemma corner_equi e1 e2 : directed e1 -> directed e2 -> ep2 e1 = ep1 e2 -> equi (corner e1 e2).
Proof.
  intros D1 D2 Hp. apply mk_vertex_equi; auto. rewrite <- !edge_dist_n by auto. rewrite edge_dist_end1, <- Hp. apply edge_dist_end2.
Qed.

(** along the bisector of a reflex corner the distance does not get negative *)
Lemma reflex_front e1 e2 q : directed e1 -> directed e2 -> ep2 e1 = ep1 e2 -> ncross (enorm e1) (enorm e2) < 0 ->
  on_lin (v_bis (corner e1 e2)) q -> 0 <= ndist e1 q.
Proof.
  intros D1 D2 Hp Hc (t & Ht & Hx & Hy). destruct (corner_ray e1 e2) as (sg & P & R0 & V & M & _). rewrite P, V in Hx, Hy. specialize (Ht R0).
  rewrite (M Hc) in *. clear M.
  rewrite (ndist_along _ Hx Hy). rewrite <- Hp, <- edge_dist_n, edge_dist_end2 by auto. unfold ncross, rvec in *. cbn [vx vy]. simpl in *.
  assert (0 <= t * - (vx (enorm e1) * vy (enorm e2) - vy (enorm e1) * vx (enorm e2))) by (apply Rmult_le_pos; lra). nra.
Qed.

Lemma two_products a b c d x y : a * d - b * c <> 0 -> a * y - b * x = 0 -> c * y - d * x = 0 -> x = 0 /\ y = 0.
Proof.
  intros H H1 H2. assert ((a * d - b * c) * x = 0) by (transitivity (c * (a * y - b * x) - a * (c * y - d * x)); [ring|rewrite H1, H2; ring]).
  assert ((a * d - b * c) * y = 0) by (transitivity (d * (a * y - b * x) - b * (c * y - d * x)); [ring|rewrite H1, H2; ring]).
  split; [destruct (Rmult_integral _ _ H0)|destruct (Rmult_integral _ _ H3)]; auto; contradiction.
Qed.

Lemma on_reflex_bisector e1 e2 q d : directed e1 -> directed e2 -> ep2 e1 = ep1 e2 -> ncross (enorm e1) (enorm e2) < 0 ->
  0 <= d -> ndist e1 q = d -> ndist e2 q = d -> on_lin (v_bis (corner e1 e2)) q.
Proof.
  intros D1 D2 Hp Hc Hd H1 H2. destruct (corner_ray e1 e2) as (sg & P & R0 & V & M & _). rewrite (M Hc) in V. clear M sg.
  set (k := - ncross (enorm e1) (enorm e2)). assert (K : 0 < k) by (unfold k; lra).
  exists (d / k). split; [intros _; apply Rmult_le_pos; [auto|left; apply Rinv_0_lt_compat; auto]|]. rewrite P, V. unfold rvec. cbn [vx vy].
  assert (Z : ndist e1 (ep1 e2) = 0) by (rewrite <- Hp, <- edge_dist_n by auto; apply edge_dist_end2).
  assert (A1 : vx (enorm e1) * (vy q - vy (ep1 e2)) - vy (enorm e1) * (vx q - vx (ep1 e2)) = d) by (unfold ndist in *; simpl in *; lra).
  assert (A2 : vx (enorm e2) * (vy q - vy (ep1 e2)) - vy (enorm e2) * (vx q - vx (ep1 e2)) = d) by (unfold ndist in *; simpl in *; lra).
  unfold ncross in *. destruct (enorm e1) as [ax ay], (enorm e2) as [bx by_]. cbn [vx vy] in *. change (num RA) with R in *.
  set (X := vx q - vx (ep1 e2)) in *. set (Y := vy q - vy (ep1 e2)) in *.
  destruct (@two_products ax ay bx by_ (X - d / k * (-1 * (bx - ax))) (Y - d / k * (-1 * (by_ - ay)))) as [E1 E2].
  - unfold k in K. simpl in *. lra.
  - transitivity ((ax * Y - ay * X) - d / k * (- (ax * by_ - ay * bx))); [ring|]. rewrite A1. change (- (ax * by_ - ay * bx)) with k. field. lra.
  - transitivity ((bx * Y - by_ * X) - d / k * (- (ax * by_ - ay * bx))); [ring|]. rewrite A2. change (- (ax * by_ - ay * bx)) with k. field. lra.
  - unfold X, Y in *. simpl in *. split; lra.
Qed.

(** ** the events scheduled in the beginning *)
Section Scheduled.
Variable contours : list (list (@edge2 RA)).
Hypothesis Hclosed : forall c, In c contours -> closed_contour c.
Variable s : @slav RA.
Hypothesis Hinit : init_slav contours = Ok s.
Local Open Scope nat_scope.

Let Hne : forall c, In c contours -> c <> [].
Proof. intros c Hc. apply (Hclosed Hc). Qed.

Let W : wavefront_of contours s.
Proof. destruct (init_slav_ok Hne) as (s' & Hi' & H & _). rewrite Hinit in Hi'. apply Ok_inj in Hi'. subst s'. exact H. Qed.

Lemma in_a_lav i : i < length (s_vs s) -> v_lav (getv (s_vs s) i) <> None.
Proof.
  intros Hi. pose proof W as (W1 & W2 & W3 & W4). rewrite W1 in Hi.
  destruct (offset_find Hi) as (k & Hk & Hin). pose proof (nth_error_nth' contours [] Hk) as Hc. set (c := nth k contours []) in *.
  unfold contour_ids in Hin. fold c in Hin. apply in_seq in Hin. unfold offset in Hin.
  destruct (init_slav_spec Hne) as (s' & Hi' & L). rewrite Hinit in Hi'. apply Ok_inj in Hi'. subst s'. destruct L as (_ & _ & _ & L4 & _).
  destruct (L4 k c Hc) as (_ & _ & _ & HV). set (off := length (concat (firstn k contours))) in *.
  destruct (HV (i - off) ltac:(lia)) as (ep & en & _ & _ & _ & _ & _ & _ & _ & Hl & _). replace (off + (i - off)) with i in Hl by lia. congruence.
Qed.

Lemma consecutive_facts c e1 e2 : In c contours -> consecutive c e1 e2 -> directed e1 /\ directed e2 /\ ep2 e1 = ep1 e2.
Proof.
  intros Hc Hcon. destruct (Hclosed Hc) as (_ & Hd & Hj). split; [|split; auto]; apply Hd; destruct Hcon as (j & _ & N1 & N2); eapply nth_error_In; eauto.
Qed.

Theorem scheduled_split i d b id e :
  (forall c e1 e2, In c contours -> consecutive c e1 e2 -> plain_corner (concat contours) e1 e2) ->
  i < length (s_vs s) -> next_event s i = Ok (Some (SplitEv d b id e)) ->
  id = i /\ exists c e1 e2 c' e0 e3, In c contours /\ consecutive c e1 e2 /\ v_point (getv (s_vs s) i) = ep1 e2 /\ (turn_sine e1 e2 < 0)%R /\
    In c' contours /\ successive c' e0 e e3 /\ eid e <> eid e1 /\ eid e <> eid e2 /\ enorm e <> enorm e3 /\
    meet_at e1 e2 e b d /\ swept (2 / 100000) (2 / 10 ^ 17) e0 e e3 b.
Proof.
  intros Hplain Hi Hn. pose proof (in_a_lav Hi) as Hlav. destruct (@next_event_candidate _ s i (fun _ => Hlav)) as (o & Ho & _ & Hc). rewrite Hn in Ho. apply Ok_inj in Ho.
  destruct (Hc _ (eq_sym Ho)) as [K Hr]. specialize (Hr I). clear Hc.
  destruct (wavefront_corner Hclosed W Hi) as (c & e1 & e2 & Hc & Hcon & (B1 & B2 & B3 & B4 & B5)).
  destruct (consecutive_facts Hc Hcon) as (D1 & D2 & J). change (mk_vertex 0 (ep1 e2) e1 e2 None false) with (corner e1 e2) in *.
  assert (Ev : equi (getv (s_vs s) i)) by (eapply equi_kept; [|apply (corner_equi D1 D2 J)]; repeat split; auto).
  set (v := getv (s_vs s) i) in *. assert (Hv1 : v_eprev v = e1) by (rewrite B2; reflexivity). assert (Hv2 : v_enext v = e2) by (rewrite B3; reflexivity).
  assert (Hp : v_point v = ep1 e2) by (rewrite B1; reflexivity).
  assert (Hx : (ncross (enorm e1) (enorm e2) < 0)%R) by (rewrite B4 in Hr; apply corner_reflex in Hr; exact Hr).
  inversion K as [| |oe ev Hr' Hoe Hs]; subst ev. fold v in Hs.
  destruct (@edge_of_orig _ Hclosed _ Hinit _ Hoe) as (c' & e0 & e3 & Hc' & Hsuc & O1 & O2).
  destruct (@successive_in _ Hclosed _ _ _ _ Hc' Hsuc) as (D0 & De & D3 & J0 & J3 & _ & _).
  pose proof (Hplain c e1 e2 Hc Hcon) as [P1 P2]; [rewrite turn_sine_n; auto|]. rewrite turn_sine_n in P1 by auto.
  destruct (split_tests Hs) as (b' & E1 & Hok & Hon). 
  pose proof (f_equal (fun ev => match ev with SplitEv d' _ _ _ => d' | _ => d end) E1) as Ed. cbv beta iota in Ed.
  injection E1 as _ Eb Eid Ee. subst b' id.
  edestruct (@split_point i v oe) as (b' & E2 & Q1 & Q2 & Q3 & Q4); [exact Ev|exact Hr| | | | | |exact Hs|].
  - rewrite Hp, Hv1, <- J, <- edge_dist_n by auto. apply edge_dist_end2.
  - exact De.
  - instantiate (1 := concat contours). apply in_concat. exists c'. split; auto. destruct Hsuc as (j & _ & _ & N & _). eapply nth_error_In; eauto.
  - rewrite Hv1, Hv2. auto.
  - rewrite Hv1, Hv2, Hp. apply P2.
  - injection E2 as _ Eb' _. subst b'. rewrite Hv1, Hv2 in *. split; auto. exists c, e1, e2, c', e0, e3.
    assert (Hpos : (0 <= ndist e1 b)%R) by (apply (reflex_front D1 D2 J Hx); rewrite <- B5; exact Hon).
    destruct (@ok_swept oe e0 e3 b) as [S1 S2]; auto.
    do 3 (split; [assumption|]). split; [rewrite turn_sine_n; auto|]. split; [assumption|]. rewrite Ee in *. split; [exact Hsuc|].
    split; [apply Nat.eqb_neq; exact Q3|]. split; [apply Nat.eqb_neq; exact Q4|]. split; [exact S2|]. split; [|exact S1].
    assert (Hd : d = ndist (oe_edge oe) b).
    { rewrite Ed, line_distance_abs, edge_dist_n by auto. apply Rabs_pos_eq. lra. }
    unfold meet_at. rewrite !edge_dist_n by auto. rewrite Hd. repeat split; lra.
Qed.

Theorem no_split_missed i : i < length (s_vs s) -> exists c e1 e2, In c contours /\ consecutive c e1 e2 /\ v_point (getv (s_vs s) i) = ep1 e2 /\
  ((turn_sine e1 e2 < 0)%R -> forall c' e0 e e3 q d, In c' contours -> successive c' e0 e e3 -> eid e <> eid e1 -> eid e <> eid e2 ->
   (-1 + 1 / 100000 <= turn_sine e1 e2)%R \/ behind e1 e2 e -> enorm e <> enorm e3 -> clear_of e1 e2 e -> meet_at e1 e2 e q d -> swept 0 0 e0 e e3 q ->
   exists ev p, next_event s i = Ok (Some ev) /\ event_point ev = Some p /\ (euclid_dist (ep1 e2) p <= euclid_dist (ep1 e2) q)%R).
Proof.
  intros Hi. pose proof (in_a_lav Hi) as Hlav.
  destruct (wavefront_corner Hclosed W Hi) as (c & e1 & e2 & Hc & Hcon & (B1 & B2 & B3 & B4 & B5)). exists c, e1, e2. do 2 (split; [assumption|]).
  destruct (consecutive_facts Hc Hcon) as (D1 & D2 & J). change (mk_vertex 0 (ep1 e2) e1 e2 None false) with (corner e1 e2) in *.
  assert (Ev : equi (getv (s_vs s) i)) by (eapply equi_kept; [|apply (corner_equi D1 D2 J)]; repeat split; auto).
  set (v := getv (s_vs s) i) in *. assert (Hv1 : v_eprev v = e1) by (rewrite B2; reflexivity). assert (Hv2 : v_enext v = e2) by (rewrite B3; reflexivity).
  assert (Hp : v_point v = ep1 e2) by (rewrite B1; reflexivity). split; [exact Hp|].
  rewrite turn_sine_n by auto. intros Ht c' e0 e e3 q d Hc' Hsuc I1 I2 Hra Hn Hcl (Md & M1 & M2 & M3) Hsw.
  destruct (@successive_in _ Hclosed _ _ _ _ Hc' Hsuc) as (D0 & De & D3 & J0 & J3 & _ & _).
  destruct (@orig_of_edge _ Hclosed _ Hinit _ _ _ _ Hc' Hsuc) as (oe & Hoe & <- & O1 & O2). set (e := oe_edge oe) in *.
  rewrite edge_dist_n in M1, M2, M3 by auto.
  assert (Hr : v_reflex v = true) by (rewrite B4; apply corner_reflex; exact Ht).
  assert (Hon : on_lin (v_bis v) q) by (rewrite B5; apply (@on_reflex_bisector e1 e2 q d); auto).
  assert (Hs : split_candidate i v oe = Some (SplitEv (line_distance (Line2_edge e) q) q i e)).
  { apply split_found; auto.
    - rewrite Hp, Hv1, <- J, <- edge_dist_n by auto. apply edge_dist_end2.
    - rewrite Hv1, Hv2. exact Ht.
    - rewrite Hv1, Hv2, Hp. destruct Hra as [Hra|Hra]; [left; exact Hra|right]. intros f x Hf Hx. specialize (Hra f x Hf Hx).
      assert (Df : directed f) by (destruct Hf; subst f; auto). destruct Df as (Nf & X1 & X2). pose proof (dist_pos Nf) as Lf.
      rewrite <- X1, <- X2 in Hra. apply Rmult_le_reg_r with (euclid_dist (ep1 f) (ep2 f)); auto. simpl in *. lra.
    - rewrite Hv1, Hv2, Hp. exact Hcl.
    - rewrite Hv1. apply Nat.eqb_neq. exact I1.
    - rewrite Hv2. apply Nat.eqb_neq. exact I2.
    - rewrite Hv1. fold e. congruence.
    - apply (@swept_ok oe e0 e3 q); auto. }
  assert (Hcand : candidate s i (SplitEv (line_distance (Line2_edge e) q) q i e)) by (apply cand_split with oe; auto).
  destruct (@next_event_candidate _ s i (fun _ => Hlav)) as (o & Ho & Hnone & Hsome).
  destruct o as [ev|]; [|exfalso; exact (proj1 Hnone eq_refl _ Hcand)]. destruct (Hsome _ eq_refl) as [Hce _].
  assert (P : exists p, event_point ev = Some p).
  { destruct Hce as [p|p|oe' ev' _ _ Hs']; [exists p; auto|exists p; auto|]. destruct (split_candidate_shape Hs') as (b & -> & _). exists b. auto. }
  destruct P as (p & P). exists ev, p. split; auto. split; auto.
  pose proof (@next_event_nearest_R s i _ Ho ev p eq_refl P _ _ Hcand eq_refl) as G. cbv zeta in G. fold v in G. rewrite Hp in G. exact G.
Qed.
End Scheduled.

(** ** right-angled reflex corners *)
Lemma moved_len (nx ny mx my L : R) : nx * nx + ny * ny = 1 -> mx * mx + my * my = 1 -> 1 / 10 <= L ->
  let M := sqrt ((- L * nx + mx * (1 / 100)) * (- L * nx + mx * (1 / 100)) + (- L * ny + my * (1 / 100)) * (- L * ny + my * (1 / 100))) in
  L - 1 / 100 <= M <= L + 1 / 100.
Proof.
  intros Hn Hm HL M.
  assert (D : -1 <= nx * mx + ny * my <= 1).
  { pose proof (Rle_0_sqr (nx - mx)) as A. pose proof (Rle_0_sqr (ny - my)) as B. pose proof (Rle_0_sqr (nx + mx)) as C. pose proof (Rle_0_sqr (ny + my)) as E.
    unfold Rsqr in *. split; lra. }
  assert (Q : (- L * nx + mx * (1 / 100)) * (- L * nx + mx * (1 / 100)) + (- L * ny + my * (1 / 100)) * (- L * ny + my * (1 / 100)) =
    L * L - 1 / 50 * L * (nx * mx + ny * my) + 1 / 10000).
  { transitivity (L * L * (nx * nx + ny * ny) - 1 / 50 * L * (nx * mx + ny * my) + 1 / 10000 * (mx * mx + my * my)); [field|]. rewrite Hn, Hm. ring. }
  unfold M. rewrite Q. set (k := nx * mx + ny * my) in *. clearbody k. split.
  - replace (L - 1 / 100) with (sqrt ((L - 1 / 100) * (L - 1 / 100))) at 1 by (apply sqrt_square; lra). apply sqrt_le_1_alt.
    assert (L * k <= L * 1) by (apply Rmult_le_compat_l; lra). lra.
  - replace (L + 1 / 100) with (sqrt ((L + 1 / 100) * (L + 1 / 100))) by (apply sqrt_square; lra). apply sqrt_le_1_alt.
    assert (L * -1 <= L * k) by (apply Rmult_le_compat_l; lra). lra.
Qed.

Lemma split_near id v oe ev (E : list (@edge2 RA)) r : equi v -> v_reflex v = true ->
  ndist (v_eprev v) (v_point v) = 0 -> directed (oe_edge oe) -> In (oe_edge oe) E ->
  ncross (enorm (v_eprev v)) (enorm (v_enext v)) < 0 -> 1 / 10 <= r ->
  (forall f q, In f E -> cross_in (v_eprev v) f q \/ cross_in (v_enext v) f q -> q = v_point v \/ r <= euclid_dist q (v_point v)) ->
  split_candidate id v oe = Some ev -> exists b,
    ev = SplitEv (line_distance (Line2_edge (oe_edge oe)) b) b id (oe_edge oe) /\
    ndist (v_eprev v) b = ndist (v_enext v) b /\
    (exists L M, r <= L /\ L - 1 / 100 <= M <= L + 1 / 100 /\
      (ndist (v_eprev v) b = ndist (oe_edge oe) b \/ L * ndist (v_eprev v) b = (M + 1 / 100) * ndist (oe_edge oe) b)) /\
    same_edge (oe_edge oe) (v_eprev v) = false /\ same_edge (oe_edge oe) (v_enext v) = false.
Proof.
  intros Ev Hr H0 De HE Hc Hr10 Hfar. unfold split_candidate.
  set (e := oe_edge oe) in *.
  destruct (same_edge e (v_eprev v)) eqn:E1; [discriminate|].
  destruct (same_edge e (v_enext v)) eqn:E2; [discriminate|]. cbn [orb].
  set (selfedge := if nltb _ _ then _ else _).
  assert (Hself : selfedge = v_eprev v \/ selfedge = v_enext v) by (unfold selfedge; destruct (nltb _ _); auto).
  clearbody selfedge.
  destruct (line_intersect (Line2_edge selfedge) (Line2_edge e)) as [i|] eqn:Ei; [|discriminate].
  destruct (approximately_equals i (v_point v)) eqn:Ea; [discriminate|].
  pose proof Ev as (D1 & D2 & Hp & Hq & sg & Hsg & Hrs & Hl). specialize (Hrs Hr). subst sg.
  assert (Dself : directed selfedge) by (destruct Hself; subst; auto).
  apply line_intersect_R in Ei. destruct Ei as (Hnp & Oi & Oe).
  assert (Zi : ndist selfedge i = 0) by (apply on_edge_line; auto).
  assert (Ze : ndist e i = 0) by (apply on_edge_line; auto).
  assert (Zp : ndist selfedge (v_point v) = 0) by (destruct Hself; subst; congruence).
  set (p := v_point v) in *.
  assert (Hip : i <> p).
  { intros K. unfold approximately_equals in Ea. apply orb_false_iff in Ea as [Ea _].
    assert (veq i p = true) by (apply veq_R; auto). congruence. }
  assert (Hlen : r <= euclid_dist i p).
  { assert (X : cross_in selfedge e i).
    { split; [|split; apply on_line_n; auto]. unfold Line2_edge in Hnp. cbn [lv] in Hnp. rewrite !vsub_R in Hnp. exact Hnp. }
    destruct (Hfar e i) as [K|K]; auto.
    - destruct Hself; subst selfedge; [left|right]; exact X.
    - contradiction. }
  set (c := ncross (enorm (v_eprev v)) (enorm (v_enext v))) in *.
  pose proof (directed_unit Dself) as U. pose proof (directed_unit De) as Ue.
  (* p - i is sl * L times the direction of the own edge *)
  assert (Hvec : exists sl L, (sl = 1 \/ sl = -1) /\ r <= L /\ vnormalized (vsub p i) = V2 (A := RA) (sl * vx (enorm selfedge)) (sl * vy (enorm selfedge)) /\
    vsub p i = V2 (A := RA) (sl * L * vx (enorm selfedge)) (sl * L * vy (enorm selfedge))).
  { assert (Hl2 : vlen (vsub p i) = euclid_dist i p) by apply vlen_sub.
    assert (T17 : / 10 ^ 17 < 1 / 10).
    { replace (1 / 10) with (/ 10 ^ 1) by (simpl; field). apply Rinv_lt_contravar; [|apply Rlt_pow; [lra|repeat constructor]].
      apply Rmult_lt_0_compat; apply pow_lt; lra. }
    destruct (normalized_cases (vsub p i)) as [(k & Hk & Ek & Hk1)|[_ K]]; [|lra].
    assert (Hsq : / 10 ^ 35 < (vx p - vx i) * (vx p - vx i) + (vy p - vy i) * (vy p - vy i)).
    { assert (X : (vx p - vx i) * (vx p - vx i) + (vy p - vy i) * (vy p - vy i) = euclid_dist i p * euclid_dist i p) by (rewrite dist_sq; simpl; ring).
      rewrite X. apply Rlt_le_trans with (1 / 10 * (1 / 10)); [|apply Rmult_le_compat; lra].
      replace (1 / 10 * (1 / 10)) with (/ 10 ^ 2) by (simpl; field). apply Rinv_lt_contravar; [|apply Rlt_pow; [lra|repeat constructor]].
      apply Rmult_lt_0_compat; apply pow_lt; lra. }
    assert (Hpar : (vx p - vx i) * vy (enorm selfedge) = (vy p - vy i) * vx (enorm selfedge)).
    { unfold ndist in Zi, Zp. clear - Zi Zp. destruct p as [px py], i as [ix iy], (enorm selfedge) as [nx ny], (ep1 selfedge) as [sx sy].
      cbn [vx vy] in *. simpl in *. lra. }
    destruct (unit_multiple U Hpar Hsq) as (sl & Hsl & Hv). rewrite <- vsub_R in Hv. exists sl, (euclid_dist i p). split; auto. split; auto. split; auto.
    rewrite Hv in Ek. injection Ek as K1 K2. rewrite Hl2 in Hk1. rewrite vsub_R in *. cbn [vx vy] in *.
    set (L := euclid_dist i p) in *. assert (0 < L) by lra.
    f_equal; apply Rmult_eq_reg_l with k; try lra; [rewrite <- K1|rewrite <- K2]; replace (k * (sl * L * vx (enorm selfedge))) with (k * L * (sl * vx (enorm selfedge))) by (simpl; ring);
      replace (k * (sl * L * vy (enorm selfedge))) with (k * L * (sl * vy (enorm selfedge))) by (simpl; ring); rewrite Hk1; simpl; ring. }
  destruct Hvec as (sl & L & Hsl & HL & Hvec & Hdiff). rewrite Hvec. cbv zeta.
  assert (Hcr : vcross (lv (v_bis v)) (V2 (A := RA) (sl * vx (enorm selfedge)) (sl * vy (enorm selfedge))) = sl * c).
  { rewrite vcross_R, Hl. unfold rvec; cbn [vx vy]. unfold c, ncross. destruct Hself; subst selfedge; simpl; ring. }
  rewrite Hcr.
  set (M := sqrt ((- L * vx (enorm selfedge) + vx (enorm e) * (1 / 100)) * (- L * vx (enorm selfedge) + vx (enorm e) * (1 / 100)) +
                  (- L * vy (enorm selfedge) + vy (enorm e) * (1 / 100)) * (- L * vy (enorm selfedge) + vy (enorm e) * (1 / 100)))).
  assert (HM : L - 1 / 100 <= M <= L + 1 / 100) by (apply moved_len; simpl in *; lra).
  destruct (nltb (nabs (nsub (sl * c : num RA) oneN)) EPSILON) eqn:Htw.
  - (* turned a little *)
    assert (Hsc : 1 - 1 / 100000 < sl * c).
    { rewrite oneN_R in Htw. unfold EPSILON in Htw. cbn [RA nltb nabs nsub lit] in Htw. apply Rltb_lt in Htw. apply Rabs_def2 in Htw. simpl in *. lra. }
    assert (sl = -1) by (destruct Hsl as [->| ->]; auto; exfalso; simpl in *; lra). subst sl. clear Hsl Htw.
    set (X := vadd (vsub p i) _).
    assert (HX : vx X = - L * vx (enorm selfedge) + vx (enorm e) * (1 / 100) /\ vy X = - L * vy (enorm selfedge) + vy (enorm e) * (1 / 100)).
    { unfold X. rewrite Hdiff, vadd_R. unfold vscale. cbn [vx vy RA nmul lit]. split; simpl; lra. }
    clearbody X. destruct HX as [Xx Xy].
    assert (XM : vlen X = M) by (rewrite vlen_R, Xx, Xy; reflexivity).
    assert (M0 : 0 < M) by lra.
    destruct (normalized_cases X) as [(k & Hk & -> & Hk1)|[_ K]].
    2:{ exfalso. assert (/ 10 ^ 17 < 1 / 20); [|lra]. apply Rlt_trans with (/ 10 ^ 2); [|simpl; lra].
        apply Rinv_lt_contravar; [|apply Rlt_pow; [lra|repeat constructor]]. apply Rmult_lt_0_compat; apply pow_lt; lra. }
    rewrite XM in Hk1.
    assert (Hpos : nltb (vcross (lv (v_bis v)) (V2 (A := RA) (k * vx X) (k * vy X))) zeroN = false).
    { rewrite zeroN_R, vcross_R. cbn [RA nltb vx vy]. apply Rltb_ge.
      assert (B : Rabs (ncross (lv (v_bis v)) (enorm e)) <= 2).
      { eapply Rle_trans; [apply cross_bound|]. assert (vlen (enorm e) = 1) by (rewrite vlen_R; simpl in *; rewrite Ue; apply sqrt_1). rewrite H, Rmult_1_r.
        rewrite Hl. apply corner_len; auto. }
      assert (G : vx (lv (v_bis v)) * vy X - vy (lv (v_bis v)) * vx X = L * (-1 * c) + 1 / 100 * ncross (lv (v_bis v)) (enorm e)).
      { rewrite Xx, Xy. rewrite vcross_R in Hcr. cbn [vx vy] in Hcr. unfold ncross. simpl in *. rewrite <- Hcr. lra. }
      assert (G2 : 0 <= vx (lv (v_bis v)) * vy X - vy (lv (v_bis v)) * vx X).
      { rewrite G. assert (1 / 10 * (1 - 1 / 100000) <= L * (-1 * c)) by (apply Rmult_le_compat; simpl in *; lra).
        pose proof (Rabs_def2 _ _ (Rle_lt_trans _ _ 3 B ltac:(lra))) as [B1 B2]. simpl in *. lra. }
      replace (vx (lv (v_bis v)) * (k * vy X) - vy (lv (v_bis v)) * (k * vx X)) with (k * (vx (lv (v_bis v)) * vy X - vy (lv (v_bis v)) * vx X)) by (simpl; ring).
      apply Rmult_le_pos; lra. }
    rewrite Hpos, vadd_R. cbn [vx vy].
    destruct (negb (ntruth _)); [discriminate|].
    destruct (line_intersect (Line2_pv i _) (v_bis v)) as [b|] eqn:Eb; [|discriminate].
    destruct (_ && _); [|discriminate]. intros [= <-]. exists b. split; auto.
    apply line_intersect_R in Eb. destruct Eb as (_ & Ob & Obis).
    assert (Eq1 : ndist (v_eprev v) b = ndist (v_enext v) b) by (apply equi_on; auto).
    split; auto. split; [|auto]. exists L, M. split; auto. split; auto. right.
    assert (Eq2 : L * ndist selfedge b = (M + 1 / 100) * ndist e b).
    { destruct Ob as (t & _ & Bx & By). unfold Line2_pv in Bx, By; cbn [lp lv] in Bx, By.
      rewrite (ndist_along selfedge Bx By), (ndist_along e Bx By), Zi, Ze. unfold ncross; cbn [vx vy]. rewrite Xx, Xy.
      set (K := vx (enorm selfedge) * vy (enorm e) - vy (enorm selfedge) * vx (enorm e)).
      transitivity (t * L * K * (1 + k * (1 / 100))); [unfold K; simpl; ring|].
      transitivity (t * L * K * (k * M + k * (1 / 100))); [rewrite Hk1; ring|]. unfold K. simpl. ring. }
    destruct Hself; subst selfedge; congruence.
  - rewrite Hcr.
    set (ed := if nltb (sl * c : num RA) zeroN then _ else _).
    assert (Hed : ed = V2 (A := RA) (- sl * vx (enorm e)) (- sl * vy (enorm e))).
    { unfold ed. rewrite zeroN_R. cbn [RA nltb]. destruct (Rltb_spec (sl * c) 0) as [K|K].
      - assert (sl = 1) by (destruct Hsl; subst; auto; lra). subst sl. unfold vneg. cbn [RA nneg]. f_equal; simpl; lra.
      - assert (sl = -1) by (destruct Hsl; subst; auto; lra). subst sl. destruct (enorm e) as [nx ny]; cbn [vx vy]. f_equal; simpl; lra. }
    rewrite Hed, vadd_R. cbn [vx vy]. clear ed Hed Htw.
    destruct (negb (ntruth _)); [discriminate|].
    destruct (line_intersect (Line2_pv i _) (v_bis v)) as [b|] eqn:Eb; [|discriminate].
    destruct (_ && _); [|discriminate]. intros [= <-]. exists b. split; auto.
    apply line_intersect_R in Eb. destruct Eb as (_ & Ob & Obis).
    assert (Eq1 : ndist (v_eprev v) b = ndist (v_enext v) b) by (apply equi_on; auto).
    split; auto. split; [|auto]. exists L, M. split; auto. split; auto. left.
    assert (Eq2 : ndist selfedge b = ndist e b).
    { destruct Ob as (t & _ & Bx & By). unfold Line2_pv in Bx, By; cbn [lp lv] in Bx, By.
      rewrite (ndist_along selfedge Bx By), (ndist_along e Bx By), Zi, Ze. unfold ncross; cbn [vx vy]. simpl. ring. }
    destruct Hself; subst selfedge; congruence.
Qed.

Section Near.
Variable contours : list (list (@edge2 RA)).
Hypothesis Hclosed : forall c, In c contours -> closed_contour c.
Variable s : @slav RA.
Hypothesis Hinit : init_slav contours = Ok s.
Local Open Scope nat_scope.

Let W : wavefront_of contours s.
Proof. destruct (init_slav_ok (fun c Hc => proj1 (Hclosed Hc))) as (s' & Hi' & H & _). rewrite Hinit in Hi'. apply Ok_inj in Hi'. subst s'. exact H. Qed.

Theorem scheduled_split_near r i d b id e : (1 / 10 <= r)%R ->
  (forall c e1 e2, In c contours -> consecutive c e1 e2 -> (turn_sine e1 e2 < 0)%R -> apart r (concat contours) e1 e2) ->
  i < length (s_vs s) -> next_event s i = Ok (Some (SplitEv d b id e)) ->
  id = i /\ exists c e1 e2 c' e0 e3, In c contours /\ consecutive c e1 e2 /\ v_point (getv (s_vs s) i) = ep1 e2 /\ (turn_sine e1 e2 < 0)%R /\
    In c' contours /\ successive c' e0 e e3 /\ eid e <> eid e1 /\ eid e <> eid e2 /\ enorm e <> enorm e3 /\
    nearly_meet_at r e1 e2 e b d /\ swept (2 / 100000) (2 / 10 ^ 17) e0 e e3 b.
Proof.
  intros Hr10 Hplain Hi Hn. pose proof (@in_a_lav _ Hclosed _ Hinit _ Hi) as Hlav. destruct (@next_event_candidate _ s i (fun _ => Hlav)) as (o & Ho & _ & Hc). rewrite Hn in Ho. apply Ok_inj in Ho.
  destruct (Hc _ (eq_sym Ho)) as [K Hr]. specialize (Hr I). clear Hc.
  destruct (wavefront_corner Hclosed W Hi) as (c & e1 & e2 & Hc & Hcon & (B1 & B2 & B3 & B4 & B5)).
  destruct (@consecutive_facts _ Hclosed _ _ _ Hc Hcon) as (D1 & D2 & J). change (mk_vertex 0 (ep1 e2) e1 e2 None false) with (corner e1 e2) in *.
  assert (Ev : equi (getv (s_vs s) i)) by (eapply equi_kept; [|apply (corner_equi D1 D2 J)]; repeat split; auto).
  set (v := getv (s_vs s) i) in *. assert (Hv1 : v_eprev v = e1) by (rewrite B2; reflexivity). assert (Hv2 : v_enext v = e2) by (rewrite B3; reflexivity).
  assert (Hp : v_point v = ep1 e2) by (rewrite B1; reflexivity).
  assert (Hx : (ncross (enorm e1) (enorm e2) < 0)%R) by (rewrite B4 in Hr; apply corner_reflex in Hr; exact Hr).
  inversion K as [| |oe ev Hr' Hoe Hs]; subst ev. fold v in Hs.
  destruct (@edge_of_orig _ Hclosed _ Hinit _ Hoe) as (c' & e0 & e3 & Hc' & Hsuc & O1 & O2).
  destruct (@successive_in _ Hclosed _ _ _ _ Hc' Hsuc) as (D0 & De & D3 & J0 & J3 & _ & _).
  pose proof (Hplain c e1 e2 Hc Hcon) as P2. rewrite turn_sine_n in P2 by auto. specialize (P2 Hx).
  destruct (split_tests Hs) as (b' & E1 & Hok & Hon).
  pose proof (f_equal (fun ev => match ev with SplitEv d' _ _ _ => d' | _ => d end) E1) as Ed. cbv beta iota in Ed.
  injection E1 as _ Eb Eid Ee. subst b' id.
  edestruct (@split_near i v oe) as (b' & E2 & Q1 & (L & M & HL & HM & Q2) & Q3 & Q4); [exact Ev|exact Hr| | | | |exact Hr10| |exact Hs|].
  - rewrite Hp, Hv1, <- J, <- edge_dist_n by auto. apply edge_dist_end2.
  - exact De.
  - instantiate (1 := concat contours). apply in_concat. exists c'. split; auto. destruct Hsuc as (j & _ & _ & N & _). eapply nth_error_In; eauto.
  - rewrite Hv1, Hv2. auto.
  - rewrite Hv1, Hv2, Hp. apply P2.
  - injection E2 as _ Eb' _. subst b'. rewrite Hv1, Hv2 in *. split; auto. exists c, e1, e2, c', e0, e3.
    assert (Hpos : (0 <= ndist e1 b)%R) by (apply (reflex_front D1 D2 J Hx); rewrite <- B5; exact Hon).
    destruct (@ok_swept oe e0 e3 b) as [S1 S2]; auto.
    do 3 (split; [assumption|]). split; [rewrite turn_sine_n; auto|]. split; [assumption|]. rewrite Ee in *. split; [exact Hsuc|].
    split; [apply Nat.eqb_neq; exact Q3|]. split; [apply Nat.eqb_neq; exact Q4|]. split; [exact S2|]. split; [|exact S1].
    set (e' := oe_edge oe) in *.
    assert (Hd0 : (0 <= ndist e' b)%R).
    { destruct Q2 as [Q2|Q2]; [rewrite <- Q2; exact Hpos|]. apply Rmult_le_reg_l with (M + 1 / 100)%R; [lra|]. rewrite Rmult_0_r, <- Q2. apply Rmult_le_pos; lra. }
    assert (Hd : d = ndist e' b).
    { rewrite Ed, line_distance_abs, edge_dist_n by auto. apply Rabs_pos_eq. auto. }
    unfold nearly_meet_at. rewrite !edge_dist_n by auto. rewrite Hd. split; auto. split; auto. exists (ndist e1 b). split; auto. split; auto.
    set (h := ndist e1 b) in *. set (x := ndist e' b) in *. clearbody h x. clear - Q2 HL HM Hr10 Hd0 Hpos.
    assert (Hq : (0 <= x / (50 * r))%R) by (apply Rmult_le_pos; [auto|left; apply Rinv_0_lt_compat; lra]).
    destruct Q2 as [->|Q2]; [split; lra|].
    assert (Q3 : (L * (h - x) = (M + 1 / 100 - L) * x)%R) by (rewrite Rmult_minus_distr_l, Q2; ring).
    assert (Z : (0 <= (M + 1 / 100 - L) * x)%R) by (apply Rmult_le_pos; lra).
    assert (A : (0 <= h - x)%R) by (apply Rmult_le_reg_l with L; [lra|]; rewrite Rmult_0_r, Q3; exact Z).
    split; [lra|]. assert (B : (r * (h - x) <= x / 50)%R).
    { apply Rle_trans with (L * (h - x))%R; [apply Rmult_le_compat_r; lra|]. rewrite Q3. apply Rle_trans with (1 / 50 * x)%R; [apply Rmult_le_compat_r; lra|lra]. }
    assert (C : (h - x <= x / (50 * r))%R); [|lra]. apply Rmult_le_reg_l with r; [lra|]. replace (r * (x / (50 * r)))%R with (x / 50)%R by (field; lra). exact B.
Qed.
End Near.
