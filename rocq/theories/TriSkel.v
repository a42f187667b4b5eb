(** * TriSkel: the skeleton of a triangle over the real numbers (C39) *)

From Coq Require Import Permutation Reals Lra.
From Verif Require Import Py PyFacts Arith ArithR Euclid Heapq Lav Cluster HeapProofs QueueProofs ClusterSpec GeoSpec GeoLines BisSpec BisProofs PatSpec PatProofs BisStart TriSpec.
Set Implicit Arguments.
Unset Strict Implicit.
Local Open Scope nat_scope.

(** ** the wavefront of three edges, in any arithmetic *)
Section Start.
Context {A : arith}.
Variables e0 e1 e2 : @edge2 A.

Definition tv (id p n : nat) (a b : @edge2 A) : @lavertex A :=
  with_prev p (with_next n (with_lav (Some 0) (mk_vertex id (ep1 b) a b None false))).
Definition tvs : list (@lavertex A) := [tv 0 2 1 e2 e0; tv 1 0 2 e0 e1; tv 2 1 0 e1 e2].
Definition tori : list (@orig_edge A) :=
  [OrigEdge e2 (v_bis (tv 2 1 0 e1 e2)) (v_bis (tv 0 2 1 e2 e0)); OrigEdge e0 (v_bis (tv 0 2 1 e2 e0)) (v_bis (tv 1 0 2 e0 e1));
   OrigEdge e1 (v_bis (tv 1 0 2 e0 e1)) (v_bis (tv 2 1 0 e1 e2))].
Definition ts : @slav A := SLAV tvs [LAV 0 3] [0] tori.

Lemma init_triangle : init_slav [[e0; e1; e2]] = Ok ts.
Proof. reflexivity. Qed.
End Start.

Section Triangle.
Variables e0 e1 e2 : @edge2 RA.
Variables p q r : vec RA.
Hypothesis Ho : (0 < orient p q r)%R.
Hypothesis D0 : directed e0.
Hypothesis D1 : directed e1.
Hypothesis D2 : directed e2.
Hypothesis P0 : ep1 e0 = p.
Hypothesis P1 : ep1 e1 = q.
Hypothesis P2 : ep1 e2 = r.
Hypothesis Q0 : ep2 e0 = q.
Hypothesis Q1 : ep2 e1 = r.
Hypothesis Q2 : ep2 e2 = p.
Local Open Scope R_scope.

Notation I := (incenter p q r).
Notation ρ := (inradius p q r).

Lemma sides_pos : 0 < euclid_dist p q /\ 0 < euclid_dist q r /\ 0 < euclid_dist r p.
Proof. destruct D0 as (H0 & _), D1 as (H1 & _), D2 as (H2 & _). rewrite ?P0, ?P1, ?P2, ?Q0, ?Q1, ?Q2 in *. repeat split; apply dist_pos; auto. Qed.

Lemma norms : (vx (enorm e0) * euclid_dist p q = vx q - vx p /\ vy (enorm e0) * euclid_dist p q = vy q - vy p) /\
  (vx (enorm e1) * euclid_dist q r = vx r - vx q /\ vy (enorm e1) * euclid_dist q r = vy r - vy q) /\
  (vx (enorm e2) * euclid_dist r p = vx p - vx r /\ vy (enorm e2) * euclid_dist r p = vy p - vy r).
Proof.
  destruct D0 as (_ & H0), D1 as (_ & H1), D2 as (_ & H2). rewrite ?P0, ?P1, ?P2, ?Q0, ?Q1, ?Q2 in *. auto.
Qed.

Lemma radius_pos : 0 < ρ.
Proof. destruct sides_pos as (S0 & S1 & S2). unfold inradius, perimeter. apply Rdiv_lt_0_compat; lra. Qed.

(** the corner bisectors meet in the incenter *)
Lemma bis_center (a b : @edge2 RA) id s : 0 < ncross (enorm a) (enorm b) -> 0 <= s ->
  vx I = vx (ep1 b) + s * (vx (enorm b) - vx (enorm a)) -> vy I = vy (ep1 b) + s * (vy (enorm b) - vy (enorm a)) ->
  v_reflex (mk_vertex id (ep1 b) a b None false) = false /\
  v_bis (mk_vertex id (ep1 b) a b None false) = Ray2 (ep1 b) (rvec (vx (enorm b) - vx (enorm a)) (vy (enorm b) - vy (enorm a))) /\
  on_lin (v_bis (mk_vertex id (ep1 b) a b None false)) I.
Proof.
  intros Hc Hs Hx Hy.
  assert (Hr : v_reflex (mk_vertex id (ep1 b) a b None false) = false).
  { apply Bool.not_true_iff_false. rewrite corner_reflex. lra. }
  split; auto. destruct (@mk_vertex_R id (ep1 b) a b None false) as (sg & _ & Hb & _ & S2). cbv zeta in Hb. rewrite (S2 Hr) in Hb.
  assert (Hb' : v_bis (mk_vertex id (ep1 b) a b None false) = Ray2 (ep1 b) (rvec (vx (enorm b) - vx (enorm a)) (vy (enorm b) - vy (enorm a)))).
  { rewrite Hb. unfold Ray2. f_equal. unfold rvec. f_equal; simpl; ring. }
  split; auto. rewrite Hb'. exists s. cbn [Ray2 lp lv rvec vx vy]. split; auto.
Qed.

Lemma cross01 : 0 < ncross (enorm e0) (enorm e1).
Proof.
  pose proof (orient_cross D0 D1 Q0 P1) as H. rewrite ?P0, ?P1, ?Q0, ?Q1 in H. destruct sides_pos as (S0 & S1 & S2).
  rewrite H in Ho. pose proof (Rmult_lt_0_compat _ _ S0 S1). apply Rmult_lt_reg_l with (euclid_dist p q * euclid_dist q r); lra.
Qed.
Lemma cross12 : 0 < ncross (enorm e1) (enorm e2).
Proof.
  pose proof (orient_cross D1 D2 Q1 P2) as H. rewrite ?P1, ?P2, ?Q1, ?Q2 in H. destruct sides_pos as (S0 & S1 & S2).
  assert (Ho' : 0 < orient q r p) by (replace (orient q r p) with (orient p q r) by (unfold orient; simpl; ring); auto).
  rewrite H in Ho'. pose proof (Rmult_lt_0_compat _ _ S1 S2). apply Rmult_lt_reg_l with (euclid_dist q r * euclid_dist r p); lra.
Qed.
Lemma cross20 : 0 < ncross (enorm e2) (enorm e0).
Proof.
  pose proof (orient_cross D2 D0 Q2 P0) as H. rewrite ?P0, ?P2, ?Q0, ?Q2 in H. destruct sides_pos as (S0 & S1 & S2).
  assert (Ho' : 0 < orient r p q) by (replace (orient r p q) with (orient p q r) by (unfold orient; simpl; ring); auto).
  rewrite H in Ho'. pose proof (Rmult_lt_0_compat _ _ S2 S0). apply Rmult_lt_reg_l with (euclid_dist r p * euclid_dist p q); lra.
Qed.

(** distance of the incenter from a corner along the bisector *)
Lemma center_at0 : let s := euclid_dist p q * euclid_dist r p / perimeter p q r in 0 <= s /\
  vx I = vx p + s * (vx (enorm e0) - vx (enorm e2)) /\ vy I = vy p + s * (vy (enorm e0) - vy (enorm e2)).
Proof.
  destruct sides_pos as (S0 & S1 & S2). destruct norms as ((N1 & N2) & (N3 & N4) & N5 & N6). cbv zeta.
  unfold incenter, perimeter in *. set (l0 := euclid_dist p q) in *. set (l1 := euclid_dist q r) in *. set (l2 := euclid_dist r p) in *.
  split; [|split].
  - apply Rlt_le. apply Rdiv_lt_0_compat; [apply Rmult_lt_0_compat|]; lra.
  - cbn [rvec vx]. apply Rmult_eq_reg_r with (l0 + l1 + l2); [|lra]. change (num RA) with R in *. field_simplify; try lra.
    replace (l0 * vx r) with (l0 * (vx p - vx (enorm e2) * l2)) by (rewrite N5; simpl; ring).
    replace (l2 * vx q) with (l2 * (vx p + vx (enorm e0) * l0)) by (rewrite N1; simpl; ring). simpl. ring.
  - cbn [rvec vy]. apply Rmult_eq_reg_r with (l0 + l1 + l2); [|lra]. change (num RA) with R in *. field_simplify; try lra.
    replace (l0 * vy r) with (l0 * (vy p - vy (enorm e2) * l2)) by (rewrite N6; simpl; ring).
    replace (l2 * vy q) with (l2 * (vy p + vy (enorm e0) * l0)) by (rewrite N2; simpl; ring). simpl. ring.
Qed.

Lemma center_dist : edge_dist e0 I = ρ.
Proof.
  destruct sides_pos as (S0 & S1 & S2). unfold edge_dist, signed_dist. rewrite P0, Q0. unfold inradius, incenter, perimeter in *.
  set (l0 := euclid_dist p q) in *. set (l1 := euclid_dist q r) in *. set (l2 := euclid_dist r p) in *.
  unfold orient. cbn [rvec vx vy]. change (num RA) with R in *. field. lra.
Qed.

Lemma center_not : p <> I.
Proof.
  intros E. pose proof radius_pos as H. rewrite <- center_dist in H. rewrite <- E in H. rewrite <- P0 in H.
  rewrite edge_dist_end1 in H. lra.
Qed.
End Triangle.

Local Open Scope R_scope.
Lemma perimeter_rot p q r : perimeter q r p = perimeter p q r.
Proof. unfold perimeter. ring. Qed.
Lemma incenter_rot p q r : incenter q r p = incenter p q r.
Proof. unfold incenter. rewrite perimeter_rot. unfold rvec. f_equal; f_equal; simpl; ring. Qed.
Lemma inradius_rot p q r : inradius q r p = inradius p q r.
Proof. unfold inradius. rewrite perimeter_rot. f_equal. unfold orient; simpl; ring. Qed.
Lemma orient_rot3 p q r : orient q r p = orient p q r.
Proof. unfold orient; simpl; ring. Qed.

(** two corners as seen by the event computation *)
Lemma meet (a b : @lin RA) (x : vec RA) (u w : vec RA) : lv a = u -> lv b = w -> ncross u w <> 0 -> on_lin a x -> on_lin b x ->
  line_intersect a b = Some x /\ line_intersect b a = Some x.
Proof.
  intros Ha Hb Hc H1 H2. subst u w. unfold ncross in Hc. split; apply line_intersect_R; repeat split; auto; simpl in *; lra.
Qed.

(** the angle at the incenter between two corners is obtuse *)
Lemma obtuse (p q r : vec RA) : 0 < orient p q r -> 0 < euclid_dist p q -> 0 < euclid_dist q r -> 0 < euclid_dist r p ->
  vdot (vsub p (incenter p q r)) (vsub q (incenter p q r)) < 0.
Proof.
  intros Ho H0 H1 H2. rewrite vdot_R. unfold incenter, perimeter.
  pose proof (dist_sq p q) as S0. pose proof (dist_sq q r) as S1. pose proof (dist_sq r p) as S2.
  set (l0 := euclid_dist p q) in *. set (l1 := euclid_dist q r) in *. set (l2 := euclid_dist r p) in *.
  destruct p as [px py], q as [qx qy], r as [rx ry]. unfold orient in Ho. cbn [vx vy rvec vsub mkvec RA nsub rnd] in *. change (num RA) with R in *.
  set (P := l0 + l1 + l2) in *. assert (HP : 0 < P) by (unfold P; lra).
  assert (T : (l1 - l2) * (l1 - l2) < l0 * l0).
  { set (d := (rx - qx) * (px - rx) + (ry - qy) * (py - ry)).
    assert (E : l0 * l0 = l1 * l1 + l2 * l2 + 2 * d) by (rewrite S0, S1, S2; unfold d; ring).
    assert (G : - d < l1 * l2).
    { assert (F : (l1 * l2) * (l1 * l2) = d * d + ((qx - px) * (ry - py) - (qy - py) * (rx - px)) * ((qx - px) * (ry - py) - (qy - py) * (rx - px))).
      { replace ((l1 * l2) * (l1 * l2)) with ((l1 * l1) * (l2 * l2)) by ring. rewrite S1, S2. unfold d. ring. }
      assert (0 < l1 * l2) by (apply Rmult_lt_0_compat; auto). nra. }
    lra. }
  assert (K : forall x y, (x / P - y) = (x - y * P) / P) by (intros; field; lra).
  assert (Z : forall a b, (a - b / P) = (a * P - b) / P) by (intros; field; lra).
  rewrite !Z.
  set (X1 := px * P - _). set (X2 := qx * P - _). set (Y1 := py * P - _). set (Y2 := qy * P - _).
  replace (X1 / P * (X2 / P) + Y1 / P * (Y2 / P)) with ((X1 * X2 + Y1 * Y2) / (P * P)) by (field; lra).
  assert (D : X1 * X2 + Y1 * Y2 = l0 * P * ((l1 - l2) * (l1 - l2) - l0 * l0) / 2).
  { set (ax := qx - px) in *. set (ay := qy - py) in *. set (bx := rx - qx) in *. set (by_ := ry - qy) in *.
    assert (A1 : X1 = - ((l2 + l0) * ax + l0 * bx)) by (unfold X1, P, ax, bx; ring).
    assert (A2 : X2 = l1 * ax - l0 * bx) by (unfold X2, P, ax, bx; ring).
    assert (A3 : Y1 = - ((l2 + l0) * ay + l0 * by_)) by (unfold Y1, P, ay, by_; ring).
    assert (A4 : Y2 = l1 * ay - l0 * by_) by (unfold Y2, P, ay, by_; ring).
    assert (S3 : ax * bx + ay * by_ = (l2 * l2 - l0 * l0 - l1 * l1) / 2).
    { rewrite S0, S1, S2. unfold ax, ay, bx, by_. field. }
    rewrite A1, A2, A3, A4.
    replace (- ((l2 + l0) * ax + l0 * bx) * (l1 * ax - l0 * bx) + - ((l2 + l0) * ay + l0 * by_) * (l1 * ay - l0 * by_)) with
      (- ((l2 + l0) * l1 * (ax * ax + ay * ay) + (l0 * l1 - (l2 + l0) * l0) * (ax * bx + ay * by_) - l0 * l0 * (bx * bx + by_ * by_))) by ring.
    rewrite S3, <- S0, <- S1. unfold P. field. }
  rewrite D. assert (0 < l0 * P) by (apply Rmult_lt_0_compat; auto).
  assert (N : l0 * P * ((l1 - l2) * (l1 - l2) - l0 * l0) / 2 < 0) by nra.
  apply Rmult_lt_reg_r with (P * P); [apply Rmult_lt_0_compat; auto|]. unfold Rdiv at 1. rewrite Rmult_assoc, Rinv_l, Rmult_0_l, Rmult_1_r; auto. nra.
Qed.

Section Run.
Variables e0 e1 e2 : @edge2 RA.
Variables p q r : vec RA.
Hypothesis Ho : 0 < orient p q r.
Hypothesis D0 : directed e0.
Hypothesis D1 : directed e1.
Hypothesis D2 : directed e2.
Hypothesis P0 : ep1 e0 = p.
Hypothesis P1 : ep1 e1 = q.
Hypothesis P2 : ep1 e2 = r.
Hypothesis Q0 : ep2 e0 = q.
Hypothesis Q1 : ep2 e1 = r.
Hypothesis Q2 : ep2 e2 = p.

Notation I := (incenter p q r).
Notation ρ := (inradius p q r).

Definition plain (v : @lavertex RA) (a b : @edge2 RA) : Prop :=
  v_reflex v = false /\ lv (v_bis v) = rvec (vx (enorm b) - vx (enorm a)) (vy (enorm b) - vy (enorm a)) /\ on_lin (v_bis v) I.

Lemma plain_intro (a b : @edge2 RA) id s i n : 0 < ncross (enorm a) (enorm b) ->
  0 <= s /\ vx I = vx (ep1 b) + s * (vx (enorm b) - vx (enorm a)) /\ vy I = vy (ep1 b) + s * (vy (enorm b) - vy (enorm a)) ->
  plain (tv id i n a b) a b.
Proof.
  intros Hc (Hs & Hx & Hy). destruct (bis_center id Hc Hs Hx Hy) as (H1 & H2 & H3). unfold plain, tv.
  split; [exact H1|]. split; [|exact H3]. change (lv (v_bis (mk_vertex id (ep1 b) a b None false)) = rvec (vx (enorm b) - vx (enorm a)) (vy (enorm b) - vy (enorm a))).
  rewrite H2. reflexivity.
Qed.

Lemma corners_plain : plain (tv 0 2 1 e2 e0) e2 e0 /\ plain (tv 1 0 2 e0 e1) e0 e1 /\ plain (tv 2 1 0 e1 e2) e1 e2.
Proof.
  split; [|split].
  - eapply plain_intro; [apply (cross20 Ho D0 D1 D2 P0 P1 P2 Q0 Q1 Q2)|]. rewrite P0. exact (center_at0 D0 D1 D2 P0 P1 P2 Q0 Q1 Q2).
  - eapply plain_intro; [apply (cross01 Ho D0 D1 D2 P0 P1 P2 Q0 Q1 Q2)|]. rewrite P1.
    pose proof (center_at0 D1 D2 D0 P1 P2 P0 Q1 Q2 Q0) as H. cbv zeta in H. rewrite (incenter_rot p q r) in H. exact H.
  - eapply plain_intro; [apply (cross12 Ho D0 D1 D2 P0 P1 P2 Q0 Q1 Q2)|]. rewrite P2.
    pose proof (center_at0 D2 D0 D1 P2 P0 P1 Q2 Q0 Q1) as H. cbv zeta in H. rewrite (incenter_rot q r p), (incenter_rot p q r) in H. exact H.
Qed.

Lemma turn_sum : 0 < ncross (enorm e0) (enorm e1) + ncross (enorm e1) (enorm e2) + ncross (enorm e2) (enorm e0).
Proof.
  pose proof (cross20 Ho D0 D1 D2 P0 P1 P2 Q0 Q1 Q2). pose proof (cross01 Ho D0 D1 D2 P0 P1 P2 Q0 Q1 Q2).
  pose proof (cross12 Ho D0 D1 D2 P0 P1 P2 Q0 Q1 Q2). lra.
Qed.

Lemma plain_meet v w a b d : plain v a b -> plain w b d -> 0 < ncross (enorm a) (enorm b) + ncross (enorm b) (enorm d) + ncross (enorm d) (enorm a) ->
  line_intersect (v_bis v) (v_bis w) = Some I /\ line_intersect (v_bis w) (v_bis v) = Some I.
Proof.
  intros (_ & Hv & Iv) (_ & Hw & Iw) Ht. apply (meet Hv Hw); auto. revert Ht. unfold ncross. cbn [rvec vx vy]. change (num RA) with R. intros. nra.
Qed.

Lemma line_center e : edge_dist e I = ρ -> directed e -> line_distance (Line2_edge e) I = ρ.
Proof.
  intros H D. rewrite line_distance_abs by auto. rewrite H. apply Rabs_right. pose proof (radius_pos Ho D0 D1 D2 P0 P1 P2 Q0 Q1 Q2). lra.
Qed.

Lemma center_dists : edge_dist e0 I = ρ /\ edge_dist e1 I = ρ /\ edge_dist e2 I = ρ.
Proof.
  split; [|split].
  - exact (center_dist D0 D1 D2 P0 P1 P2 Q0 Q1 Q2).
  - rewrite <- (incenter_rot p q r), <- (inradius_rot p q r). exact (center_dist D1 D2 D0 P1 P2 P0 Q1 Q2 Q0).
  - rewrite <- (incenter_rot p q r), <- (inradius_rot p q r), <- (incenter_rot q r p), <- (inradius_rot q r p). exact (center_dist D2 D0 D1 P2 P0 P1 Q2 Q0 Q1).
Qed.

Lemma events : next_event (ts e0 e1 e2) 0 = Ok (Some (EdgeEv (A := RA) ρ I 2 0)) /\
  next_event (ts e0 e1 e2) 1 = Ok (Some (EdgeEv (A := RA) ρ I 0 1)) /\ next_event (ts e0 e1 e2) 2 = Ok (Some (EdgeEv (A := RA) ρ I 1 2)).
Proof.
  destruct corners_plain as (C0 & C1 & C2). pose proof turn_sum as Ht. destruct center_dists as (E0 & E1 & E2).
  destruct (plain_meet C2 C0) as [M1 M2]; [lra|]. destruct (plain_meet C0 C1) as [M3 M4]; [lra|]. destruct (plain_meet C1 C2) as [M5 M6]; [lra|].
  pose proof (line_center E0 D0) as L0. pose proof (line_center E1 D1) as L1. pose proof (line_center E2 D2) as L2.
  assert (K : forall id, next_event (ts e0 e1 e2) id = (evs <- candidates (ts e0 e1 e2) id ;; Ok (nearest (v_point (getv (s_vs (ts e0 e1 e2)) id)) evs))) by reflexivity.
  assert (N : forall (x : vec RA) e f, ev_ip x e = I -> ev_ip x f = I -> nearest x [e; f] = Some e).
  { intros x e f He Hf. unfold nearest, first_best. cbn [fold_left]. rewrite He, Hf. cbn [RA nltb].
    destruct (Rltb_spec (vlen (vsub x I)) (vlen (vsub x I))) as [G|G]; [lra|]. auto. }
  split; [|split]; rewrite K; unfold candidates.
  - change (getv (s_vs (ts e0 e1 e2)) 0) with (tv 0 2 1 e2 e0). destruct C0 as (R0 & _). rewrite R0. cbn [bind].
    unfold edge_candidates. change (getv (s_vs (ts e0 e1 e2)) 0) with (tv 0 2 1 e2 e0).
    change (v_prev (tv 0 2 1 e2 e0)) with 2%nat. change (v_next (tv 0 2 1 e2 e0)) with 1%nat.
    change (getv (s_vs (ts e0 e1 e2)) 1) with (tv 1 0 2 e0 e1). change (getv (s_vs (ts e0 e1 e2)) 2) with (tv 2 1 0 e1 e2).
    rewrite M2, M3. change (v_eprev (tv 0 2 1 e2 e0)) with e2. change (v_enext (tv 0 2 1 e2 e0)) with e0. rewrite L0, L2.
    cbn [app]. rewrite N; auto.
  - change (getv (s_vs (ts e0 e1 e2)) 1) with (tv 1 0 2 e0 e1). destruct C1 as (R0 & _). rewrite R0. cbn [bind].
    unfold edge_candidates. change (getv (s_vs (ts e0 e1 e2)) 1) with (tv 1 0 2 e0 e1).
    change (v_prev (tv 1 0 2 e0 e1)) with 0%nat. change (v_next (tv 1 0 2 e0 e1)) with 2%nat.
    change (getv (s_vs (ts e0 e1 e2)) 0) with (tv 0 2 1 e2 e0). change (getv (s_vs (ts e0 e1 e2)) 2) with (tv 2 1 0 e1 e2).
    rewrite M4, M5. change (v_eprev (tv 1 0 2 e0 e1)) with e0. change (v_enext (tv 1 0 2 e0 e1)) with e1. rewrite L0, L1.
    cbn [app]. rewrite N; auto.
  - change (getv (s_vs (ts e0 e1 e2)) 2) with (tv 2 1 0 e1 e2). destruct C2 as (R0 & _). rewrite R0. cbn [bind].
    unfold edge_candidates. change (getv (s_vs (ts e0 e1 e2)) 2) with (tv 2 1 0 e1 e2).
    change (v_prev (tv 2 1 0 e1 e2)) with 1%nat. change (v_next (tv 2 1 0 e1 e2)) with 0%nat.
    change (getv (s_vs (ts e0 e1 e2)) 0) with (tv 0 2 1 e2 e0). change (getv (s_vs (ts e0 e1 e2)) 1) with (tv 1 0 2 e0 e1).
    rewrite M6, M1. change (v_eprev (tv 2 1 0 e1 e2)) with e1. change (v_enext (tv 2 1 0 e1 e2)) with e2. rewrite L1, L2.
    cbn [app]. rewrite N; auto.
Qed.

Lemma tri_consecutive a b : consecutive [e0; e1; e2] a b -> (a = e2 /\ b = e0) \/ (a = e0 /\ b = e1) \/ (a = e1 /\ b = e2).
Proof.
  intros (j & Hj & H1 & H2). simpl in Hj. destruct j as [|[|[|j]]]; [| | |lia]; simpl in H1, H2; injection H1 as <-; injection H2 as <-; auto.
Qed.

Lemma tri_dormers : detectDormers [[e0; e1; e2]] = Ok [].
Proof.
  apply no_dormers; [discriminate|]. intros a b H. apply Rlt_le. pose proof (cross20 Ho D0 D1 D2 P0 P1 P2 Q0 Q1 Q2).
  pose proof (cross01 Ho D0 D1 D2 P0 P1 P2 Q0 Q1 Q2). pose proof (cross12 Ho D0 D1 D2 P0 P1 P2 Q0 Q1 Q2).
  destruct (tri_consecutive H) as [(-> & ->)|[(-> & ->)|(-> & ->)]]; auto.
Qed.

Notation E i j := (EdgeEv (A := RA) ρ I i j).
Definition ended : @slav RA := invalidate_all (with_act [] (ts e0 e1 e2)) [0; 1; 2]%nat.

Lemma peak e : In e [E 2 0; E 0 1; E 1 2] -> handle_event (ts e0 e1 e2) e = Ok (ended, [Subtree I ρ [p; q; r]], []).
Proof. rewrite <- P0, <- P1, <- P2. intros [<-|[<-|[<-|[]]]]; reflexivity. Qed.

Lemma after e : In e [E 2 0; E 0 1; E 1 2] -> handle_event ended e = Ok (ended, [], []).
Proof. intros [<-|[<-|[<-|[]]]]; reflexivity. Qed.

Lemma after_batch l qu out : incl l [E 2 0; E 0 1; E 1 2] -> handle_batch (Loop ended qu out) l = Ok (Loop ended qu out).
Proof.
  induction l as [|e l IH]; intros H; auto. cbn [handle_batch lo_slav lo_queue lo_out]. rewrite (after (H e (or_introl eq_refl))).
  cbn [bind put_all fold_left]. rewrite app_nil_r. apply IH. intros x Hx. apply H. right; auto.
Qed.

Lemma tri_start : exists qu, skeleton_start [[e0; e1; e2]] = Ok (Loop (ts e0 e1 e2) qu []) /\ Permutation qu [E 2 0; E 0 1; E 1 2].
Proof.
  unfold skeleton_start. rewrite init_triangle, tri_dormers. cbn [bind]. unfold initial_events.
  change (chain_list (ts e0 e1 e2) (s_act (ts e0 e1 e2))) with (Ok [0; 1; 2]%nat). cbn [bind mapM].
  destruct events as (-> & -> & ->). cbn [bind]. eexists. split; [reflexivity|].
  change (Permutation (fold_left (heappush (@ev_lt RA)) [E 2 0; E 0 1; E 1 2] []) [E 2 0; E 0 1; E 1 2]).
  pose proof (fold_push_perm (@ev_lt RA) [E 2 0; E 0 1; E 1 2] []) as H. rewrite app_nil_r in H. exact H.
Qed.

Theorem tri_raw fuel : (2 <= fuel)%nat -> raw_skeleton fuel [[e0; e1; e2]] = Ok [Subtree I ρ [p; q; r]].
Proof.
  intros Hf. destruct fuel as [|[|f]]; try lia. unfold raw_skeleton. destruct tri_start as (qu & -> & Hq). cbn [bind].
  cbn [event_loop lo_queue lo_slav]. destruct qu as [|x qu]; [apply Permutation_length in Hq; discriminate|].
  change (s_act (ts e0 e1 e2)) with [0%nat]. cbv iota beta.
  destruct (getAllEqualDistance (x :: qu)) as [[b q']|] eqn:Eb; [|unfold getAllEqualDistance in Eb].
  2:{ destruct (heappop (@ev_lt RA) (x :: qu)) as [[it q']|] eqn:Eh; [destruct (pop_equal _ _ _); discriminate|].
      apply heappop_none in Eh. discriminate. }
  pose proof Eb as Hp. apply getAllEqualDistance_perm in Hp.
  assert (Hb : b <> []).
  { unfold getAllEqualDistance in Eb. destruct (heappop (@ev_lt RA) (x :: qu)) as [[it q'']|]; [|discriminate].
    destruct (pop_equal _ _ _). injection Eb as <- _. discriminate. }
  assert (Hin : incl b [E 2 0; E 0 1; E 1 2]).
  { intros y Hy. eapply Permutation_in; [exact Hq|]. eapply Permutation_in; [apply Permutation_sym; exact Hp|]. apply in_or_app; auto. }
  destruct b as [|e l]; [congruence|]. cbn [lo_out handle_batch lo_slav]. rewrite (peak (Hin e (or_introl eq_refl))).
  cbn [bind put_all fold_left lo_queue lo_out app]. rewrite after_batch by (intros y Hy; apply Hin; right; auto). cbn [bind lo_queue lo_slav].
  change (s_act ended) with (@nil nat). destruct q'; reflexivity.
Qed.

(** ** post-processing leaves the node alone *)
Notation node := (Subtree (A := RA) I ρ [p; q; r]).

Lemma tri_apses : detectApses [e0; e1; e2] = Ok None.
Proof.
  unfold detectApses, apse_sequence. cbn [circ_prev_next bind].
  match goal with |- context [map low_angle ?l] => change (map low_angle l) with [low_angle (e2, e0); low_angle (e0, e1); low_angle (e1, e2)] end.
  destruct (low_angle (e2, e0)), (low_angle (e0, e1)), (low_angle (e1, e2)); reflexivity.
Qed.

Lemma tri_merge : mergeNodeClusters [node] [[e0; e1; e2]] = Ok [node].
Proof.
  unfold mergeNodeClusters. change (merge_same_sources [node]) with [node]. cbn [length merge_loop seq].
  unfold findClusters. change (py_get [[e0; e1; e2]] 0) with (Ok [e0; e1; e2]). cbn [bind]. rewrite tri_apses. reflexivity.
Qed.

Lemma ghost_none (sk : list (@subtree RA)) k a b : vdot (vsub a (source (get_arc sk k))) (vsub b (source (get_arc sk k))) < 0 ->
  ghost_pair sk k false (a, b) = Ok (PairNext sk false).
Proof.
  intros H. unfold ghost_pair. cbn [fst snd]. set (x := vsub a _) in *. set (y := vsub b _) in *. rewrite !ntruth_R.
  destruct (Reqb_spec (vlen x) 0) as [E|E]; cbn [negb andb]; auto. destruct (Reqb_spec (vlen y) 0) as [F|F]; cbn [negb andb]; auto.
  rewrite pdiv_R. cbn [RA nmul]. destruct (Reqb_spec (vlen x * vlen y) 0) as [G|G].
  { apply Rmult_integral in G as [G|G]; contradiction. }
  cbn [bind RA nsub nabs]. rewrite oneN_R. unfold PARALLEL. cbn [RA nltb lit].
  assert (Px : 0 < vlen x) by (rewrite vlen_R in *; pose proof (sqrt_pos (vx x * vx x + vy x * vy x)); simpl in *; lra).
  assert (Py : 0 < vlen y) by (rewrite vlen_R in *; pose proof (sqrt_pos (vx y * vx y + vy y * vy y)); simpl in *; lra).
  assert (Hq : vdot x y / (vlen x * vlen y) < 0).
  { unfold Rdiv. pose proof (Rmult_lt_0_compat _ _ Px Py) as Hm. apply Rinv_0_lt_compat in Hm. simpl in *. nra. }
  match goal with |- context [Rltb (Rabs ?z) ?w] => destruct (Rltb_spec (Rabs z) w) as [L|L]; auto end.
  exfalso. rewrite Rabs_left in L; simpl in *; lra.
Qed.

Lemma obtuse_all : vdot (vsub p I) (vsub q I) < 0 /\ vdot (vsub p I) (vsub r I) < 0 /\ vdot (vsub q I) (vsub r I) < 0.
Proof.
  destruct (sides_pos D0 D1 D2 P0 P1 P2 Q0 Q1 Q2) as (S0 & S1 & S2).
  assert (C : forall x y : vec RA, vdot x y = vdot y x) by (intros; rewrite !vdot_R; simpl; ring).
  split; [apply obtuse; auto|]. split.
  - rewrite C, <- (incenter_rot p q r), <- (incenter_rot q r p). apply obtuse; auto. rewrite (orient_rot3 q r p), (orient_rot3 p q r); auto.
  - rewrite <- (incenter_rot p q r). apply obtuse; auto. rewrite (orient_rot3 p q r); auto.
Qed.

Lemma tri_ghosts : removeGhosts [node] = Ok [node].
Proof.
  destruct obtuse_all as (O1 & O2 & O3).
  assert (N : py_in veq I [p; q; r] = false).
  { cbn [py_in existsb]. assert (G : forall x, x <> I -> veq x I = false) by (intros x Hx; apply Bool.not_true_iff_false; rewrite veq_R; auto).
    assert (G' : forall x, x <> I -> veq I x = false) by (intros x Hx; apply Bool.not_true_iff_false; rewrite veq_R; congruence).
    assert (Np : p <> I) by exact (center_not Ho D0 D1 D2 P0 P1 P2 Q0 Q1 Q2).
    assert (Nq : q <> I).
    { rewrite <- (incenter_rot p q r). apply (@center_not e1 e2 e0 q r p); auto. rewrite (orient_rot3 p q r); auto. }
    assert (Nr : r <> I).
    { rewrite <- (incenter_rot p q r), <- (incenter_rot q r p). apply (@center_not e2 e0 e1 r p q); auto.
      rewrite (orient_rot3 q r p), (orient_rot3 p q r); auto. }
    unfold py_in. cbn [existsb]. rewrite ?G, ?G' by auto. auto. }
  unfold removeGhosts. cbn [map]. unfold remove_loop. cbn [source sinks]. rewrite N. cbn [length seq ghost_arcs].
  change (sinks (get_arc [node] 0)) with [p; q; r]. cbn [length ghost_while].
  change (sinks (get_arc [node] 0)) with [p; q; r].
  change (combinations2 [p; q; r]) with [(p, q); (p, r); (q, r)]. cbn [ghost_pairs].
  rewrite (@ghost_none [node] 0 p q) by exact O1. cbn [bind].
  rewrite (@ghost_none [node] 0 p r) by exact O2. cbn [bind].
  rewrite (@ghost_none [node] 0 q r) by exact O3. reflexivity.
Qed.

Lemma tri_skeleton_edges fuel : (2 <= fuel)%nat -> skeletonize fuel [[e0; e1; e2]] = Ok [node].
Proof. intros Hf. unfold skeletonize. rewrite tri_raw by auto. cbn [bind]. rewrite tri_merge. cbn [bind]. apply tri_ghosts. Qed.
End Run.

Theorem tri_skeleton (c : list (@edge2 RA)) p q r fuel : triangle_contour c p q r -> (2 <= fuel)%nat ->
  skeletonize fuel [c] = Ok [Subtree (A := RA) (incenter p q r) (inradius p q r) [p; q; r]].
Proof.
  intros (Ho & Hp & Hq & Hd) Hf. destruct c as [|e0 [|e1 [|e2 [|]]]]; try discriminate. injection Hp as P0 P1 P2. injection Hq as Q0 Q1 Q2.
  apply tri_skeleton_edges; auto; apply Hd; simpl; auto.
Qed.

(** the incenter is the point at distance inradius from all sides *)
Theorem incenter_dist (c : list (@edge2 RA)) p q r : triangle_contour c p q r ->
  0 < inradius p q r /\ forall e, In e c -> edge_dist e (incenter p q r) = inradius p q r.
Proof.
  intros (Ho & Hp & Hq & Hd). destruct c as [|e0 [|e1 [|e2 [|]]]]; try discriminate. injection Hp as P0 P1 P2. injection Hq as Q0 Q1 Q2.
  assert (D0 : directed e0) by (apply Hd; simpl; auto). assert (D1 : directed e1) by (apply Hd; simpl; auto). assert (D2 : directed e2) by (apply Hd; simpl; auto).
  split; [exact (radius_pos Ho D0 D1 D2 P0 P1 P2 Q0 Q1 Q2)|].
  destruct (center_dists D0 D1 D2 P0 P1 P2 Q0 Q1 Q2) as (E0 & E1 & E2). intros e [<-|[<-|[<-|[]]]]; auto.
Qed.
