(** * BisLoop: equal distances along the event loop (over the real numbers) *)

From Coq Require Import Reals Lra Psatz Permutation.
From Verif Require Import Py PyFacts Arith ArithR Euclid Heapq Lav Cluster LavSpec LavWalk LavWf LavInit LavNext LavGrow LoopSpec
  LavLoop LoopStart ClusterSpec GeoSpec GeoR GeoLines UnitProofs BisSpec BisProofs.
Set Implicit Arguments.
Unset Strict Implicit.
Open Scope R_scope.

Implicit Type v : @lavertex RA.
Implicit Type vs : list (@lavertex RA).
Implicit Type s : @slav RA.

(** the same line: what split events compare *)
Definition samel (e f : @edge2 RA) : Prop := enorm e = enorm f /\ ep1 e = ep1 f.
Lemma samel_refl e : samel e e. Proof. split; auto. Qed.
Lemma samel_sym e f : samel e f -> samel f e. Proof. intros [? ?]; split; auto. Qed.
Lemma samel_trans e f g : samel e f -> samel f g -> samel e g. Proof. intros [? ?] [? ?]; split; congruence. Qed.
Lemma samel_ndist e f q : samel e f -> ndist e q = ndist f q.
Proof. intros [H1 H2]. unfold ndist. rewrite H1, H2. auto. Qed.

Definition equi v : Prop :=
  directed (v_eprev v) /\ directed (v_enext v) /\ lp (v_bis v) = v_point v /\
  ndist (v_eprev v) (v_point v) = ndist (v_enext v) (v_point v) /\
  exists sg, (sg = 1 \/ sg = -1) /\ (v_reflex v = true -> sg = -1) /\
    lv (v_bis v) = rvec (sg * (vx (enorm (v_enext v)) - vx (enorm (v_eprev v))))
                        (sg * (vy (enorm (v_enext v)) - vy (enorm (v_eprev v)))).

Lemma equi_kept v w : body_kept v w -> equi w -> equi v.
Proof. intros (E0 & E1 & E2 & E3 & E4). unfold equi. rewrite E0, E1, E2, E3, E4. auto. Qed.

Lemma mk_vertex_equi id p e1 e2 dirs fc : directed e1 -> directed e2 -> ndist e1 p = ndist e2 p ->
  equi (mk_vertex id p e1 e2 dirs fc).
Proof.
  intros D1 D2 H. destruct (@mk_vertex_R id p e1 e2 dirs fc) as (sg & Hs & Hb & S1 & S2). cbv zeta in *.
  assert (B : v_point (mk_vertex id p e1 e2 dirs fc) = p /\ v_eprev (mk_vertex id p e1 e2 dirs fc) = e1 /\
              v_enext (mk_vertex id p e1 e2 dirs fc) = e2).
  { unfold mk_vertex. destruct dirs as [[? ?]|]; auto. }
  destruct B as (B1 & B2 & B3). unfold equi. rewrite Hb, B1, B2, B3. cbn [Ray2 lp lv]. repeat (split; [auto|]).
  exists sg. auto.
Qed.

Lemma equi_on v q : equi v -> on_lin (v_bis v) q -> ndist (v_eprev v) q = ndist (v_enext v) q.
Proof.
  intros (D1 & D2 & Hp & He & sg & _ & _ & Hl) (t & _ & Hx & Hy). rewrite Hp, Hl in Hx, Hy.
  rewrite (ndist_along _ Hx Hy), (ndist_along _ Hx Hy), He. unfold ncross, rvec; cbn [vx vy]. simpl. ring.
Qed.

(** ** edge events *)
Lemma edge_point va vb p : equi va -> equi vb -> samel (v_enext va) (v_eprev vb) ->
  vx (lv (v_bis va)) * vy (lv (v_bis vb)) <> vy (lv (v_bis va)) * vx (lv (v_bis vb)) ->
  on_lin (v_bis va) p -> on_lin (v_bis vb) p ->
  ndist (v_eprev va) p = ndist (v_enext va) p /\ ndist (v_enext va) p = ndist (v_enext vb) p /\
  enorm (v_eprev va) <> enorm (v_enext va) /\ enorm (v_enext va) <> enorm (v_enext vb) /\
  enorm (v_eprev va) <> enorm (v_enext vb).
Proof.
  intros Ea Eb Hs Hn Oa Ob. pose proof (equi_on Ea Oa) as Ha. pose proof (equi_on Eb Ob) as Hb.
  split; auto. split; [rewrite <- Hb; apply samel_ndist; auto|].
  destruct Ea as (_ & _ & _ & _ & sa & _ & _ & La). destruct Eb as (_ & _ & _ & _ & sb & _ & _ & Lb).
  destruct Hs as [Hs _]. rewrite <- Hs in Lb. rewrite La, Lb in Hn. unfold rvec in Hn; cbn [vx vy] in Hn.
  split; [|split]; intros K; apply Hn.
  - rewrite K. simpl. ring.
  - rewrite <- K. simpl. ring.
  - rewrite <- K. simpl. ring.
Qed.

(** ** split events *)
Lemma unit_part (x y nx ny : R) : nx * nx + ny * ny = 1 -> x * ny = y * nx ->
  x = (x * nx + y * ny) * nx /\ y = (x * nx + y * ny) * ny.
Proof.
  intros Hn Hp. split.
  - transitivity (x * (nx * nx + ny * ny)); [rewrite Hn; ring|].
    replace (x * (nx * nx + ny * ny)) with (x * nx * nx + x * ny * ny) by ring. rewrite Hp. ring.
  - transitivity (y * (nx * nx + ny * ny)); [rewrite Hn; ring|].
    replace (y * (nx * nx + ny * ny)) with (y * nx * nx + y * ny * ny) by ring. rewrite <- Hp. ring.
Qed.

Lemma unit_multiple (x y nx ny : R) : nx * nx + ny * ny = 1 -> x * ny = y * nx -> / 10 ^ 35 < x * x + y * y ->
  exists sg, (sg = 1 \/ sg = -1) /\ vnormalized (V2 (A := RA) x y) = V2 (A := RA) (sg * nx) (sg * ny).
Proof.
  intros Hn Hp Hl. pose proof tiny_pos as Ht.
  set (k := x * nx + y * ny).
  destruct (unit_part Hn Hp) as [Kx Ky]. fold k in Kx, Ky. clearbody k.
  assert (Kk : x * x + y * y = k * k) by (rewrite Kx, Ky; transitivity (k * k * (nx * nx + ny * ny)); [ring|rewrite Hn; ring]).
  assert (Hk : k <> 0) by (intros E; rewrite E in Kk; lra).
  assert (Hq : sqrt (x * x + y * y) = Rabs k) by (rewrite Kk; apply sqrt_Rsqr_abs).
  assert (0 < Rabs k) by (apply Rabs_pos_lt; auto).
  exists (k / Rabs k). split.
  - unfold Rabs. destruct (Rcase_abs k); [right|left]; field; lra.
  - apply normalized_unit; auto; rewrite Hq; [transitivity (k * nx)|transitivity (k * ny)]; auto; field; lra.
Qed.

Lemma on_line_n e q : directed e -> ndist e q = 0 -> on_line (ep1 e) (ep2 e) q.
Proof.
  intros D H. pose proof (directed_unit D) as Hu. destruct D as (Hne & Hx & Hy). pose proof (dist_pos Hne) as HL.
  unfold ndist in H. set (L := euclid_dist (ep1 e) (ep2 e)) in *.
  exists (((vx q - vx (ep1 e)) * vx (enorm e) + (vy q - vy (ep1 e)) * vy (enorm e)) / L).
  rewrite <- Hx, <- Hy.
  destruct (enorm e) as [nx ny], q as [qx qy], (ep1 e) as [px py]; cbn [vx vy] in *. change (num RA) with R in *.
  clear Hx Hy. set (X := qx - px) in *. set (Y := qy - py) in *.
  assert (Hp : X * ny = Y * nx) by lra. destruct (unit_part Hu Hp).
  set (w := X * nx + Y * ny) in *.
  split; [replace (w / L * (nx * L)) with (w * nx) by (field; lra)|replace (w / L * (ny * L)) with (w * ny) by (field; lra)];
    unfold X, Y in *; lra.
Qed.

Lemma on_edge_line e q : directed e -> on_lin (Line2_edge e) q -> ndist e q = 0.
Proof.
  intros (Hne & Hx & Hy) (t & _ & Qx & Qy). unfold Line2_edge in Qx, Qy; cbn [lp lv] in Qx, Qy.
  rewrite vsub_R in Qx, Qy; cbn [vx vy] in Qx, Qy. unfold ndist. rewrite Qx, Qy, <- Hx, <- Hy. simpl. ring.
Qed.

Lemma split_point id v oe ev (E : list (@edge2 RA)) : equi v -> v_reflex v = true ->
  ndist (v_eprev v) (v_point v) = 0 -> directed (oe_edge oe) -> In (oe_edge oe) E ->
  -1 + 1 / 100000 <= ncross (enorm (v_eprev v)) (enorm (v_enext v)) < 0 ->
  (forall f q, In f E -> cross_in (v_eprev v) f q \/ cross_in (v_enext v) f q ->
     q = v_point v \/ / 10 ^ 35 < (vx q - vx (v_point v)) * (vx q - vx (v_point v)) + (vy q - vy (v_point v)) * (vy q - vy (v_point v))) ->
  split_candidate id v oe = Some ev ->
  exists b, ev = SplitEv (line_distance (Line2_edge (oe_edge oe)) b) b id (oe_edge oe) /\
    ndist (v_eprev v) b = ndist (v_enext v) b /\ ndist (v_enext v) b = ndist (oe_edge oe) b /\
    same_edge (oe_edge oe) (v_eprev v) = false /\ same_edge (oe_edge oe) (v_enext v) = false.
Proof.
  intros Ev Hr H0 De HE Hc Hfar. unfold split_candidate.
  set (e := oe_edge oe) in *.
  destruct (same_edge e (v_eprev v)) eqn:E1; [discriminate|].
  destruct (same_edge e (v_enext v)) eqn:E2; [discriminate|]. cbn [orb].
  set (selfedge := if nltb _ _ then _ else _).
  assert (Hself : selfedge = v_eprev v \/ selfedge = v_enext v) by (unfold selfedge; destruct (nltb _ _); auto).
  clearbody selfedge.
  destruct (line_intersect (Line2_edge selfedge) (Line2_edge e)) as [i|] eqn:Ei; [|discriminate].
  destruct (approximately_equals i (v_point v)) eqn:Ea; [discriminate|].
  destruct Ev as (D1 & D2 & Hp & Hq & sg & Hsg & Hrs & Hl). specialize (Hrs Hr). subst sg.
  assert (Dself : directed selfedge) by (destruct Hself; subst; auto).
  apply line_intersect_R in Ei. destruct Ei as (Hnp & Oi & Oe).
  assert (Zi : ndist selfedge i = 0) by (apply on_edge_line; auto).
  assert (Ze : ndist e i = 0) by (apply on_edge_line; auto).
  assert (Zp : ndist selfedge (v_point v) = 0) by (destruct Hself; subst; congruence).
  set (p := v_point v) in *.
  assert (Hip : i <> p).
  { intros K. unfold approximately_equals in Ea. apply orb_false_iff in Ea as [Ea _].
    assert (veq i p = true) by (apply veq_R; auto). congruence. }
  assert (Hlen : / 10 ^ 35 < (vx p - vx i) * (vx p - vx i) + (vy p - vy i) * (vy p - vy i)).
  { assert (X : cross_in selfedge e i).
    { split; [|split; apply on_line_n; auto]. unfold Line2_edge in Hnp. cbn [lv] in Hnp. rewrite !vsub_R in Hnp. exact Hnp. }
    destruct (Hfar e i) as [K|K]; auto.
    - destruct Hself; subst selfedge; [left|right]; exact X.
    - contradiction.
    - simpl in *. lra. }
  set (c := ncross (enorm (v_eprev v)) (enorm (v_enext v))) in *.
  assert (Hvec : exists sl, (sl = 1 \/ sl = -1) /\ vnormalized (vsub p i) = V2 (A := RA) (sl * vx (enorm selfedge)) (sl * vy (enorm selfedge))).
  { rewrite vsub_R. apply unit_multiple; auto.
    - apply directed_unit; auto.
    - unfold ndist in Zi, Zp. clear - Zi Zp. destruct p as [px py], i as [ix iy], (enorm selfedge) as [nx ny], (ep1 selfedge) as [sx sy].
      cbn [vx vy] in *. simpl in *. lra. }
  destruct Hvec as (sl & Hsl & Hvec). rewrite Hvec. cbv zeta.
  assert (Hcr : vcross (lv (v_bis v)) (V2 (A := RA) (sl * vx (enorm selfedge)) (sl * vy (enorm selfedge))) = sl * c).
  { rewrite vcross_R, Hl. unfold rvec; cbn [vx vy]. unfold c, ncross. destruct Hself; subst selfedge; simpl; ring. }
  rewrite Hcr.
  assert (Htw : nltb (nabs (nsub (sl * c : num RA) oneN)) EPSILON = false).
  { rewrite oneN_R. unfold EPSILON. cbn [RA nltb nabs nsub lit]. apply Rltb_ge.
    unfold Rabs. destruct Hsl; subst sl; destruct (Rcase_abs _); simpl in *; lra. }
  rewrite Htw, Hcr.
  set (ed := if nltb (sl * c : num RA) zeroN then _ else _).
  assert (Hed : ed = V2 (A := RA) (- sl * vx (enorm e)) (- sl * vy (enorm e))).
  { unfold ed. rewrite zeroN_R. cbn [RA nltb]. destruct (Rltb_spec (sl * c) 0) as [K|K].
    - assert (sl = 1) by (destruct Hsl; subst; auto; lra). subst sl. unfold vneg. cbn [RA nneg]. f_equal; simpl; lra.
    - assert (sl = -1) by (destruct Hsl; subst; auto; lra). subst sl. destruct (enorm e) as [nx ny]; cbn [vx vy]. f_equal; simpl; lra. }
  rewrite Hed, vadd_R. cbn [vx vy]. clear ed Hed Htw.
  destruct (negb (ntruth _)); [discriminate|].
  destruct (line_intersect (Line2_pv i _) (v_bis v)) as [b|] eqn:Eb; [|discriminate].
  destruct (_ && _); [|discriminate]. intros [= <-]. exists b. split; auto.
  apply line_intersect_R in Eb. destruct Eb as (_ & Ob & Obis).
  assert (Eq1 : ndist (v_eprev v) b = ndist (v_enext v) b).
  { apply equi_on; auto. split; auto. split; auto. split; auto. split; auto. exists (-1). auto. }
  split; auto. split; [|auto].
  assert (Eq2 : ndist selfedge b = ndist e b).
  { destruct Ob as (t & _ & Bx & By). unfold Line2_pv in Bx, By; cbn [lp lv] in Bx, By.
    rewrite (ndist_along selfedge Bx By), (ndist_along e Bx By), Zi, Ze. unfold ncross; cbn [vx vy]. simpl. ring. }
  destruct Hself; subst selfedge; congruence.
Qed.
