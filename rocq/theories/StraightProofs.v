(** * StraightProofs: what becomes of vertices within straight walls *)

From Coq Require Import Reals Lra Lia ZArith Sorted.
From Verif Require Import Py PyFacts Arith ArithR RSpec GeoSpec Euclid Lav LavSpec Cluster Poly ClusterSpec GeoR GeoLines LavGrow LavInit LavWalk LavNext
  BisSpec BisProofs BisStart WaveSpec PatSpec PatProofs PatCases SplitSpec SplitProofs StraightSpec.
Set Implicit Arguments.
Unset Strict Implicit.
Local Open Scope nat_scope.

(** ** straight runs *)
Lemma run_flat (c : list (@edge2 RA)) s e pts : c <> [] -> s + 6 <= e -> run_points c s e pts -> flat_run c s e ->
  fitCircle3Points pts = Err ZeroDivisionError.
Proof.
  intros Hne Hse Hp (v0 & vm & vl & E0 & Em & El & Ho). pose proof Hp as (Hl & _).
  assert (Hd : (e - s) / 2 < e - s) by (apply Nat.div_lt; lia).
  destruct (run_point Hne Hp (k := 0)) as (w0 & W0 & P0); [lia|]. rewrite Nat.add_0_r in W0.
  destruct (run_point Hne Hp Hd) as (wm & Wm & Pm).
  destruct (run_point Hne Hp (k := e - s - 1)) as (wl & Wl & Pl); [lia|]. replace (s + (e - s - 1)) with (e - 1) in Wl by lia.
  rewrite <- Hl in Pm at 1. rewrite <- Hl in Pl.
  destruct (fitCircle_R P0 Pm Pl) as [F1 _]. apply F1. congruence.
Qed.

Lemma flat_apse (c : list (@edge2 RA)) s e : c <> [] -> smooth_run c s e -> flat_run c s e -> detectApses c = Err ZeroDivisionError.
Proof.
  intros Hne Hr Hf. destruct (detectApses_spec Hne) as (rs & H1 & H2 & H3 & H4 & H5).
  pose proof (proj2 (H2 s e) Hr) as Hin. assert (Hn : rs <> []) by (intros ->; destruct Hin). specialize (H5 Hn).
  destruct (detectApses c) as [[cs|]|x] eqn:Ed; [|contradiction|].
  - exfalso. apply In_nth_error in Hin as (k & Hk). destruct (PyFacts.Forall2_nth _ H5 Hk) as (ctr & _ & pts & R & P1 & P2).
    cbn [fst snd] in P1. destruct Hr as (_ & S1 & _). rewrite (run_flat Hne S1 P1 Hf) in P2. discriminate.
  - destruct (proj2 (apse_circles Hne) x Ed) as [-> _]. auto.
Qed.

Theorem straight_run_stops (contours : list (list (@edge2 RA))) outer s e :
  nth_error contours 0 = Some outer -> smooth_run outer s e -> flat_run outer s e ->
  (forall sk, mergeNodeClusters sk contours = Err ZeroDivisionError) /\
  (forall fuel, exists x, skeletonize fuel contours = Err x) /\
  (forall fuel out, raw_skeleton fuel contours = Ok out -> skeletonize fuel contours = Err ZeroDivisionError).
Proof.
  intros H0 Hr Hf. assert (Hne : outer <> []) by (intros ->; destruct Hr as (K & _); simpl in K; lia).
  assert (M : forall sk, mergeNodeClusters sk contours = Err ZeroDivisionError).
  { intros sk. unfold mergeNodeClusters. cbn [merge_loop]. unfold findClusters.
    destruct contours as [|c t]; [discriminate|]. injection H0 as ->.
    change (py_get (outer :: t) 0) with (Ok (A := list (@edge2 RA)) outer). cbn [bind]. rewrite (flat_apse Hne Hr Hf). reflexivity. }
  assert (S : forall fuel out, raw_skeleton fuel contours = Ok out -> skeletonize fuel contours = Err ZeroDivisionError).
  { intros fuel out Hout. unfold skeletonize. rewrite Hout. cbn [bind]. rewrite M. reflexivity. }
  split; auto. split; auto. intros fuel. destruct (raw_skeleton fuel contours) as [out|x] eqn:E; [eauto|].
  exists x. unfold skeletonize. rewrite E. reflexivity.
Qed.

Theorem straight_run_raises fuel sw sch debug verts first cnt holes hgt tan faces us zb ctr contours outer s e :
  prepare (A := RA) verts first cnt holes us = Ok (zb, ctr, contours) ->
  nth_error contours 0 = Some outer -> smooth_run outer s e -> flat_run outer s e ->
  exists x, polygonize fuel sw sch debug verts first cnt holes hgt tan faces us = Outcome verts faces None (Err x).
Proof.
  intros Hp H0 Hr Hf. destruct (straight_run_stops H0 Hr Hf) as (_ & S & _). destruct (S fuel) as [x Hx]. exists x.
  unfold polygonize. rewrite Hp. cbn [bind]. rewrite Hx. reflexivity.
Qed.

(** ** straight corners *)
Lemma straight_norm e1 e2 : directed e1 -> directed e2 -> straight e1 e2 -> enorm e1 = enorm e2.
Proof.
  intros D1 D2 (t & Ht & Ex & Ey). pose proof (directed_unit D1) as U1. pose proof (directed_unit D2) as U2.
  destruct D1 as (N1 & X1 & Y1). destruct D2 as (N2 & X2 & Y2).
  assert (P1 : (0 < euclid_dist (ep1 e1) (ep2 e1))%R) by (apply dist_pos; auto).
  assert (P2 : (0 < euclid_dist (ep1 e2) (ep2 e2))%R) by (apply dist_pos; auto).
  rewrite <- X1, <- X2 in Ex. rewrite <- Y1, <- Y2 in Ey.
  set (d1 := euclid_dist (ep1 e1) (ep2 e1)) in *. set (d2 := euclid_dist (ep1 e2) (ep2 e2)) in *. clearbody d1 d2.
  destruct (enorm e1) as [a b], (enorm e2) as [u v]. cbn [vx vy] in *. change (num RA) with R in *.
  assert (E : (d2 = t * d1)%R).
  { assert (Q : (d2 * d2 = (t * d1) * (t * d1))%R).
    { transitivity ((u * d2) * (u * d2) + (v * d2) * (v * d2))%R; [transitivity ((u * u + v * v) * (d2 * d2))%R; [rewrite U2|]; ring|].
      rewrite Ex, Ey. transitivity ((a * a + b * b) * ((t * d1) * (t * d1)))%R; [ring|rewrite U1; ring]. }
    assert (Z : ((d2 - t * d1) * (d2 + t * d1) = 0)%R) by lra.
    assert (0 < t * d1)%R by nra. apply Rmult_integral in Z as [Z|Z]; lra. }
  subst d2. assert (T : (t * d1 <> 0)%R) by lra.
  assert (Ea : a = u) by (apply (Rmult_eq_reg_r (t * d1)); auto; lra).
  assert (Eb : b = v) by (apply (Rmult_eq_reg_r (t * d1)); auto; lra). congruence.
Qed.

Lemma no_intersect_l (a b : @lin RA) : lv a = rvec 0 0 -> line_intersect a b = None.
Proof.
  intros E. destruct (line_intersect a b) as [p|] eqn:K; auto. apply line_intersect_R in K as (N & _). exfalso. apply N.
  rewrite E. unfold rvec. cbn [vx vy]. simpl. lra.
Qed.
Lemma no_intersect_r (a b : @lin RA) : lv b = rvec 0 0 -> line_intersect a b = None.
Proof.
  intros E. destruct (line_intersect a b) as [p|] eqn:K; auto. apply line_intersect_R in K as (N & _). exfalso. apply N.
  rewrite E. unfold rvec. cbn [vx vy]. simpl. lra.
Qed.

Section Straight.
Variable contours : list (list (@edge2 RA)).
Hypothesis Hclosed : forall c, In c contours -> closed_contour c.
Variable s : @slav RA.
Hypothesis Hinit : init_slav contours = Ok s.

Lemma straight_vertex i : i < length (s_vs s) -> straight (v_eprev (getv (s_vs s) i)) (v_enext (getv (s_vs s) i)) ->
  lv (v_bis (getv (s_vs s) i)) = rvec 0 0 /\ v_reflex (getv (s_vs s) i) = false.
Proof.
  intros Hi Hs. pose proof (vertex_corner Hclosed Hinit Hi) as (_ & _ & _ & Hr & Hb).
  assert (Hne : forall c, In c contours -> c <> []) by (intros c Hc; apply (Hclosed Hc)).
  assert (W : wavefront_of contours s).
  { destruct (init_slav_ok Hne) as (s' & Hi' & H & _). rewrite Hinit in Hi'. apply Ok_inj in Hi'. subst s'. exact H. }
  destruct (wavefront_corner Hclosed W Hi) as (c & e1 & e2 & Hc & Hcon & B). pose proof B as (_ & B1 & B2 & _). simpl in B1, B2.
  rewrite B1, B2 in *. assert (I12 : In e1 c /\ In e2 c) by (destruct Hcon as (k & _ & K1 & K2); split; eapply nth_error_In; eauto). destruct I12 as [I1 I2]. destruct (Hclosed Hc) as (_ & HD & _).
  pose proof (straight_norm (HD _ I1) (HD _ I2) Hs) as E.
  destruct (@corner_ray e1 e2) as (sg & _ & _ & V & _). rewrite Hb, V, Hr. split.
  - rewrite E. unfold rvec. f_equal; change (num RA) with R in *; ring.
  - apply not_true_is_false. unfold corner. intros K. apply corner_reflex in K. rewrite E in K. unfold ncross in K. change (num RA) with R in *. lra.
Qed.

Lemma straight_none i : i < length (s_vs s) -> straight (v_eprev (getv (s_vs s) i)) (v_enext (getv (s_vs s) i)) ->
  next_event s i = Ok None.
Proof.
  intros Hi Hs. destruct (straight_vertex Hi Hs) as [Z R]. unfold next_event, candidates. rewrite R. cbn [bind].
  unfold edge_candidates. rewrite !no_intersect_l by auto. reflexivity.
Qed.

Theorem straight_still i : i < length (s_vs s) -> straight (v_eprev (getv (s_vs s) i)) (v_enext (getv (s_vs s) i)) ->
  forall j ev, j < length (s_vs s) -> next_event s j = Ok (Some ev) -> ~ involves ev i.
Proof.
  intros Hi Hs j ev Hj Hn Hv. destruct (straight_vertex Hi Hs) as [Z R].
  assert (N : j <> i) by (intros ->; rewrite (straight_none Hi Hs) in Hn; discriminate).
  unfold next_event in Hn. apply bind_ok in Hn as (evs & Hc & Hn). apply Ok_inj in Hn.
  pose proof (nearest_in (v_point (getv (s_vs s) j)) evs) as Hin. rewrite Hn in Hin.
  unfold candidates in Hc. apply bind_ok in Hc as (sp & Hsp & Hc). apply Ok_inj in Hc. subst evs. apply in_app_iff in Hin as [Hin|Hin].
  - destruct (v_reflex (getv (s_vs s) j)); [|apply Ok_inj in Hsp; subst sp; destruct Hin].
    destruct (v_lav (getv (s_vs s) j)); [|discriminate]. apply Ok_inj in Hsp. subst sp.
    apply in_map_filter in Hin as (oe & _ & Hin). apply split_tests in Hin as (b & -> & _). simpl in Hv. auto.
  - apply in_edge_candidates in Hin as [(p & Hp & ->)|(p & Hp & ->)]; simpl in Hv; destruct Hv as [->|Hv]; auto;
      try (rewrite no_intersect_r in Hp by auto; discriminate); try congruence.
    subst. rewrite no_intersect_r in Hp by auto. discriminate.
Qed.
End Straight.
