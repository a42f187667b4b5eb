(** * CwPoly: polygonize and convex footprints listed clockwise (C61) *)

From Coq Require Import Permutation Reals Lra.
From Verif Require Import Py PyFacts Arith ArithR Euclid Graph GraphSpec GraphProofs Lav Cluster Poly PySort SortProofs ClusterSpec GeoSpec GeoLines AngleSpec AngleProofs BisSpec BisProofs
  PatSpec PolySpec PolyR PolyFaces SplitSpec TriSpec TriSkel TriRoof ConvexSpec ConvexGeo RoofSpec ConvexTree ConvexGraph ConvexMove PyramidGraph PyramidPoly CwSpec CwGeo CwProofs.
Set Implicit Arguments.
Unset Strict Implicit.
Local Open Scope nat_scope.

(** ** moving the contour *)
Lemma cw_starts d e1 e2 : clockwise_contour d -> In e1 d -> In e2 d -> ep1 e1 = ep1 e2 -> e1 = e2.
Proof.
  intros Hd K1 K2 E. apply In_nth_error in K1 as (i & Hi). apply In_nth_error in K2 as (j & Hj).
  assert (Li : i < length d) by (apply nth_error_Some; congruence). assert (Lj : j < length d) by (apply nth_error_Some; congruence).
  assert (i = j); [|subst; congruence]. apply (pnt_distinct (mirrored Hd)); [rewrite map_length; auto|rewrite map_length; auto|].
  unfold pnt, edge_at. rewrite !map_length, !Nat.mod_small, !nth_error_map, Hi, Hj by auto. cbn [option_map mire ep1]. congruence.
Qed.

Section Moved.
Variables (o : pt) (c c' : list (@edge2 RA)).
Hypothesis Hm : moved o c c'.

Lemma moved_clockwise : clockwise_contour c -> clockwise_contour c'.
Proof.
  destruct Hm as [Hl _]. intros ((Hne & Hd & Hcl) & Hn & Ho). split; [split; [|split]|split].
  - intros K. rewrite K in Hl. simpl in Hl. lia.
  - intros e' He. apply In_nth_error in He as (i & Hi). destruct (moved_from Hm Hi) as (e & He & E1 & E2 & E3).
    destruct (Hd e (nth_error_In _ _ He)) as (D1 & D2 & D3). unfold directed. rewrite E1, E2, E3, dist_loc. split; [intros K; apply D1, (loc_inj K)|].
    unfold loc, rvec. cbn [vx vy]. change (num RA) with R in *. split; lra.
  - intros e1' e2' (j & Hj & J1 & J2). rewrite Hl in *. destruct (moved_from Hm J1) as (e1 & K1 & _ & E2 & _). destruct (moved_from Hm J2) as (e2 & K2 & E1 & _).
    rewrite E2, E1. f_equal. apply Hcl. exists j. auto.
  - lia.
  - intros i j k a b d Hij Hjk Ha Hb Hdd. destruct (moved_from Hm Ha) as (a0 & A0 & A1 & _). destruct (moved_from Hm Hb) as (b0 & B0 & B1 & _). destruct (moved_from Hm Hdd) as (d0 & D0 & D1 & _).
    rewrite A1, B1, D1, orient_loc. apply (Ho i j k); auto.
Qed.

Lemma moved_cross e f e' f' q : ep1 e' = loc o (ep1 e) -> ep2 e' = loc o (ep2 e) -> ep1 f' = loc o (ep1 f) -> ep2 f' = loc o (ep2 f) ->
  cross_in e' f' q -> cross_in e f (glob o q).
Proof.
  intros E1 E2 F1 F2 (N & (t & Tx & Ty) & (u & Ux & Uy)). rewrite E1, E2, F1, F2 in *. unfold loc, rvec in *. cbn [vx vy] in *. change (num RA) with R in *. split; [intros K; apply N; lra|].
  split; [exists t|exists u]; unfold glob, rvec; cbn [vx vy]; change (num RA) with R in *; lra.
Qed.

Lemma moved_consecutive e1' e2' : consecutive c' e1' e2' -> exists e1 e2, consecutive c e1 e2 /\
  ep1 e1' = loc o (ep1 e1) /\ ep2 e1' = loc o (ep2 e1) /\ ep1 e2' = loc o (ep1 e2) /\ ep2 e2' = loc o (ep2 e2).
Proof.
  destruct Hm as [Hl _]. intros (j & Hj & J1 & J2). rewrite Hl in *. destruct (moved_from Hm J1) as (e1 & K1 & A1 & A2 & _). destruct (moved_from Hm J2) as (e2 & K2 & B1 & B2 & _).
  exists e1, e2. split; [exists j; auto|auto].
Qed.

Lemma moved_fair : clockwise_contour c -> (forall e1 e2, consecutive c e1 e2 -> fair_corner c e1 e2) -> forall e1 e2, consecutive c' e1 e2 -> fair_corner c' e1 e2.
Proof.
  intros Hcw Hf e1' e2' Hcon. destruct (moved_consecutive Hcon) as (e1 & e2 & K & A1 & A2 & B1 & B2).
  assert (Ht : turn_sine e1' e2' = turn_sine e1 e2) by (unfold turn_sine; rewrite A1, A2, B1, B2, orient_loc, !dist_loc; auto).
  assert (Hx : forall f' q, In f' c' -> cross_in e1' f' q \/ cross_in e2' f' q -> exists f, In f c /\ (cross_in e1 f (glob o q) \/ cross_in e2 f (glob o q))).
  { intros f' q Hin Hc. destruct (moved_in Hm Hin) as (f & F0 & F1 & F2 & _). exists f. split; auto.
    destruct Hc as [Hc|Hc]; [left; apply (moved_cross (e' := e1') (f' := f'))|right; apply (moved_cross (e' := e2') (f' := f'))]; auto. }
  destruct (Hf _ _ K) as [Hp|[Ha Hturn]]; [left|right].
  - intros Hs. rewrite Ht in Hs. destruct (Hp Hs) as [P1 P2]. rewrite Ht. split; auto. intros f' q Hin Hc. destruct (Hx f' q Hin Hc) as (f & F0 & F1).
    destruct (P2 f _ F0 F1) as [E|E]; [left; rewrite B1, <- E, loc_glob; auto|right]. rewrite B1. unfold glob, loc, rvec in *. cbn [vx vy] in *. change (num RA) with R in *.
    eapply Rlt_le_trans; [exact E|]. right. ring.
  - split.
    + intros f' q Hin Hc. destruct (Hx f' q Hin Hc) as (f & F0 & F1). destruct (Ha f _ F0 F1) as [E|E]; [left; rewrite B1, <- E, loc_glob; auto|right].
      rewrite B1. rewrite <- (loc_glob o q), dist_loc. auto.
    + intros e' q Hin N1 N2 D1 D2. destruct (moved_in Hm Hin) as (e & E0 & E1 & E2 & _).
      rewrite (moved_dist q A1 A2) in D1. rewrite (moved_dist q B1 B2) in D2. rewrite (moved_dist _ E1 E2), (moved_dist _ E1 E2), B1, glob_loc. apply Hturn; auto.
      * intros ->. apply N1. apply (cw_starts (moved_clockwise Hcw)); auto; [destruct Hcon as (j & _ & J1 & J2); eapply nth_error_In; eauto|congruence].
      * intros ->. apply N2. apply (cw_starts (moved_clockwise Hcw)); auto; [destruct Hcon as (j & _ & J1 & J2); eapply nth_error_In; eauto|congruence].
Qed.
End Moved.

(** ** a graph without a skeleton has no face the walk reports *)
Lemma angle_lt_total (vl : list (vec3 RA)) v a b wv wa wb : py_get vl v = Ok wv -> py_get vl a = Ok wa -> py_get vl b = Ok wb ->
  ground wa <> ground wv -> ground wb <> ground wv -> exists r, angle_lt vl v a b = Ok r.
Proof.
  intros Gv Ga Gb Na Nb. assert (K : forall w, ground w <> ground wv -> exists t, pseudoangle (w_sub w wv) = Ok t).
  { intros w Nw. destruct (pseudoangle (w_sub w wv)) as [t|e] eqn:E; eauto. exfalso. apply Nw.
    destruct (proj1 (pseudoangle_zero (w_sub w wv)) (ex_intro _ e E)) as [X Y]. unfold w_sub, mkvec3 in X, Y. cbn [wx wy RA rnd nsub] in X, Y.
    unfold ground, rvec. change (num RA) with R in *. apply vec_ext; cbn [vx vy]; change (num RA) with R in *; lra. }
  destruct (K wa Na) as (ta & Ea). destruct (K wb Nb) as (tb & Eb). unfold angle_lt, compare_angles. rewrite Ga, Gv, Gb. cbn [bind]. rewrite Ea. cbn [bind]. rewrite Eb. cbn [bind]. eauto.
Qed.

Section Outline.
Variable d : list (@edge2 RA).
Hypothesis Hd : convex_contour d.
Variables first nr : Z.
Hypothesis Hnr : (first + Z.of_nat (length d) <= nr)%Z.
Notation vid := (vid d first nr).
Notation rim := (rim d first nr).
Variable vl : list (vec3 RA).
Hypothesis Hvl : forall v, v < length d -> exists w, py_get vl (vid v) = Ok w.
Hypothesis Hne : forall u v wu wv, u < length d -> v < length d -> u <> v -> py_get vl (vid u) = Ok wu -> py_get vl (vid v) = Ok wv -> ground wu <> ground wv.

Let vinj u v : vid u = vid v -> u = v := vid_inj Hd Hnr (u := u) (v := v).

Lemma rim_simple : no_parallel_edges rim.
Proof.
  apply simple_pairs.
  - apply NoDup_map_inj; [|apply seq_NoDup]. intros u v _ _ K. injection K as _ K. apply vinj in K. auto.
  - intros a b K1 K2. exfalso. apply (in_rim Hd) in K1 as (i & Hi & -> & ->). apply (in_rim Hd) in K2 as (j & Hj & K2 & K3). apply vinj in K2, K3. subst j.
    apply (nx_ne_pv Hd Hi). rewrite K2 at 1. apply (nx_pv Hd), (pred_lt Hd).
Qed.

Lemma rim_ends a b : has_edge_between rim a b -> exists u v, u < length d /\ v < length d /\ u <> v /\ a = vid u /\ b = vid v.
Proof.
  intros [N [K|K]]; apply (in_rim Hd) in K as (i & Hi & -> & ->); do 2 eexists; repeat split; try apply (pred_lt Hd); auto; intros E; apply N; rewrite E; auto.
Qed.

Lemma outline_faces sw sch : exists emb, circular_embedding (build sw rim) vl true = Ok emb /\ graph_faces sch (build sw rim) emb nr = Ok [].
Proof.
  set (g := build sw rim).
  assert (K : forall u ns, In (u, ns) g -> dict_find g u = Some ns) by (intros; apply In_dict_find; auto; apply keys_build).
  destruct (@emb_total g vl) as (emb & He).
  { intros x ns Hin. pose proof (K x ns Hin) as Hf. apply py_sorted_total. intros a b Ha Hb.
    assert (Ia : has_edge_between rim x a) by (apply (In_neighbours_build sw); fold g; unfold neighbours; rewrite Hf; auto).
    assert (Ib : has_edge_between rim x b) by (apply (In_neighbours_build sw); fold g; unfold neighbours; rewrite Hf; auto).
    destruct (rim_ends Ia) as (u & v & Lu & Lv & Nuv & -> & ->). destruct (rim_ends Ib) as (u' & v' & Lu' & Lv' & Nuv' & Eu & ->). apply vinj in Eu. subst u'.
    destruct (Hvl Lu) as (wu & Gu). destruct (Hvl Lv) as (wv & Gv). destruct (Hvl Lv') as (wv' & Gv').
    apply (angle_lt_total Gu Gv Gv'); [apply (Hne Lv Lu)|apply (Hne Lv' Lu)]; auto. }
  assert (Hl : lists_neighbours rim (neighbours emb)) by (eapply perm_lists_neighbours; [apply rim_simple|]; apply (circular_embedding_perm _ _ _ He)).
  destruct (@graph_faces_api sw rim emb rim_simple Hl sch nr) as (fs & Hfs & Hf & _). exists emb. split; auto. unfold g. rewrite Hfs. f_equal.
  destruct fs as [|f fs]; auto. exfalso. destruct (Hf f (or_introl eq_refl)) as (_ & (x & Hx & Lx) & He' & _).
  rewrite <- (map_fst_darts f) in Hx. apply in_map_iff in Hx as ((a & b) & E & Hx). simpl in E. subst a.
  destruct (rim_ends (He' _ _ Hx)) as (u & v & Lu & _ & _ & -> & _). pose proof (vid_lt Hd Hnr Lu). lia.
Qed.
End Outline.

(** ** the whole call *)
Section Poly.
Variable verts : list (vec3 RA).
Variable first : Z.
Hypothesis Hfirst : (0 <= first)%Z.
Variable c : list (@edge2 RA).
Hypothesis Hfoot : footprint verts first c.
Hypothesis Hc : clockwise_contour c.
Hypothesis Hfair : forall e1 e2, consecutive c e1 e2 -> fair_corner c e1 e2.
Let n := length c.
Let n3 : 3 <= n := cw_pos Hc.
Let N := Z.of_nat (length verts).

Theorem clockwise_polygonize fuel sw sch dbg holes hgt tan faces : 0 < fuel -> holes = None \/ holes = Some [] ->
  let o := polygonize fuel sw sch dbg verts first (Z.of_nat n) holes hgt tan faces None in
  o_verts o = verts /\ o_faces o = faces /\ o_debug o = (if dbg then Some [] else None) /\
  (hgt <> 0%R -> o_result o = Err ValueError) /\
  (hgt = 0%R -> o_result o = Ok (match faces with Some old => old | None => [] end)).
Proof.
  intros Hfu Hh out. destruct (@closed_prepare verts first c (proj1 Hc) n3 Hfoot holes Hh) as (w0 & center & c' & G0 & Hp & Hz & Hm & Hid). fold n in Hp.
  pose proof (cw_skeleton (moved_clockwise Hm Hc) (moved_fair Hm Hc Hfair) Hfu) as Hsk.
  unfold out, polygonize. rewrite Hp. cbn [bind]. rewrite Hsk. cbn [bind]. unfold slope. rewrite ntruth_R.
  destruct (Reqb_spec hgt 0) as [E|E]; cbn [negb].
  2: { cbn [max_height map bind o_verts o_faces o_debug o_result]. repeat split; auto. intros; contradiction. }
  cbn [map]. rewrite app_nil_r. fold N.
  assert (Hb : (first + Z.of_nat (length (map mire c)) <= N)%Z).
  { rewrite map_length. fold n. destruct (@closed_vert verts first c (proj1 Hc) n3 Hfoot (n - 1) ltac:(fold n; lia)) as (e & w & _ & G & _). apply index_lt in G; [|lia]. fold N in G. lia. }
  assert (Hv : forall v, v < n -> exists e w, nth_error c v = Some e /\ py_get verts (vid (map mire c) first N v) = Ok w /\ ep1 e = ground w).
  { intros v Hv. destruct (@closed_vert verts first c (proj1 Hc) n3 Hfoot v Hv) as (e & w & E1 & G & K & _). exists e, w. split; auto. split; auto.
    rewrite (vid_low (mirrored Hc)) by (rewrite map_length; auto). auto. }
  destruct (@outline_faces (map mire c) (mirrored Hc) first N Hb verts) with (sw := sw) (sch := sch) as (emb & He & Hg).
  { rewrite map_length. intros v L. destruct (Hv v L) as (e & w & _ & G & _). eauto. }
  { rewrite map_length. intros u v wu wv Lu Lv Nuv Gu Gv Eg. destruct (Hv u Lu) as (eu & wu' & E1 & G1 & K1). destruct (Hv v Lv) as (ev & wv' & E2 & G2 & K2).
    rewrite G1 in Gu. apply Ok_inj in Gu. subst wu'. rewrite G2 in Gv. apply Ok_inj in Gv. subst wv'. apply Nuv.
    apply (pnt_distinct (mirrored Hc)); [rewrite map_length; auto|rewrite map_length; auto|]. unfold pnt, edge_at. rewrite !map_length, !Nat.mod_small, !nth_error_map, E1, E2 by auto.
    cbn [option_map mire ep1]. congruence. }
  assert (Hrf : roof_faces sw sch verts first (Z.of_nat n) (match holes with Some l => l | None => [] end) (concat [c']) [] N = Ok []).
  { unfold roof_faces. replace (match holes with Some l => l | None => [] end) with (@nil (Z * Z)) by (destruct Hh as [-> | ->]; auto).
    unfold build_graph. pose proof (contour_graph (mirrored Hc) first N) as Hcg. rewrite map_length in Hcg. fold n in Hcg. rewrite Hcg. cbn [bind mapM concat].
    replace (skeleton_graph_edges (c' ++ []) [] N) with (@nil dart) by reflexivity. rewrite !app_nil_r.
    change (fold_left (add_edge sw) (rim (map mire c) first N) []) with (build sw (rim (map mire c) first N)). rewrite He. cbn [bind]. rewrite Hg. reflexivity. }
  rewrite Hrf. destruct faces as [old|]; cbn [o_verts o_faces o_debug o_result]; rewrite ?app_nil_r; repeat split; auto; intros; contradiction.
Qed.
End Poly.
