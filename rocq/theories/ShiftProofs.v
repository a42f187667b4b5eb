(** * ShiftProofs: polygonize commutes with translations (over the real numbers) *)

From Coq Require Import Reals Lra Psatz.
From Verif Require Import Py PyFacts Arith ArithR RSpec GeoR Euclid Graph PySort GraphProofs Lav Cluster Poly PolyProofs PolyFaces.
Set Implicit Arguments.
Unset Strict Implicit.
Local Open Scope R_scope.

Definition rmap S T (f : S -> T) (r : res S) : res T := match r with Ok x => Ok (f x) | Err e => Err e end.

Lemma py_get_map S T (f : S -> T) l i : py_get (map f l) i = rmap f (py_get l i).
Proof.
  unfold py_get. rewrite map_length. cbv zeta. destruct (_ && _)%bool; auto.
  rewrite nth_error_map. destruct (nth_error l _); auto.
Qed.

Section Shift.
Variable d : vec3 RA.
Notation sh := (moved d).

Lemma sh_sub (a b : vec3 RA) : w_sub (sh a) (sh b) = w_sub a b.
Proof. destruct a as [a1 a2 a3], b as [b1 b2 b3], d as [d1 d2 d3]. unfold w_sub, mkvec3, moved. cbn [wx wy wz RA rnd nsub]. f_equal; rring. Qed.

Lemma compare_shift vl p1 p2 c : compare_angles (map sh vl) p1 p2 c = compare_angles vl p1 p2 c.
Proof.
  unfold compare_angles. rewrite !py_get_map.
  destruct (py_get vl p1); cbn [rmap bind]; auto. destruct (py_get vl c); cbn [rmap bind]; auto. rewrite sh_sub.
  destruct (pseudoangle _); cbn [bind]; auto. destruct (py_get vl p2); cbn [rmap bind]; auto. rewrite sh_sub. auto.
Qed.

Lemma embedding_shift g vl dir : circular_embedding g (map sh vl) dir = circular_embedding g vl dir.
Proof.
  unfold circular_embedding. apply mapM_ext. intros [k l] _. cbn [fst snd].
  rewrite (@py_sorted_ext _ (angle_lt (map sh vl) k) (angle_lt vl k) (fun _ => True)); auto.
  - intros a b _ _. unfold angle_lt. rewrite compare_shift. auto.
  - apply Forall_forall; auto.
Qed.

Lemma is_spike_shift vl p : is_spike (map sh vl) p = is_spike vl p.
Proof.
  destruct p as [[a b] c]. unfold is_spike. rewrite !py_get_map.
  destruct (py_get vl b); cbn [rmap bind]; auto. destruct (py_get vl a); cbn [rmap bind]; auto.
  destruct (py_get vl c); cbn [rmap bind]; auto. rewrite !sh_sub. auto.
Qed.

Lemma find_spike_shift vl l : find_spike (map sh vl) l = find_spike vl l.
Proof. induction l as [|p t IH]; simpl; auto. rewrite is_spike_shift. destruct (is_spike vl p) as [[]|]; simpl; auto. Qed.

Lemma spike_pass_shift vl firstSkel faces fis : spike_pass (map sh vl) firstSkel faces fis = spike_pass vl firstSkel faces fis.
Proof.
  induction fis as [|fi t IH]; simpl; auto. destruct (Nat.leb _ 3); auto.
  destruct (circ_prev_this_next _); simpl; auto. rewrite find_spike_shift. destruct (find_spike vl _) as [[[[x y] z]|]|]; simpl; auto.
  destruct (adjacent_faces _ _ _ _ _ _ _) as [[[r|] [l|]]|]; simpl; auto.
Qed.

Lemma spike_loop_shift vl firstSkel : forall fuel faces,
  spike_loop fuel (map sh vl) firstSkel faces = spike_loop fuel vl firstSkel faces.
Proof.
  induction fuel as [|f IH]; simpl; intros faces; auto. rewrite spike_pass_shift.
  destruct (spike_pass vl _ _ _) as [[fs|]|]; simpl; auto.
Qed.

Lemma parallel_at_shift vl counts firstSkel acc p :
  parallel_at (map sh vl) counts firstSkel acc p = parallel_at vl counts firstSkel acc p.
Proof.
  destruct p as [[a b] c]. unfold parallel_at. destruct (_ && _)%bool; auto. rewrite !py_get_map.
  destruct (py_get vl b); cbn [rmap bind]; auto. destruct (py_get vl a); cbn [rmap bind]; auto.
  destruct (py_get vl c); cbn [rmap bind]; auto. rewrite !sh_sub. auto.
Qed.

Lemma parallel_scan_shift vl counts firstSkel l : forall acc,
  parallel_scan (map sh vl) counts firstSkel acc l = parallel_scan vl counts firstSkel acc l.
Proof.
  induction l as [|p t IH]; simpl; intros acc; auto. rewrite parallel_at_shift.
  destruct (parallel_at vl counts firstSkel acc p); simpl; auto.
Qed.

Lemma clean_faces_shift vl firstSkel faces : clean_faces (map sh vl) firstSkel faces = clean_faces vl firstSkel faces.
Proof.
  unfold clean_faces. apply mapM_ext. intros f _. unfold fix_parallel. destruct (Nat.ltb 3 (length f)); auto.
  destruct (circ_prev_this_next f); simpl; auto. rewrite parallel_scan_shift. auto.
Qed.

Lemma roof_faces_shift sw sch vl first cnt holes edges sk firstSkel :
  roof_faces sw sch (map sh vl) first cnt holes edges sk firstSkel = roof_faces sw sch vl first cnt holes edges sk firstSkel.
Proof.
  unfold roof_faces. destruct (build_graph _ _ _ _ _ _ _); cbn [bind]; auto. rewrite embedding_shift.
  destruct (circular_embedding _ _ _); cbn [bind]; auto. destruct (graph_faces _ _ _ _); cbn [bind]; auto.
  unfold remove_spikes. rewrite spike_loop_shift. destruct (spike_loop _ _ _ _); cbn [bind]; auto. apply clean_faces_shift.
Qed.

(** ** the center and the edges *)
Definition plus_times (k : R) (v : vec3 RA) : vec3 RA := V3 (A := RA) (wx v + k * wx d) (wy v + k * wy d) (wz v + k * wz d).

Lemma sum_verts_shift vl is : forall acc k,
  sum_verts (map sh vl) (plus_times k acc) is = rmap (plus_times (k + INR (length is))) (sum_verts vl acc is).
Proof.
  induction is as [|i t IH]; intros acc k; cbn [sum_verts length].
  - cbn [INR rmap]. rewrite Rplus_0_r. auto.
  - rewrite py_get_map. destruct (py_get vl i) as [v|e]; cbn [rmap bind]; auto.
    replace (w_add (plus_times k acc) (sh v)) with (plus_times (k + 1) (w_add acc v)).
    + rewrite IH. rewrite S_INR. replace (k + 1 + INR (length t)) with (k + (INR (length t) + 1)) by lra. auto.
    + unfold plus_times, w_add, mkvec3, moved. destruct acc as [a1 a2 a3], v as [b1 b2 b3], d as [d1 d2 d3]. cbn [wx wy wz RA rnd nadd].
      apply vec3_ext; cbn [wx wy wz]; change (num RA) with R in *; ring.
Qed.

Definition moved_xy (v : vec3 RA) : vec3 RA := V3 (A := RA) (wx v + wx d) (wy v + wy d) (wz v).

Lemma zrange_length a b : length (zrange a b) = Z.to_nat (b - a).
Proof. unfold zrange. rewrite map_length, seq_length. auto. Qed.

Lemma center_shift vl first cnt : (1 <= cnt)%Z -> poly_center (map sh vl) first cnt = rmap moved_xy (poly_center vl first cnt).
Proof.
  intros Hc. unfold poly_center.
  replace (mkvec3 zeroN zeroN zeroN) with (plus_times 0 (mkvec3 zeroN zeroN zeroN)) at 1.
  2:{ unfold plus_times, mkvec3. rewrite zeroN_R. cbn [wx wy wz RA rnd]. f_equal; rring. }
  rewrite sum_verts_shift, zrange_length. replace (first + cnt - first)%Z with cnt by lia. rewrite Rplus_0_l.
  destruct (sum_verts vl _ _) as [c|e]; cbn [rmap bind]; auto.
  assert (N : rnd (@nofZ RA cnt) = INR (Z.to_nat cnt)).
  { rewrite INR_IZR_INZ, Z2Nat.id by lia. unfold nofZ. cbn [RA rnd lit]. lra. }
  rewrite N, zeroN_R. cbn [RA neqb]. assert (P : 0 < INR (Z.to_nat cnt)) by (apply lt_0_INR; lia).
  destruct (Reqb_spec (INR (Z.to_nat cnt)) 0) as [K|K]; [lra|]. cbn [rmap]. f_equal.
  unfold moved_xy, plus_times, mkvec3. destruct c as [x y z], d as [dx dy dz]. cbn [wx wy wz RA rnd ndiv].
  set (n := INR (Z.to_nat cnt)) in *. clearbody n.
  assert (G : forall a b : R, (a + n * b) / n = a / n + b) by (intros; field; lra).
  rewrite !G. auto.
Qed.

Lemma edge_shift id i j u vl center :
  Edge2_idx id i j u (map sh vl) (moved_xy center) = Edge2_idx id i j u vl center.
Proof.
  unfold Edge2_idx. rewrite !py_get_map. destruct (py_get vl i) as [a|]; cbn [rmap bind]; auto.
  destruct (py_get vl j) as [b|]; cbn [rmap bind]; auto.
  assert (G : forall a : vec3 RA, mkvec (wx (w_sub (sh a) (moved_xy center))) (wy (w_sub (sh a) (moved_xy center))) =
                                  mkvec (wx (w_sub a center)) (wy (w_sub a center))).
  { intros [x y z]. unfold mkvec, w_sub, mkvec3, moved, moved_xy. destruct center as [c1 c2 c3], d as [d1 d2 d3]. cbn [wx wy wz RA rnd nsub]. f_equal; rring. }
  rewrite !G. auto.
Qed.

Lemma contour_shift vl center us u0 id0 first cnt :
  contour_edges (map sh vl) (moved_xy center) us u0 id0 first cnt = contour_edges vl center us u0 id0 first cnt.
Proof.
  unfold contour_edges. cbv zeta.
  rewrite (@mapM_ext _ _ _ (fun k => u <- opt_unit us (u0 + Z.of_nat k) ;; Edge2_idx (id0 + k) (first + Z.of_nat k) (first + Z.of_nat k + 1) u vl center)).
  - destruct (mapM _ _); cbn [bind]; auto. destruct (opt_unit us _); cbn [bind]; auto. rewrite edge_shift. auto.
  - intros k _. destruct (opt_unit us _); cbn [bind]; auto. apply edge_shift.
Qed.

Lemma holes_shift vl center us holes : forall u0 id0,
  hole_edges (map sh vl) (moved_xy center) us u0 id0 holes = hole_edges vl center us u0 id0 holes.
Proof.
  induction holes as [|[f c] t IH]; intros u0 id0; simpl; auto. rewrite contour_shift.
  destruct (contour_edges _ _ _ _ _ _ _); cbn [bind]; auto. rewrite IH. auto.
Qed.

Lemma prepare_shift vl first cnt holes us : (1 <= cnt)%Z ->
  prepare (map sh vl) first cnt holes us =
  rmap (fun p => let '(z, c, cs) := p in ((z : R) + wz d, moved_xy c, cs)) (prepare vl first cnt holes us).
Proof.
  intros Hc. unfold prepare. rewrite py_get_map. destruct (py_get vl first) as [v0|]; cbn [rmap bind]; auto.
  rewrite center_shift by auto. destruct (poly_center vl first cnt) as [c|]; cbn [rmap bind]; auto. cbv zeta.
  rewrite contour_shift. destruct (contour_edges _ _ _ _ _ _ _) as [outer|]; cbn [rmap bind]; auto.
  rewrite holes_shift. destruct (hole_edges _ _ _ _ _ _) as [hs|]; cbn [rmap bind]; auto.
Qed.

Lemma node_shift center ta zBase (arc : @subtree RA) :
  skeleton_node3D (moved_xy center) ta ((zBase : R) + wz d) arc = sh (skeleton_node3D center ta zBase arc).
Proof.
  unfold skeleton_node3D, moved, moved_xy, w_add, mkvec3. destruct center as [c1 c2 c3], d as [d1 d2 d3]. cbn [wx wy wz RA rnd nadd nmul]. f_equal; rring.
Qed.

Lemma polygonize_shift fuel sw sch dbg verts first cnt holes hgt tan faces us : (1 <= cnt)%Z ->
  let o := polygonize fuel sw sch dbg verts first cnt holes hgt tan faces us in
  let o' := polygonize fuel sw sch dbg (map sh verts) first cnt holes hgt tan faces us in
  o_verts o' = map sh (o_verts o) /\ o_faces o' = o_faces o /\ o_debug o' = o_debug o /\ o_result o' = o_result o.
Proof.
  intros Hc. cbv zeta. unfold polygonize. rewrite prepare_shift by auto.
  destruct (prepare verts first cnt holes us) as [[[z c] cs]|e]; cbn [rmap bind].
  2:{ cbn [o_verts o_faces o_debug o_result]. auto. }
  destruct (skeletonize fuel cs) as [sk|e]; cbn [bind]. 2:{ cbn [o_verts o_faces o_debug o_result]. auto. }
  destruct (slope sk hgt tan) as [ta|e]. 2:{ cbn [o_verts o_faces o_debug o_result]. auto. }
  assert (E : map sh verts ++ map (skeleton_node3D (moved_xy c) ta ((z : R) + wz d)) sk =
              map sh (verts ++ map (skeleton_node3D c ta z) sk)).
  { rewrite map_app, map_map. f_equal. apply map_ext. intros a. apply node_shift. }
  rewrite E, map_length, roof_faces_shift.
  destruct (roof_faces _ _ _ _ _ _ _ _ _) as [fs|e]; [destruct faces|]; cbn [o_verts o_faces o_debug o_result]; auto.
Qed.
End Shift.
