(** * PlanProofs: the plan of a roof does not depend on levels and slopes (C64) *)

From Coq Require Import Reals Lra.
From Verif Require Import Py PyFacts Arith ArithR Euclid Graph PySort Lav Cluster Poly PolyProofs PolyFaces ShiftProofs PlanSpec.
Set Implicit Arguments.
Unset Strict Implicit.
Local Open Scope nat_scope.

Section Plan.
Context {A : arith}.
Notation vec3 := (vec3 A).

(** everything at level 0 *)
Definition low (v : vec3) : vec3 := V3 (wx v) (wy v) zeroN.

Lemma low_inj (v w : vec3) : low v = low w -> wx v = wx w /\ wy v = wy w.
Proof. intros E. split; [exact (f_equal (@wx A) E)|exact (f_equal (@wy A) E)]. Qed.

Lemma same_plan_low (l l' : list vec3) : same_plan l l' <-> map low l = map low l'.
Proof.
  split.
  - induction 1 as [|v w l l' [Hx Hy] _ IH]; cbn [map]; auto. rewrite IH. unfold low. rewrite Hx, Hy. auto.
  - revert l'. induction l as [|v l IH]; intros [|w l'] E; cbn [map] in E; try discriminate; constructor.
    + apply low_inj. injection E; intros; unfold low; congruence.
    + apply IH. congruence.
Qed.

Lemma compare_low vl p1 p2 c : compare_angles (map low vl) p1 p2 c = compare_angles vl p1 p2 c.
Proof.
  unfold compare_angles. rewrite !py_get_map.
  destruct (py_get vl p1); cbn [rmap bind]; auto. destruct (py_get vl c); cbn [rmap bind]; auto.
  change (pseudoangle (w_sub (low ?a) (low ?b))) with (pseudoangle (w_sub a b)).
  destruct (pseudoangle _); cbn [bind]; auto. destruct (py_get vl p2); cbn [rmap bind]; auto.
Qed.

Lemma embedding_low g vl dir : circular_embedding g (map low vl) dir = circular_embedding g vl dir.
Proof.
  unfold circular_embedding. apply mapM_ext. intros [k l] _. cbn [fst snd].
  rewrite (@py_sorted_ext _ (angle_lt (map low vl) k) (angle_lt vl k) (fun _ => True)); auto.
  - intros a b _ _. unfold angle_lt. rewrite compare_low. auto.
  - apply Forall_forall; auto.
Qed.

Lemma is_spike_low vl p : is_spike (map low vl) p = is_spike vl p.
Proof.
  destruct p as [[a b] c]. unfold is_spike. rewrite !py_get_map.
  destruct (py_get vl b); cbn [rmap bind]; auto. destruct (py_get vl a); cbn [rmap bind]; auto.
  destruct (py_get vl c); cbn [rmap bind]; auto.
Qed.

Lemma find_spike_low vl l : find_spike (map low vl) l = find_spike vl l.
Proof. induction l as [|p t IH]; simpl; auto. rewrite is_spike_low. destruct (is_spike vl p) as [[]|]; simpl; auto. Qed.

Lemma spike_pass_low vl firstSkel faces fis : spike_pass (map low vl) firstSkel faces fis = spike_pass vl firstSkel faces fis.
Proof.
  induction fis as [|fi t IH]; simpl; auto. destruct (Nat.leb _ 3); auto.
  destruct (circ_prev_this_next _); simpl; auto. rewrite find_spike_low. destruct (find_spike vl _) as [[[[x y] z]|]|]; simpl; auto.
  destruct (adjacent_faces _ _ _ _ _ _ _) as [[[r|] [l|]]|]; simpl; auto.
Qed.

Lemma spike_loop_low vl firstSkel : forall fuel faces,
  spike_loop fuel (map low vl) firstSkel faces = spike_loop fuel vl firstSkel faces.
Proof.
  induction fuel as [|f IH]; simpl; intros faces; auto. rewrite spike_pass_low.
  destruct (spike_pass vl _ _ _) as [[fs|]|]; simpl; auto.
Qed.

Lemma parallel_at_low vl counts firstSkel acc p :
  parallel_at (map low vl) counts firstSkel acc p = parallel_at vl counts firstSkel acc p.
Proof.
  destruct p as [[a b] c]. unfold parallel_at. destruct (_ && _)%bool; auto. rewrite !py_get_map.
  destruct (py_get vl b); cbn [rmap bind]; auto. destruct (py_get vl a); cbn [rmap bind]; auto.
  destruct (py_get vl c); cbn [rmap bind]; auto.
Qed.

Lemma parallel_scan_low vl counts firstSkel l : forall acc,
  parallel_scan (map low vl) counts firstSkel acc l = parallel_scan vl counts firstSkel acc l.
Proof.
  induction l as [|p t IH]; simpl; intros acc; auto. rewrite parallel_at_low.
  destruct (parallel_at vl counts firstSkel acc p); simpl; auto.
Qed.

Lemma clean_faces_low vl firstSkel faces : clean_faces (map low vl) firstSkel faces = clean_faces vl firstSkel faces.
Proof.
  unfold clean_faces. apply mapM_ext. intros f _. unfold fix_parallel. destruct (Nat.ltb 3 (length f)); auto.
  destruct (circ_prev_this_next f); simpl; auto. rewrite parallel_scan_low. auto.
Qed.

Lemma roof_faces_low sw sch vl first cnt holes edges sk firstSkel :
  roof_faces sw sch (map low vl) first cnt holes edges sk firstSkel = roof_faces sw sch vl first cnt holes edges sk firstSkel.
Proof.
  unfold roof_faces. destruct (build_graph _ _ _ _ _ _ _); cbn [bind]; auto. rewrite embedding_low.
  destruct (circular_embedding _ _ _); cbn [bind]; auto. destruct (graph_faces _ _ _ _); cbn [bind]; auto.
  unfold remove_spikes. rewrite spike_loop_low. destruct (spike_loop _ _ _ _); cbn [bind]; auto. apply clean_faces_low.
Qed.

(** ** the center and the edges *)
Lemma sum_verts_low vl is : forall acc acc', low acc = low acc' ->
  rmap low (sum_verts (map low vl) acc is) = rmap low (sum_verts vl acc' is).
Proof.
  induction is as [|i t IH]; intros acc acc' E; cbn [sum_verts].
  - cbn [rmap]. rewrite E. auto.
  - rewrite py_get_map. destruct (py_get vl i) as [v|e]; cbn [rmap bind]; auto. apply IH.
    apply low_inj in E as [Ex Ey]. unfold low, w_add, mkvec3. cbn [wx wy]. rewrite Ex, Ey. auto.
Qed.

Lemma center_low vl first cnt : poly_center (map low vl) first cnt = poly_center vl first cnt.
Proof.
  unfold poly_center. pose proof (@sum_verts_low vl (zrange first (first + cnt)) (mkvec3 zeroN zeroN zeroN) _ eq_refl) as E.
  destruct (sum_verts (map low vl) _ _) as [c|e]; destruct (sum_verts vl _ _) as [c'|e']; cbn [rmap] in E; try discriminate; cbn [bind].
  - assert (E' : low c = low c') by congruence. apply low_inj in E' as [Ex Ey]. cbn [mkvec3 wx wy]. rewrite Ex, Ey. auto.
  - congruence.
Qed.

Definition lows (us : option (list vec3)) : option (list vec3) := option_map (map low) us.

Lemma unit_low us u : opt_unit (lows us) u = rmap (option_map low) (opt_unit us u).
Proof. destruct us as [us|]; cbn [lows option_map opt_unit]; auto. rewrite py_get_map. destruct (py_get us u); auto. Qed.

Lemma edge_low id i j u vl center : Edge2_idx id i j (option_map low u) (map low vl) center = Edge2_idx id i j u vl center.
Proof.
  unfold Edge2_idx. rewrite !py_get_map. destruct (py_get vl i) as [a|]; cbn [rmap bind]; auto.
  destruct (py_get vl j) as [b|]; cbn [rmap bind]; auto. destruct u; auto.
Qed.

Lemma contour_low vl center us u0 id0 first cnt :
  contour_edges (map low vl) center (lows us) u0 id0 first cnt = contour_edges vl center us u0 id0 first cnt.
Proof.
  unfold contour_edges. cbv zeta.
  rewrite (@mapM_ext _ _ _ (fun k => u <- opt_unit us (u0 + Z.of_nat k) ;; Edge2_idx (id0 + k) (first + Z.of_nat k) (first + Z.of_nat k + 1) u vl center)).
  - destruct (mapM _ _); cbn [bind]; auto. rewrite unit_low. destruct (opt_unit us _); cbn [bind rmap]; auto. rewrite edge_low. auto.
  - intros k _. rewrite unit_low. destruct (opt_unit us _); cbn [bind rmap]; auto. apply edge_low.
Qed.

Lemma holes_low vl center us holes : forall u0 id0,
  hole_edges (map low vl) center (lows us) u0 id0 holes = hole_edges vl center us u0 id0 holes.
Proof.
  induction holes as [|[f c] t IH]; intros u0 id0; simpl; auto. rewrite contour_low.
  destruct (contour_edges _ _ _ _ _ _ _); cbn [bind]; auto. rewrite IH. auto.
Qed.

Lemma truthy_low us : truthy_list (lows us) = lows (truthy_list us).
Proof. destruct us as [[|u us]|]; auto. Qed.

Lemma prepare_low vl first cnt holes us :
  prepare (map low vl) first cnt holes (lows us) = rmap (fun p => (zeroN, snd (fst p), snd p)) (prepare vl first cnt holes us).
Proof.
  unfold prepare. rewrite py_get_map. destruct (py_get vl first) as [v0|]; cbn [rmap bind]; auto.
  rewrite center_low. destruct (poly_center vl first cnt) as [c|]; cbn [rmap bind]; auto. cbv zeta. rewrite truthy_low.
  rewrite contour_low. destruct (contour_edges _ _ _ _ _ _ _) as [outer|]; cbn [rmap bind]; auto.
  rewrite holes_low. destruct (hole_edges _ _ _ _ _ _) as [hs|]; cbn [rmap bind]; auto.
Qed.

Lemma prepare_level (vl : list vec3) first cnt holes us z c cs : prepare vl first cnt holes us = Ok (z, c, cs) ->
  exists v, py_get vl first = Ok v /\ z = wz v.
Proof.
  unfold prepare. destruct (py_get vl first) as [v|]; cbn [bind]; [|discriminate]. destruct (poly_center _ _ _); cbn [bind]; [|discriminate].
  destruct (contour_edges _ _ _ _ _ _ _); cbn [bind]; [|discriminate]. destruct (hole_edges _ _ _ _ _ _); cbn [bind]; [|discriminate].
  intros E. exists v. split; auto. congruence.
Qed.

Lemma node_low center ta z arc ta' z' : low (skeleton_node3D center ta z arc) = low (skeleton_node3D center ta' z' arc).
Proof. reflexivity. Qed.

(** ** two calls *)
Variables (verts verts' : list vec3) (us us' : option (list vec3)).
Hypothesis Hv : same_plan verts verts'.
Hypothesis Hu : same_plan_opt us us'.

Lemma us_low : lows us = lows us'.
Proof.
  destruct us as [l|], us' as [l'|]; cbn [same_plan_opt] in Hu; try contradiction; auto. cbn [lows option_map]. f_equal. apply same_plan_low. auto.
Qed.

Lemma prepare_both first cnt holes :
  (exists e, prepare verts first cnt holes us = Err e /\ prepare verts' first cnt holes us' = Err e) \/
  exists z z' c cs, prepare verts first cnt holes us = Ok (z, c, cs) /\ prepare verts' first cnt holes us' = Ok (z', c, cs).
Proof.
  pose proof (prepare_low verts first cnt holes us) as E. pose proof (prepare_low verts' first cnt holes us') as E'.
  rewrite <- us_low in E'. rewrite <- (proj1 (same_plan_low verts verts') Hv) in E'. rewrite E in E'.
  destruct (prepare verts first cnt holes us) as [[[z c] cs]|e], (prepare verts' first cnt holes us') as [[[z' c'] cs']|e']; cbn [rmap fst snd] in E'; try discriminate.
  - right. exists z, z', c, cs. split; auto. assert (c = c' /\ cs = cs') as [<- <-] by (split; congruence). auto.
  - left. exists e. split; [auto|congruence].
Qed.

Lemma plan_len : length verts = length verts'.
Proof. revert Hv. generalize verts verts'. induction 1; cbn [length]; auto. Qed.

Lemma nodes_plan c ta ta' z z' sk : same_plan (verts ++ map (skeleton_node3D c ta z) sk) (verts' ++ map (skeleton_node3D c ta' z') sk).
Proof. apply Forall2_app; auto. induction sk as [|a t IH]; cbn [map]; constructor; auto. Qed.

Lemma faces_plan sw sch c ta ta' z z' sk first cnt holes es n :
  roof_faces sw sch (verts ++ map (skeleton_node3D c ta z) sk) first cnt holes es sk n =
  roof_faces sw sch (verts' ++ map (skeleton_node3D c ta' z') sk) first cnt holes es sk n.
Proof.
  rewrite <- roof_faces_low. rewrite (proj1 (same_plan_low _ _) (nodes_plan c ta ta' z z' sk)). apply roof_faces_low.
Qed.

Variables (fuel : nat) (sw : Z -> Z -> bool) (sch : schedule) (dbg : bool) (first cnt : Z) (holes : option (list (Z * Z))) (faces : option (list (list Z))).
Notation run V U h t := (polygonize fuel sw sch dbg V first cnt holes h t faces U).

(** one run, from the contours on *)
Definition run_from (V : list vec3) (z : num A) (c : vec3) (cs : list (list (@edge2 A))) (sk : list (@subtree A)) (h t : num A) : outcome :=
  let dbgo := if dbg then Some sk else None in
  match slope sk h t with
  | Err e => Outcome V faces dbgo (Err e)
  | Ok ta => let V' := V ++ map (skeleton_node3D c ta z) sk in
    match roof_faces sw sch V' first cnt (match holes with Some h => h | None => [] end) (concat cs) sk (Z.of_nat (length V)) with
    | Err e => Outcome V' faces dbgo (Err e)
    | Ok fs => match faces with None => Outcome V' None dbgo (Ok fs) | Some old => Outcome V' (Some (old ++ fs)) dbgo (Ok (old ++ fs)) end
    end
  end.

Lemma run_cases h t h' t' :
  (exists e, run verts us h t = Outcome verts faces None (Err e) /\ run verts' us' h' t' = Outcome verts' faces None (Err e)) \/
  exists z z' c cs sk, prepare verts first cnt holes us = Ok (z, c, cs) /\ prepare verts' first cnt holes us' = Ok (z', c, cs) /\ skeletonize fuel cs = Ok sk /\
    run verts us h t = run_from verts z c cs sk h t /\ run verts' us' h' t' = run_from verts' z' c cs sk h' t'.
Proof.
  unfold polygonize. destruct (prepare_both first cnt holes) as [(e & -> & ->)|(z & z' & c & cs & E & E')]; cbn [bind]; [left; exists e; auto|].
  rewrite E, E'. cbn [bind]. destruct (skeletonize fuel cs) as [sk|e] eqn:K; cbn [bind]; [|left; exists e; auto]. right. exists z, z', c, cs, sk. do 3 (split; [auto|]). split; reflexivity.
Qed.

Lemma run_from_alike z z' c cs sk h t h' t' ta ta' : slope sk h t = Ok ta -> slope sk h' t' = Ok ta' ->
  same_in_plan (run_from verts z c cs sk h t) (run_from verts' z' c cs sk h' t').
Proof.
  intros S1 S2. unfold run_from. rewrite S1, S2, plan_len, (faces_plan sw sch c ta ta' z z').
  destruct (roof_faces _ _ _ _ _ _ _ _ _) as [fs|e]; [destruct faces|]; unfold same_in_plan; cbn [o_verts o_faces o_debug o_result];
    (do 3 (split; [reflexivity|])); apply nodes_plan.
Qed.

Lemma slope_tan sk (h t : num A) : ntruth h = false -> slope sk h t = Ok t.
Proof. intros E. unfold slope. rewrite E. auto. Qed.

Theorem plan_slopes h t h' t' : ntruth h = false -> ntruth h' = false -> same_in_plan (run verts us h t) (run verts' us' h' t').
Proof.
  intros H H'. destruct (run_cases h t h' t') as [(e & -> & ->)|(z & z' & c & cs & sk & _ & _ & _ & -> & ->)].
  - unfold same_in_plan. cbn [o_verts o_faces o_debug o_result]. auto.
  - exact (run_from_alike z z' c cs (slope_tan sk t H) (slope_tan sk t' H')).
Qed.

(** a height instead of a slope *)
Theorem plan_height h t h' t' : ntruth h = false ->
  same_in_plan (run verts us h t) (run verts' us' h' t') \/
  o_verts (run verts' us' h' t') = verts' /\ o_faces (run verts' us' h' t') = faces /\ o_debug (run verts' us' h' t') = o_debug (run verts us h t) /\
  (o_result (run verts' us' h' t') = Err ValueError /\ o_verts (run verts us h t) = verts \/
   o_result (run verts' us' h' t') = Err ZeroDivisionError /\
   exists sk a, o_debug (polygonize fuel sw sch true verts first cnt holes h t faces us) = Some sk /\ In a sk /\ neqb (height a) zeroN = true).
Proof.
  intros H. destruct (run_cases h t h' t') as [(e & -> & ->)|(z & z' & c & cs & sk & P & _ & K & E & E')].
  { left. unfold same_in_plan. cbn [o_verts o_faces o_debug o_result]. auto. }
  destruct (slope sk h' t') as [ta'|e] eqn:S2.
  { left. rewrite E, E'. exact (run_from_alike z z' c cs (slope_tan sk t H) S2). }
  assert (R' : run_from verts' z' c cs sk h' t' = Outcome verts' faces (if dbg then Some sk else None) (Err e)) by (unfold run_from; rewrite S2; reflexivity).
  right. rewrite E, E', R'. cbn [o_verts o_faces o_debug o_result]. split; auto. split; auto. split.
  { unfold run_from. rewrite (slope_tan sk t H). destruct (roof_faces _ _ _ _ _ _ _ _ _); [destruct faces|]; auto. }
  unfold slope in S2. destruct (ntruth h'); [|discriminate]. unfold max_height in S2. destruct sk as [|a sk].
  - left. cbn [map bind] in S2. split; [congruence|]. unfold run_from. rewrite (slope_tan [] t H). cbn [map]. rewrite app_nil_r.
    destruct (roof_faces _ _ _ _ _ _ _ _ _); [destruct faces|]; auto.
  - right. cbn [map bind] in S2. unfold pdiv in S2. destruct (neqb _ zeroN) eqn:Z0; [|discriminate]. split; [congruence|].
    assert (I : In (first_best (fun x best => ngtb x best) (height a) (map (@height A) sk)) (map (@height A) (a :: sk))) by apply first_best_in.
    apply in_map_iff in I as (b & Eb & Ib). exists (a :: sk), b. rewrite Eb. split; [|auto]. unfold polygonize. rewrite P. cbn [bind]. rewrite K. cbn [bind].
    rewrite (slope_tan (a :: sk) t H). destruct (roof_faces _ _ _ _ _ _ _ _ _); [destruct faces|]; auto.
Qed.

(** a call with a height is a call with a slope, if it gets so far *)
Theorem height_is_slope h t h0 : ntruth h0 = false ->
  (exists t', run verts us h t = run verts us h0 t') \/
  o_verts (run verts us h t) = verts /\ o_faces (run verts us h t) = faces /\
  (o_result (run verts us h t) = Err ValueError \/ o_result (run verts us h t) = Err ZeroDivisionError).
Proof.
  intros H. unfold polygonize. destruct (prepare verts first cnt holes us) as [[[z c] cs]|e]; cbn [bind]; [|left; exists t; auto].
  destruct (skeletonize fuel cs) as [sk|e]; cbn [bind]; [|left; exists t; auto].
  destruct (slope sk h t) as [ta|e] eqn:S2; [left; exists ta; rewrite (slope_tan sk ta H); auto|].
  right. cbn [o_verts o_faces o_result]. do 2 (split; [reflexivity|]). unfold slope in S2. destruct (ntruth h); [|discriminate].
  unfold max_height in S2. destruct (map (@height A) sk); cbn [bind] in S2; [left; congruence|right].
  unfold pdiv in S2. destruct (neqb _ zeroN); [congruence|discriminate].
Qed.

(** the same slope or height, and the first vertex at the same level: the same nodes *)
Theorem plan_level h t w w' : py_get verts first = Ok w -> py_get verts' first = Ok w' -> wz w = wz w' ->
  exists nodes, o_verts (run verts us h t) = verts ++ nodes /\ o_verts (run verts' us' h t) = verts' ++ nodes /\ o_result (run verts us h t) = o_result (run verts' us' h t) /\ o_faces (run verts us h t) = o_faces (run verts' us' h t) /\ o_debug (run verts us h t) = o_debug (run verts' us' h t).
Proof.
  intros G G' Ez. destruct (run_cases h t h t) as [(e & -> & ->)|(z & z' & c & cs & sk & P & P' & _ & -> & ->)].
  { exists []. cbn [o_verts o_faces o_debug o_result]. rewrite !app_nil_r. auto. }
  apply prepare_level in P as (v & G1 & ->). apply prepare_level in P' as (v' & G1' & ->).
  assert (v = w) by congruence. assert (v' = w') by congruence. subst v v'. rewrite <- Ez.
  unfold run_from. destruct (slope sk h t) as [ta|e].
  - exists (map (skeleton_node3D c ta (wz w)) sk). rewrite <- (faces_plan sw sch c ta ta (wz w) (wz w)), plan_len.
    destruct (roof_faces _ _ _ _ _ _ _ _ _); [destruct faces|]; auto.
  - exists []. cbn [o_verts o_faces o_debug o_result]. rewrite !app_nil_r. auto.
Qed.
End Plan.

(** over the reals: nodes rise in proportion to the slope *)
Theorem plan_rise (verts verts' : list (vec3 RA)) us us' fuel sw sch dbg first cnt holes faces (t t' : R) w w' :
  same_plan verts verts' -> same_plan_opt us us' -> py_get verts first = Ok w -> py_get verts' first = Ok w' ->
  let o := polygonize fuel sw sch dbg verts first cnt holes 0%R t faces us in
  let o' := polygonize fuel sw sch dbg verts' first cnt holes 0%R t' faces us' in
  exists nodes nodes', o_verts o = verts ++ nodes /\ o_verts o' = verts' ++ nodes' /\ Forall2 (fun v v' : vec3 RA => wx v = wx v' /\ wy v = wy v' /\ ((wz v - wz w) * t' = (wz v' - wz w') * t)%R) nodes nodes'.
Proof.
  intros Hv Hu G G'. cbv zeta. assert (N0 : ntruth (0%R : num RA) = false).
  { rewrite ntruth_R. destruct (Reqb_spec 0 0); auto. lra. }
  destruct (run_cases Hv Hu fuel sw sch dbg first cnt holes faces (0%R : num RA) (t : num RA) (0%R : num RA) (t' : num RA)) as [(e & -> & ->)|(z & z' & c & cs & sk & P & P' & _ & -> & ->)].
  { exists [], []. cbn [o_verts]. rewrite !app_nil_r. auto. }
  pose proof P as C. apply prepare_level in P as (v & G1 & ->). apply prepare_level in P' as (v' & G1' & ->).
  assert (v = w) by congruence. assert (v' = w') by congruence. subst v v'.
  exists (map (skeleton_node3D c t (wz w)) sk), (map (skeleton_node3D c t' (wz w')) sk).
  assert (Cz : wz c = 0%R).
  { unfold prepare in C. rewrite G in C. cbn [bind] in C. destruct (poly_center verts first cnt) as [c0|] eqn:PC; cbn [bind] in C; [|discriminate].
    destruct (contour_edges _ _ _ _ _ _ _); cbn [bind] in C; [|discriminate].
    destruct (hole_edges _ _ _ _ _ _); cbn [bind] in C; [|discriminate].
    assert (c0 = c) by congruence. subst c0. unfold poly_center in PC. destruct (sum_verts _ _ _); cbn [bind] in PC; [|discriminate].
    destruct (neqb (rnd (nofZ cnt)) zeroN) in PC; [discriminate|]. apply (f_equal (fun r : res (vec3 RA) => match r with Ok v => wz v | Err _ => 0%R end)) in PC.
    cbn [wz] in PC. rewrite <- PC. rewrite zeroN_R. reflexivity. }
  unfold run_from. rewrite !(slope_tan sk _ N0). split; [destruct (roof_faces _ _ _ _ _ _ _ _ _); [destruct faces|]; auto|].
  split; [destruct (roof_faces _ _ _ _ _ _ _ _ _); [destruct faces|]; auto|].
  clear - Cz. induction sk as [|a sk IH]; cbn [map]; constructor; auto. do 2 (split; [reflexivity|]).
  unfold skeleton_node3D, w_add, mkvec3. cbn [wz wx wy RA rnd nadd nmul]. rewrite Cz. change (num RA) with R in *. ring.
Qed.
