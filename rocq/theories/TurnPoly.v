(** * TurnPoly: polygonize and rotations (over the real numbers) *)

From Coq Require Import ZArith List Lia Bool Reals Lra Psatz Permutation.
From Verif Require Import Py PyFacts Arith ArithR RSpec GeoR Euclid PySort Heapq GraphSpec Graph GraphProofs AngleSpec AngleProofs PolySpec Lav Cluster Poly PolyProofs PolyFaces
  TurnSpec SymLav TurnBase TurnCluster TurnRing.
Set Implicit Arguments.
Unset Strict Implicit.
Local Open Scope R_scope.

Lemma exists_last_or T (l : list T) : l = [] \/ exists m y, l = m ++ [y].
Proof. destruct l as [|x l]; auto. right. destruct (@exists_last T (x :: l)) as (m & y & E); [congruence|eauto]. Qed.

Section Turn.
Variables c s : R.
Hypothesis unit_cs : c * c + s * s = 1.
Notation t := (turned c s).
Notation t3 := (turned3 c s).
Notation te := (turned_edge c s).
Notation tn := (turned_node c s).

(** ** centre and contours *)
Lemma w_sum a b : w_add (t3 a) (t3 b) = t3 (w_add a b).
Proof. unfold w_add, mkvec3, turned3. destruct a as [a1 a2 a3], b as [b1 b2 b3]. cbn [wx wy wz RA rnd nadd]. f_equal; change (num RA) with R in *; ring. Qed.

Lemma w_diff a b : w_sub (t3 a) (t3 b) = t3 (w_sub a b).
Proof. unfold w_sub, mkvec3, turned3. destruct a as [a1 a2 a3], b as [b1 b2 b3]. cbn [wx wy wz RA rnd nsub]. f_equal; change (num RA) with R in *; ring. Qed.

Lemma w_flat a : mkvec (wx (t3 a)) (wy (t3 a)) = t (mkvec (A := RA) (wx a) (wy a)).
Proof. destruct a as [a1 a2 a3]. reflexivity. Qed.

Lemma p_sum vl is : forall acc, sum_verts (map t3 vl) (t3 acc) is = res_map t3 (sum_verts vl acc is).
Proof. induction is as [|i l IH]; intros acc; cbn [sum_verts]; auto. rewrite get_map. destruct (py_get vl i); cbn [res_map bind]; auto. rewrite w_sum. apply IH. Qed.

Lemma p_center vl first cnt : poly_center (map t3 vl) first cnt = res_map t3 (poly_center vl first cnt).
Proof.
  unfold poly_center. replace (mkvec3 zeroN zeroN zeroN) with (t3 (mkvec3 zeroN zeroN zeroN)) at 1.
  2:{ unfold turned3, mkvec3. rewrite zeroN_R. cbn [wx wy wz RA rnd]. f_equal; change (num RA) with R in *; ring. }
  rewrite p_sum. destruct (sum_verts vl _ _) as [v|e]; cbn [res_map bind]; auto. rewrite zeroN_R. cbn [RA neqb].
  destruct (Reqb_spec (rnd (@nofZ RA cnt)) 0) as [K|K]; auto. cbn [res_map]. f_equal. unfold turned3, mkvec3. destruct v as [v1 v2 v3]. cbn [wx wy wz RA rnd ndiv].
  f_equal; change (num RA) with R in *; field; auto.
Qed.

Lemma p_edge id i j u vl ctr : Edge2_idx id i j (option_map t3 u) (map t3 vl) (t3 ctr) = res_map te (Edge2_idx id i j u vl ctr).
Proof.
  unfold Edge2_idx. rewrite !get_map. destruct (py_get vl i) as [a|]; cbn [res_map bind]; auto. destruct (py_get vl j) as [b|]; cbn [res_map bind]; auto.
  rewrite !w_diff, !w_flat. unfold turned_edge. cbn [eid ep1 ep2 enorm ei1 ei2]. f_equal. f_equal.
  destruct u as [u|]; cbn [option_map]; [apply w_flat|]. rewrite t_sub. apply t_normalized; auto.
Qed.

Lemma p_unit us k : opt_unit (option_map (map t3) us) k = res_map (option_map t3) (opt_unit us k).
Proof. destruct us as [us|]; cbn [opt_unit option_map]; auto. rewrite get_map. destruct (py_get us k); auto. Qed.

Lemma p_truthy us : truthy_list (option_map (map t3) us) = option_map (map t3) (truthy_list us).
Proof. destruct us as [[|u us]|]; auto. Qed.

Lemma p_contour vl ctr us u0 id0 first cnt :
  contour_edges (map t3 vl) (t3 ctr) (option_map (map t3) us) u0 id0 first cnt = res_map (map te) (contour_edges vl ctr us u0 id0 first cnt).
Proof.
  unfold contour_edges. cbv zeta.
  rewrite (@mapM_res_map _ _ (fun k : nat => u <- opt_unit us (u0 + Z.of_nat k) ;; Edge2_idx (id0 + k) (first + Z.of_nat k) (first + Z.of_nat k + 1) u vl ctr) _ te).
  2:{ intros k. rewrite p_unit. destruct (opt_unit us _); cbn [res_map bind]; auto. apply p_edge. }
  destruct (mapM _ _) as [body|]; cbn [res_map bind]; auto.
  rewrite p_unit. destruct (opt_unit us _) as [u|]; cbn [res_map bind]; auto. rewrite p_edge. destruct (Edge2_idx _ _ _ _ _ _); cbn [res_map bind]; auto. rewrite map_app. auto.
Qed.

Lemma p_holes vl ctr us holes : forall u0 id0,
  hole_edges (map t3 vl) (t3 ctr) (option_map (map t3) us) u0 id0 holes = res_map (map (map te)) (hole_edges vl ctr us u0 id0 holes).
Proof.
  induction holes as [|[f n] l IH]; intros u0 id0; cbn [hole_edges]; auto. rewrite p_contour.
  destruct (contour_edges _ _ _ _ _ _ _) as [es|]; cbn [res_map bind]; auto. rewrite map_length, IH. destruct (hole_edges _ _ _ _ _ _); auto.
Qed.

Lemma p_prepare vl first cnt holes us :
  prepare (map t3 vl) first cnt holes (option_map (map t3) us) = res_map (fun p => let '(z, ctr, cs) := p in (z, t3 ctr, map (map te) cs)) (prepare vl first cnt holes us).
Proof.
  unfold prepare. rewrite get_map. destruct (py_get vl first) as [v0|]; cbn [res_map bind]; auto.
  rewrite p_center. destruct (poly_center vl first cnt) as [ctr|]; cbn [res_map bind]; auto. cbv zeta. rewrite p_truthy, p_contour.
  destruct (contour_edges _ _ _ _ _ _ _) as [outer|]; cbn [res_map bind]; auto. rewrite map_length, p_holes.
  destruct (hole_edges _ _ _ _ _ _) as [hs|]; cbn [res_map bind]; auto.
Qed.

Lemma p_slope sk hgt tan : slope (map tn sk) hgt tan = slope sk hgt tan.
Proof.
  unfold slope, max_height. destruct (ntruth hgt); auto. rewrite map_map. auto.
Qed.

Lemma p_node ctr ta z a : skeleton_node3D (t3 ctr) ta z (tn a) = t3 (skeleton_node3D ctr ta z a).
Proof.
  unfold skeleton_node3D. rewrite <- w_sum. reflexivity.
Qed.

(** ** the graph *)
Lemma p_sink es sk nr p : sink_index (map te es) (map tn sk) nr (t p) = sink_index es sk nr p.
Proof.
  unfold sink_index.
  assert (E : find (fun e => veq (ep1 e) (t p)) (map te es) = option_map te (find (fun e => veq (ep1 e) p) es)).
  { induction es as [|e es IH]; cbn [map find]; auto. change (ep1 (te e)) with (t (ep1 e)). rewrite t_veq by auto. destruct (veq _ _); auto. }
  rewrite E. destruct (find _ es) as [e|]; cbn [option_map]; auto.
  rewrite (@find_pos_map _ _ tn _ (fun x => veq (source x) p)); auto. intros x. change (source (tn x)) with (t (source x)). apply t_veq; auto.
Qed.

Lemma p_links es sk nr : skeleton_graph_edges (map te es) (map tn sk) nr = skeleton_graph_edges es sk nr.
Proof.
  unfold skeleton_graph_edges. rewrite enumerate_map, flat_map_concat_map, map_map, <- flat_map_concat_map. apply flat_map_ext. intros [i a]. cbn [fst snd].
  change (sinks (tn a)) with (map t (sinks a)). rewrite map_map. apply map_ext. intros p. rewrite p_sink. auto.
Qed.

Lemma p_graph sw first cnt holes es sk nr : build_graph sw first cnt holes (map te es) (map tn sk) nr = build_graph sw first cnt holes es sk nr.
Proof. unfold build_graph. rewrite p_links. auto. Qed.

(** ** spikes and clean-up *)
Lemma w_seg a b : w_xy (w_sub (t3 a) (t3 b)) = t (w_xy (w_sub a b)).
Proof. rewrite w_diff. apply w_flat. Qed.

Lemma p_is_spike vl p : is_spike (map t3 vl) p = is_spike vl p.
Proof.
  destruct p as [[a b] d]. unfold is_spike. rewrite !get_map.
  destruct (py_get vl b); cbn [res_map bind]; auto. destruct (py_get vl a); cbn [res_map bind]; auto. destruct (py_get vl d); cbn [res_map bind]; auto.
  rewrite !w_seg, !t_len, t_dot, t_cross by auto. auto.
Qed.

Lemma p_find_spike vl l : find_spike (map t3 vl) l = find_spike vl l.
Proof. induction l as [|p l IH]; cbn [find_spike]; auto. rewrite p_is_spike. destruct (is_spike vl p) as [[]|]; cbn [bind]; auto. Qed.

Lemma p_spike_pass vl nr faces fis : spike_pass (map t3 vl) nr faces fis = spike_pass vl nr faces fis.
Proof.
  induction fis as [|fi l IH]; cbn [spike_pass]; auto. cbv zeta. destruct (Nat.leb _ 3); auto.
  destruct (circ_prev_this_next _); cbn [bind]; auto. rewrite p_find_spike. destruct (find_spike vl _) as [[[[x y] z]|]|]; cbn [bind]; auto.
  destruct (adjacent_faces _ _ _ _ _ _ _) as [[[r|] [k|]]|]; cbn [bind]; auto.
Qed.

Lemma p_spike_loop vl nr : forall fuel faces, spike_loop fuel (map t3 vl) nr faces = spike_loop fuel vl nr faces.
Proof. induction fuel as [|f IH]; cbn [spike_loop]; intros faces; auto. rewrite p_spike_pass. destruct (spike_pass vl _ _ _) as [[fs|]|]; cbn [bind]; auto. Qed.

Lemma p_parallel_at vl counts nr acc p : parallel_at (map t3 vl) counts nr acc p = parallel_at vl counts nr acc p.
Proof.
  destruct p as [[a b] d]. unfold parallel_at. destruct (_ && _)%bool; auto. rewrite !get_map.
  destruct (py_get vl b); cbn [res_map bind]; auto. destruct (py_get vl a); cbn [res_map bind]; auto. destruct (py_get vl d); cbn [res_map bind]; auto.
  cbv zeta. rewrite !w_diff, !w_flat, !t_len, t_dot by auto. auto.
Qed.

Lemma p_scan vl counts nr l : forall acc, parallel_scan (map t3 vl) counts nr acc l = parallel_scan vl counts nr acc l.
Proof. induction l as [|p l IH]; cbn [parallel_scan]; intros acc; auto. rewrite p_parallel_at. destruct (parallel_at vl counts nr acc p); cbn [bind]; auto. Qed.

Lemma p_clean vl nr faces : clean_faces (map t3 vl) nr faces = clean_faces vl nr faces.
Proof.
  unfold clean_faces. apply mapM_ext. intros f _. unfold fix_parallel. destruct (Nat.ltb 3 (length f)); auto.
  destruct (circ_prev_this_next f); cbn [bind]; auto. rewrite p_scan. auto.
Qed.

Lemma p_faces sw sch vl first cnt holes es sk nr g : build_graph sw first cnt holes es sk nr = Ok g -> NoDup (map fst g) -> (forall v ns, In (v, ns) g -> fan vl v ns) ->
  roof_faces sw sch (map t3 vl) first cnt holes (map te es) (map tn sk) nr = roof_faces sw sch vl first cnt holes es sk nr.
Proof.
  intros G N F. unfold roof_faces. rewrite p_graph, G. cbn [bind]. destruct (turned_embedding unit_cs N F) as (emb & emb' & E & E' & S). rewrite E, E'. cbn [bind].
  rewrite (@graph_faces_ext emb emb' sch g nr S). destruct (graph_faces sch g emb nr); cbn [bind]; auto.
  unfold remove_spikes. rewrite p_spike_loop. destruct (spike_loop _ _ _ _); cbn [bind]; auto. apply p_clean.
Qed.

(** ** the lines of the specification are those of the graph *)
Lemma dart_list_combine f x l : dart_list f (x :: l) = combine (x :: l) (l ++ [f]).
Proof. revert x. induction l as [|y l IH]; intros x; auto. cbn [dart_list app combine]. f_equal. apply IH. Qed.

Lemma combine_snoc S T (l : list S) (m : list T) x y : length l = length m -> combine (l ++ [x]) (m ++ [y]) = combine l m ++ [(x, y)].
Proof. revert m. induction l as [|a l IH]; intros [|b m] H; cbn [length] in H; try discriminate; auto. cbn [app combine]. f_equal. apply IH. lia. Qed.

Lemma circ_perm (l : list Z) : l <> [] -> exists pn, circ_prev_next l = Ok pn /\ Permutation (darts_of l) pn.
Proof.
  destruct l as [|x l]; [congruence|]. intros _. cbn [darts_of circ_prev_next]. rewrite dart_list_combine. eexists. split; [reflexivity|].
  destruct (@exists_last_or Z l) as [->|(m & y & ->)].
  - cbn. auto.
  - replace (last (x :: m ++ [y]) x) with y by (change (x :: m ++ [y]) with ((x :: m) ++ [y]); rewrite last_last; auto).
    change (x :: m ++ [y]) with ((x :: m) ++ [y]). rewrite removelast_last.
    rewrite combine_snoc by (rewrite app_length; cbn [length]; lia). cbn [app combine].
    apply Permutation_sym, Permutation_cons_append.
Qed.
End Turn.

Lemma joins_perm es es' a b : Permutation es es' -> multiplicity es a b = multiplicity es' a b.
Proof.
  intros P. unfold multiplicity. destruct (a =? b)%Z; auto. induction P; cbn [filter]; auto; try congruence.
  - destruct (joins a b x); cbn [length]; auto.
  - destruct (joins a b x), (joins a b y); auto.
Qed.

Lemma between_perm es es' a b : Permutation es es' -> has_edge_between es a b -> has_edge_between es' a b.
Proof. intros P [N [H|H]]; split; auto; [left|right]; eapply Permutation_in; eauto. Qed.

Lemma all_links_range sk : forall n i a p, In (i, a, p) (all_links n sk) -> (n <= i < n + Z.of_nat (length sk))%Z.
Proof.
  induction sk as [|b sk IH]; intros n i a p H; cbn [all_links] in H; [destruct H|]. cbn [length]. apply in_app_or in H as [H|H].
  - apply in_map_iff in H as (q & E & _). injection E as <- _ _. lia.
  - apply IH in H. lia.
Qed.

Lemma map_of_rel S T U (R : T -> U -> Prop) (f : S -> T) (g : S -> U) ps l : Forall2 R (map f ps) l -> (forall p e, R (f p) e -> g p = e) -> map g ps = l.
Proof. revert l. induction ps as [|p ps IH]; intros l F H; inversion F; subst; auto. cbn [map]. f_equal; auto. Qed.

Section Lines.
Variables (verts V : list (vec3 RA)) (first cnt : Z) (holes : list (Z * Z)) (sk : list (@subtree RA)) (center : vec3 RA) (ta z : num RA) (contours : list (list (@edge2 RA))).
Hypothesis first0 : (0 <= first)%Z.
Hypothesis cnt1 : (1 <= cnt)%Z.
Hypothesis hole1 : forall h, In h holes -> (0 <= fst h /\ 1 <= snd h)%Z.
Hypothesis rings : Forall2 (fun b es => ring_of verts center (fst b) (snd b) es) ((first, cnt) :: holes) contours.
Let n := Z.of_nat (length verts).
Hypothesis HV : V = verts ++ map (skeleton_node3D center ta z) sk.
Hypothesis apart : forall i j p q, roof_vertex n first cnt holes (length sk) i -> roof_vertex n first cnt holes (length sk) j -> i <> j ->
     py_get V i = Ok p -> py_get V j = Ok q -> wx p <> wx q \/ wy p <> wy q.

(** every vertex of a block is an end of an edge *)
Lemma block_edge i : in_blocks first cnt holes i -> exists e, In e (concat contours) /\ ei1 e = i /\ local_pos verts center i (ep1 e) /\ (0 <= i < n)%Z.
Proof.
  intros Hi. assert (B : exists b, In b ((first, cnt) :: holes) /\ (0 <= fst b /\ 1 <= snd b)%Z /\ (fst b <= i < fst b + snd b)%Z).
  { destruct Hi as [Hi|(h & Hh & Hi)]; [exists (first, cnt); repeat split; simpl; auto; apply Hi|exists h; repeat split; simpl; auto; try apply hole1; auto; apply Hi]. }
  destruct B as (b & Hb & [B0 B1] & B2). destruct (Forall2_In_l _ rings Hb) as (es & Hes & [L R]).
  destruct (R (Z.to_nat (i - fst b))) as (e & e' & E1 & _ & E2 & _ & _ & E3); [lia|]. rewrite Z2Nat.id in E2 by lia.
  assert (Ei : ei1 e = i) by lia. exists e. split; [apply in_concat; exists es; split; auto; eapply nth_error_In; eauto|]. rewrite Ei in E3. repeat split; auto; [lia|].
  apply local_pos_valid in E3; [exact E3|lia].
Qed.

Lemma block_place i p : in_blocks first cnt holes i -> local_pos verts center i p -> exists v, py_get V i = Ok v /\ wx v = vx p + wx center /\ wy v = vy p + wy center.
Proof.
  intros Hi (v & G & ->). destruct (block_edge Hi) as (_ & _ & _ & _ & B). exists v. split.
  - rewrite HV, py_get_nonneg by lia. rewrite py_get_nonneg in G by lia. rewrite nth_error_app1 by (unfold n in B; lia). auto.
  - destruct v as [v1 v2 v3]. unfold w_sub, mkvec3, mkvec. cbn [wx wy vx vy RA rnd nsub]. change (num RA) with R in *. split; ring.
Qed.

Lemma node_place i a : nth_error sk i = Some a -> exists v, py_get V (Z.of_nat i + n) = Ok v /\ wx v = vx (source a) + wx center /\ wy v = vy (source a) + wy center.
Proof.
  intros Ha. exists (skeleton_node3D center ta z a). split.
  - rewrite HV, py_get_nonneg by (unfold n; lia). replace (Z.to_nat (Z.of_nat i + n)) with (length verts + i)%nat by (unfold n; lia).
    rewrite nth_error_app2 by lia. replace (length verts + i - length verts)%nat with i by lia. rewrite nth_error_map, Ha. auto.
  - unfold skeleton_node3D, w_add, mkvec3. cbn [wx wy vx vy RA rnd nadd]. change (num RA) with R in *. split; ring.
Qed.

Lemma vertex_place j : roof_vertex n first cnt holes (length sk) j -> exists v, py_get V j = Ok v.
Proof.
  intros [H|H].
  - destruct (block_edge H) as (e & _ & _ & L & _). destruct (block_place H L) as (v & G & _). eauto.
  - destruct (nth_error sk (Z.to_nat (j - n))) as [a|] eqn:E; [|apply nth_error_None in E; lia].
    destruct (node_place E) as (v & G & _). rewrite Z2Nat.id in G by lia. replace (j - n + n)%Z with j in G by lia. eauto.
Qed.

Lemma sink_found i a p j : nth_error sk i = Some a -> roof_vertex n first cnt holes (length sk) j -> link_ends V (Z.of_nat i + n) a p j ->
  sink_index (concat contours) sk n p = j.
Proof.
  intros Ha Hj (vi & vj & Gi & Gj & X & Y). destruct (node_place Ha) as (v & G & Nx & Ny). rewrite Gi in G. apply Ok_inj in G. subst v.
  assert (W : wx vj = vx p + wx center /\ wy vj = vy p + wy center) by (change (num RA) with R in *; lra). clear X Y Nx Ny Gi vi.
  assert (U : forall k v, roof_vertex n first cnt holes (length sk) k -> py_get V k = Ok v -> wx v = vx p + wx center -> wy v = vy p + wy center -> k = j).
  { intros k v Hk G X Y. destruct (Z.eq_dec k j) as [|K]; auto. exfalso. destruct (apart Hk Hj K G Gj); change (num RA) with R in *; lra. }
  destruct (sink_index_cases (concat contours) sk n p) as [(e & H1 & H2 & ->)|[(k & b & H1 & H2 & ->)|(_ & H2)]].
  - apply veq_R in H2. destruct (rings_index _ rings H1) as [I L]. destruct (block_place I L) as (v & G & X & Y). rewrite H2 in X, Y. apply (U (ei1 e) v); auto. left; auto.
  - apply veq_R in H2. destruct (node_place H1) as (v & G & X & Y). rewrite H2 in X, Y. apply (U _ v); auto. right. assert (k < length sk)%nat by (apply nth_error_Some; congruence). lia.
  - exfalso. apply H2. destruct Hj as [Hj|Hj].
    + left. destruct (block_edge Hj) as (e & He & Ei & L & _). exists e. split; auto. apply veq_R. destruct (block_place Hj L) as (v & G & X & Y). rewrite Gj in G. apply Ok_inj in G. subst v.
      apply vec_ext; change (num RA) with R in *; lra.
    + right. destruct (nth_error sk (Z.to_nat (j - n))) as [b|] eqn:E; [|apply nth_error_None in E; lia]. exists b. split; [eapply nth_error_In; eauto|]. apply veq_R.
      destruct (node_place E) as (v & G & X & Y). rewrite Z2Nat.id in G by lia. replace (j - n + n)%Z with j in G by lia. rewrite Gj in G. apply Ok_inj in G. subst v.
      apply vec_ext; change (num RA) with R in *; lra.
Qed.

Lemma links_eq links : Forall2 (fun q e => let '(i, a, p) := q in fst e = i /\ roof_vertex n first cnt holes (length sk) (snd e) /\ link_ends V i a p (snd e)) (all_links n sk) links ->
  skeleton_graph_edges (concat contours) sk n = links.
Proof.
  intros H. unfold skeleton_graph_edges, enumerate.
  assert (Q : forall l k, (forall i a, nth_error l i = Some a -> nth_error sk (k + i)%nat = Some a) -> forall ls,
    Forall2 (fun q e => let '(i, a, p) := q in fst e = i /\ roof_vertex n first cnt holes (length sk) (snd e) /\ link_ends V i a p (snd e)) (all_links (Z.of_nat k + n) l) ls ->
    flat_map (fun ia : nat * @subtree RA => map (fun p => ((Z.of_nat (fst ia) + n)%Z, sink_index (concat contours) sk n p)) (sinks (snd ia))) (combine (seq k (length l)) l) = ls).
  { induction l as [|a l IH]; intros k Hk ls F; cbn [all_links] in F; [inversion F; auto|]. cbn [length seq combine flat_map fst snd].
    apply Forall2_app_inv_l in F as (l1 & l2 & F1 & F2 & ->). f_equal.
    - assert (Ha : nth_error sk k = Some a) by (rewrite <- (Nat.add_0_r k); apply Hk; auto).
      apply (@map_of_rel _ _ _ _ _ _ _ _ F1). intros p [e1 e2] (Q1 & Q2 & Q3). cbn [fst snd] in *. rewrite Q1. f_equal. apply (@sink_found k a p e2); auto.
    - apply (IH (S k)); [intros i b Hi; replace (S k + i)%nat with (k + S i)%nat by lia; apply Hk; auto|].
      replace (Z.of_nat (S k) + n)%Z with (Z.of_nat k + n + 1)%Z by lia. auto. }
  apply (Q sk 0%nat); auto.
Qed.

Lemma clear_fan es sw : roof_lines V n first cnt holes sk es -> no_parallel_edges es ->
  (forall v a b, has_edge_between es v a -> has_edge_between es v b -> a <> b -> ~ same_ray V v a b) ->
  exists g, build_graph sw first cnt holes (concat contours) sk n = Ok g /\ NoDup (map fst g) /\ forall v ns, In (v, ns) g -> fan V v ns.
Proof.
  intros (links & -> & HL) Simple Rays. pose proof HL as HL0. apply links_eq in HL.
  destruct (@circ_perm (zrange first (first + cnt))) as (outer & Ho & Po).
  { intros K. assert (In first (zrange first (first + cnt))) by (apply In_zrange; lia). rewrite K in H. destruct H. }
  assert (Hh : exists hs, mapM (fun h => contour_graph_edges (fst h) (snd h)) holes = Ok hs /\ Permutation (concat (map (fun h => darts_of (zrange (fst h) (fst h + snd h))) holes)) (concat hs)).
  { clear - hole1. induction holes as [|h l IH]; [exists []; auto|]. destruct IH as (hs & H1 & H2); [intros; apply hole1; simpl; auto|].
    destruct (@circ_perm (zrange (fst h) (fst h + snd h))) as (o & Ho & Po).
    { intros K. pose proof (hole1 (or_introl eq_refl)). assert (I : In (fst h) (zrange (fst h) (fst h + snd h))) by (apply In_zrange; lia). rewrite K in I. destruct I. }
    exists (o :: hs). cbn [mapM map concat]. unfold contour_graph_edges in *. rewrite Ho. cbn [bind]. rewrite H1. cbn [bind]. split; auto. apply Permutation_app; auto. }
  destruct Hh as (hs & Hh & Ph).
  assert (P : Permutation (darts_of (zrange first (first + cnt)) ++ concat (map (fun h => darts_of (zrange (fst h) (fst h + snd h))) holes) ++ links) (outer ++ concat hs ++ links)).
  { apply Permutation_app; auto. apply Permutation_app; auto. }
  exists (build sw (outer ++ concat hs ++ links)).
  assert (G : build_graph sw first cnt holes (concat contours) sk n = Ok (build sw (outer ++ concat hs ++ links))).
  { unfold build_graph, contour_graph_edges at 1. rewrite Ho. cbn [bind]. rewrite Hh. cbn [bind]. rewrite HL. auto. }
  split; [auto|split; [apply keys_build|]]. intros v ns Hv.
  assert (En : ns = neighbours (build sw (outer ++ concat hs ++ links)) v).
  { unfold neighbours. apply In_dict_find in Hv; [|apply keys_build]. rewrite Hv. auto. }
  subst ns. split; [|split].
  - apply NoDup_neighbours. intros a b. rewrite <- (joins_perm a b P). apply Simple.
  - intros w Hw. pose proof Hw as Hw2. apply In_neighbours_build in Hw2 as [Nvw _].
    assert (E : forall a b, In (a, b) (outer ++ concat hs ++ links) -> roof_vertex n first cnt holes (length sk) a /\ roof_vertex n first cnt holes (length sk) b).
    { intros a b I. apply in_app_or in I as [I|I]; [|apply in_app_or in I as [I|I]].
      - destruct (contour_graph_edges_in first cnt _ _ Ho I). split; left; left; auto.
      - apply in_concat in I as (l & Hl & I). apply mapM_ok in Hh. destruct (Forall2_In_r _ Hh Hl) as (h & Hin & Eh). destruct (contour_graph_edges_in _ _ _ _ Eh I). split; left; right; eauto.
      - apply (Forall2_In_r _ HL0) in I as ([[i x] p] & I & J1 & J2 & _). cbn [fst snd] in *. split; auto. right. subst i. apply all_links_range in I. auto. }
    assert (B : roof_vertex n first cnt holes (length sk) v /\ roof_vertex n first cnt holes (length sk) w).
    { apply In_neighbours_build in Hw as [_ [I|I]]; apply E in I; tauto. }
    destruct B as [Rv Rw].
    destruct (vertex_place Rv) as (pv & Gv). destruct (vertex_place Rw) as (pw & Gw). pose proof (apart Rv Rw Nvw Gv Gw) as D.
    destruct (@polar_exists (V3 (A := RA) (wx pw - wx pv) (wy pw - wy pv) 0)) as (th & Th).
    { cbn [wx wy]. change (num RA) with R in *. destruct D; [left|right]; lra. }
    exists th, pv, pw, (V3 (A := RA) (wx pw - wx pv) (wy pw - wy pv) 0). auto.
  - intros a b Ha Hb. apply In_neighbours_build in Ha, Hb. apply Rays; [apply (between_perm (Permutation_sym P) Ha)|apply (between_perm (Permutation_sym P) Hb)].
Qed.
End Lines.

Section Roof.
Variables c s : R.
Hypothesis unit_cs : c * c + s * s = 1.
Notation t3 := (turned3 c s).
Notation te := (turned_edge c s).
Notation tn := (turned_node c s).

(** what the event loop produces has no two nodes that nearly coincide *)
Definition apart_nodes fuel (verts : list (vec3 RA)) first cnt holes us : Prop := forall z ctr contours raw,
  prepare verts first cnt holes us = Ok (z, ctr, contours) -> raw_skeleton fuel contours = Ok raw -> nodes_apart raw.

Lemma turned_nodes fuel sw sch dbg verts first cnt holes hgt tan faces us : quarter_turn c s \/ apart_nodes fuel verts first cnt holes us ->
  let o := polygonize fuel sw sch dbg verts first cnt holes hgt tan faces us in
  let o' := polygonize fuel sw sch dbg (map t3 verts) first cnt holes hgt tan faces (option_map (map t3) us) in
  o_verts o' = map t3 (o_verts o) /\ o_debug o' = option_map (map tn) (o_debug o).
Proof.
  intros H. cbv zeta. unfold polygonize. rewrite p_prepare by auto. destruct (prepare verts first cnt holes us) as [[[z ctr] cs]|e] eqn:P; cbn [res_map bind]; [|cbn [o_verts o_debug]; auto].
  rewrite (@t_skeleton c s unit_cs) by (destruct H as [H|H]; [left; auto|right; intros raw Hr; apply (H z ctr cs raw); auto]).
  destruct (skeletonize fuel cs) as [sk|e]; cbn [res_map bind]; [|cbn [o_verts o_debug]; auto].
  rewrite p_slope. destruct (slope sk hgt tan) as [ta|e]; [|cbn [o_verts o_debug]; destruct dbg; auto].
  assert (E : map t3 verts ++ map (skeleton_node3D (t3 ctr) ta z) (map tn sk) = map t3 (verts ++ map (skeleton_node3D ctr ta z) sk)).
  { rewrite map_app, !map_map. f_equal. apply map_ext. intros a. apply p_node; auto. }
  rewrite E. destruct (roof_faces _ _ (map t3 _) _ _ _ _ _ _); destruct (roof_faces _ _ _ _ _ _ _ _ _); destruct faces, dbg; cbn [o_verts o_debug]; auto.
Qed.

Lemma turned_faces fuel sw sch verts first cnt holes hgt tan faces us sk : quarter_turn c s \/ apart_nodes fuel verts first cnt holes us ->
  (0 <= first)%Z -> (1 <= cnt)%Z -> (forall h, In h (match holes with Some h => h | None => [] end) -> 0 <= fst h /\ 1 <= snd h)%Z ->
  let o := polygonize fuel sw sch true verts first cnt holes hgt tan faces us in
  let o' := polygonize fuel sw sch true (map t3 verts) first cnt holes hgt tan faces (option_map (map t3) us) in
  o_debug o = Some sk -> clear_roof (o_verts o) (Z.of_nat (length verts)) first cnt (match holes with Some h => h | None => [] end) sk ->
  o_result o' = o_result o /\ o_faces o' = o_faces o.
Proof.
  intros H F0 C1 H1. cbv zeta. unfold polygonize. rewrite p_prepare by auto. set (hs := match holes with Some h => h | None => [] end) in *.
  destruct (prepare verts first cnt holes us) as [[[z ctr] cs]|e] eqn:P; cbn [res_map bind]; [|cbn [o_result o_faces]; auto].
  rewrite (@t_skeleton c s unit_cs) by (destruct H as [H|H]; [left; auto|right; intros raw Hr; apply (H z ctr cs raw); auto]).
  destruct (skeletonize fuel cs) as [sk0|e]; cbn [res_map bind]; [|cbn [o_result o_faces]; auto].
  rewrite p_slope. destruct (slope sk0 hgt tan) as [ta|e]; [|cbn [o_result o_faces]; auto].
  assert (E : map t3 verts ++ map (skeleton_node3D (t3 ctr) ta z) (map tn sk0) = map t3 (verts ++ map (skeleton_node3D ctr ta z) sk0)).
  { rewrite map_app, !map_map. f_equal. apply map_ext. intros a. apply p_node; auto. }
  rewrite E, map_length, <- concat_map. clear E. set (V := verts ++ map (skeleton_node3D ctr ta z) sk0).
  intros D K.
  assert (K' : o_debug
      match roof_faces sw sch V first cnt hs (concat cs) sk0 (Z.of_nat (length verts)) with
      | Ok fs => match faces with Some old => Outcome V (Some (old ++ fs)) (Some sk0) (Ok (old ++ fs)) | None => Outcome V None (Some sk0) (Ok fs) end
      | Err e => Outcome V faces (Some sk0) (Err e) end = Some sk0 /\ o_verts
      match roof_faces sw sch V first cnt hs (concat cs) sk0 (Z.of_nat (length verts)) with
      | Ok fs => match faces with Some old => Outcome V (Some (old ++ fs)) (Some sk0) (Ok (old ++ fs)) | None => Outcome V None (Some sk0) (Ok fs) end
      | Err e => Outcome V faces (Some sk0) (Err e) end = V).
  { destruct (roof_faces _ _ _ _ _ _ _ _ _); [destruct faces|]; auto. }
  destruct K' as [K1 K2]. rewrite K1 in D. injection D as <-. rewrite K2 in K. destruct K as [Ap (es & L & S & R)].
  assert (Rg : Forall2 (fun b es => ring_of verts ctr (fst b) (snd b) es) ((first, cnt) :: hs) cs) by (apply (@prepare_rings _ verts first cnt holes us z ctr cs); auto; intros h Hh; apply H1; auto).
  destruct (@clear_fan verts V first cnt hs sk0 ctr ta z cs F0 C1 H1 Rg eq_refl Ap es sw L S R) as (g & G & N & Fan).
  rewrite (@p_faces c s unit_cs sw sch V first cnt hs (concat cs) sk0 (Z.of_nat (length verts)) g G N Fan).
  destruct (roof_faces _ _ _ _ _ _ _ _ _); [destruct faces|]; auto.
Qed.
End Roof.
