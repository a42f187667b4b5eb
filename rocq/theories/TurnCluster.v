(** * TurnCluster: patterns, merging and ghost removal of a turned contour *)

From Coq Require Import ZArith List Lia Bool Reals Lra Psatz.
From Verif Require Import Py PyFacts Arith ArithR GeoR GeoLines Euclid Heapq Lav Cluster ClusterSpec MergeProofs MergeExact MergeR TurnSpec SymLav TurnBase.
Set Implicit Arguments.
Unset Strict Implicit.
Local Open Scope R_scope.

Section Turn.
Variables c s : R.
Hypothesis unit_cs : c * c + s * s = 1.
Notation t := (turned c s).
Notation te := (turned_edge c s).
Notation tn := (turned_node c s).
Notation quarter := (quarter_turn c s).

(** ** the event loop *)
Lemma turn_laws : sym_laws t (fun i => i).
Proof.
  constructor; auto using t_add, t_sub, t_neg, t_scale, t_dot, t_cross, t_len, t_len2, t_normalized, t_veq, t_dummy, t_approx.
  - intros a b. apply (t_intersect unit_cs).
  - intros l p. apply (t_distance unit_cs).
Qed.

Theorem t_raw fuel cs : raw_skeleton fuel (map (map te) cs) = res_map (map tn) (raw_skeleton fuel cs).
Proof. exact (SymLav.t_raw turn_laws fuel cs). Qed.

(** ** circles *)
Definition tc (z : @cpx RA) : @cpx RA := C (A := RA) (c * re z - s * im z) (s * re z + c * im z).

Lemma cpx_ext (a b : @cpx RA) : re a = re b -> im a = im b -> a = b.
Proof. destruct a, b. cbn. intros; subst; auto. Qed.

Lemma cnorm_t b : cnorm2 (tc b) = cnorm2 b.
Proof.
  unfold cnorm2, tc. cbn [re im]. change (num RA) with R in *. generalize (re b : R) as x, (im b : R) as y. change (num RA) with R. intros x y.
  replace ((c * x - s * y) * (c * x - s * y) + (s * x + c * y) * (s * x + c * y)) with ((c * c + s * s) * (x * x + y * y)) by ring. rewrite unit_cs. ring.
Qed.

Lemma cdiv_both a b : cdiv (tc a) (tc b) = cdiv a b.
Proof.
  destruct (cdiv_R a b) as [H1 H2], (cdiv_R (tc a) (tc b)) as [G1 G2]. rewrite cnorm_t in G1, G2. destruct (Req_dec (cnorm2 b) 0) as [K|K].
  - rewrite H1, G1 by auto. auto.
  - rewrite H2, G2 by auto. f_equal. assert (E1 : re (tc a) * re (tc b) + im (tc a) * im (tc b) = re a * re b + im a * im b).
    { unfold tc. cbn [re im]. change (num RA) with R in *. generalize (re a : R) as x, (im a : R) as y, (re b : R) as z, (im b : R) as w. change (num RA) with R. intros x y z w.
      replace ((c * x - s * y) * (c * z - s * w) + (s * x + c * y) * (s * z + c * w)) with ((c * c + s * s) * (x * z + y * w)) by ring. rewrite unit_cs. ring. }
    assert (E2 : im (tc a) * re (tc b) - re (tc a) * im (tc b) = im a * re b - re a * im b).
    { unfold tc. cbn [re im]. change (num RA) with R in *. generalize (re a : R) as x, (im a : R) as y, (re b : R) as z, (im b : R) as w. change (num RA) with R. intros x y z w.
      replace ((s * x + c * y) * (c * z - s * w) - (c * x - s * y) * (s * z + c * w)) with ((c * c + s * s) * (y * z - x * w)) by ring. rewrite unit_cs. ring. }
    change (num RA) with R in *. rewrite E1, E2. auto.
Qed.

Lemma cdiv_left a b : cdiv (tc a) b = res_map tc (cdiv a b).
Proof.
  destruct (cdiv_R a b) as [H1 H2], (cdiv_R (tc a) b) as [G1 G2]. destruct (Req_dec (cnorm2 b) 0) as [K|K].
  - rewrite H1, G1 by auto. auto.
  - rewrite H2, G2 by auto. cbn [res_map]. f_equal. unfold tc. cbn [re im]. change (num RA) with R in *. apply cpx_ext; cbn [re im]; change (num RA) with R in *; field; auto.
Qed.

Lemma csub_t a b : csub (tc a) (tc b) = tc (csub a b).
Proof. unfold csub, tc. cbn [re im RA nsub]. apply cpx_ext; cbn [re im]; change (num RA) with R in *; ring. Qed.

Lemma cmul_t a b : cmul (tc a) b = tc (cmul a b).
Proof. unfold cmul, tc. cbn [re im RA nsub nadd nmul]. apply cpx_ext; cbn [re im]; change (num RA) with R in *; ring. Qed.

Lemma cabs_t a : cabs (tc a) = cabs a.
Proof. pose proof (cnorm_t a) as H. unfold cnorm2 in H. unfold cabs. cbn [RA nsqrt nadd nmul]. change (num RA) with R in *. rewrite H. auto. Qed.

Lemma cadd_t a b : cadd (tc a) (tc b) = tc (cadd a b).
Proof. unfold cadd, tc. cbn [re im RA nadd]. apply cpx_ext; cbn [re im]; change (num RA) with R in *; ring. Qed.

Lemma t_circle pts : fitCircle3Points (map t pts) = res_map (fun p => (t (fst p), snd p)) (fitCircle3Points pts).
Proof.
  unfold fitCircle3Points. rewrite !get_map, map_length. destruct (py_get pts 0) as [p0|]; cbn [res_map bind]; auto.
  destruct (py_get pts (Z.of_nat (length pts) / 2)) as [pm|]; cbn [res_map bind]; auto. destruct (py_get pts (-1)) as [pl|]; cbn [res_map bind]; auto. cbv zeta.
  assert (E : forall p : vec RA, C (A := RA) (vx (t p)) (vy (t p)) = tc (C (A := RA) (vx p) (vy p))) by reflexivity. rewrite !E, !csub_t, cdiv_both.
  destruct (cdiv (csub (C (vx pl) (vy pl)) _) _) as [w|]; cbn [res_map bind]; auto. rewrite cmul_t, cdiv_left. destruct (cdiv (cmul _ _) _) as [q1|]; cbn [res_map bind]; auto.
  rewrite cdiv_left. destruct (cdiv q1 _) as [q2|]; cbn [res_map bind]; auto. rewrite csub_t, cadd_t, cabs_t. cbn [fst snd]. f_equal. f_equal.
  rewrite t_mkvec. unfold tc. cbn [re im RA nneg]. change (num RA) with R in *. f_equal; ring.
Qed.

Lemma t_apses k : detectApses (map te k) = res_map (option_map (map t)) (detectApses k).
Proof.
  unfold detectApses, apse_sequence. rewrite circ_map. destruct (circ_prev_next k) as [pn|]; cbn [res_map bind]; auto. rewrite map_map.
  assert (E : map (fun x : @edge2 RA * @edge2 RA => low_angle (te (fst x), te (snd x))) pn = map low_angle pn).
  { apply map_ext. intros [a b]. unfold low_angle. cbn [fst snd]. change (enorm (te a)) with (t (enorm a)). change (enorm (te b)) with (t (enorm b)). rewrite t_cross by auto. auto. }
  rewrite E. clear E. destruct (forallb _ _); auto. cbv zeta. destruct (runs 0 0 _) as [|m ms]; auto.
  rewrite (@mapM_res_map _ _ (fun se : nat * nat => vs <- mapM (fun i => e <- of_option IndexError (nth_error k (Nat.modulo i (length (map low_angle pn)))) ;; Ok (ep1 e)) (seq (fst se) (snd se - fst se)) ;;
              c <- fitCircle3Points vs ;; Ok (fst c)) _ t).
  2:{ intros se. rewrite (@mapM_res_map _ _ (fun i => e <- of_option IndexError (nth_error k (Nat.modulo i (length (map low_angle pn)))) ;; Ok (ep1 e)) _ t).
      - destruct (mapM _ _) as [vs|]; cbn [res_map bind]; auto. rewrite t_circle. destruct (fitCircle3Points vs); auto.
      - intros i. rewrite nth_error_map. destruct (nth_error k _); auto. }
  destruct (mapM _ _); auto.
Qed.

(** ** merging *)


Lemma t_manhattan a b : quarter -> manhattan (t a) (t b) = manhattan a b.
Proof.
  intros Q. unfold manhattan, turned. cbn [vx vy RA nsub nabs nadd]. change (num RA) with R in *. generalize (vx a : R) as x, (vy a : R) as y, (vx b : R) as z, (vy b : R) as w.
  change (num RA) with R. intros x y z w.
  replace (c * x - s * y - (c * z - s * w)) with (c * (x - z) - s * (y - w)) by ring. replace (s * x + c * y - (s * z + c * w)) with (s * (x - z) + c * (y - w)) by ring.
  generalize (x - z) as d, (y - w) as e. intros d e. destruct Q as [Q|Q].
  - assert (H : s = 1 \/ s = -1) by (rewrite Q in unit_cs; assert ((s - 1) * (s + 1) = 0) by lra; apply Rmult_integral in H as [H|H]; [left|right]; lra).
    rewrite Q. destruct H as [-> | ->]; unfold Rabs; repeat destruct (Rcase_abs _); lra.
  - assert (H : c = 1 \/ c = -1) by (rewrite Q in unit_cs; assert ((c - 1) * (c + 1) = 0) by lra; apply Rmult_integral in H as [H|H]; [left|right]; lra).
    rewrite Q. destruct H as [-> | ->]; unfold Rabs; repeat destruct (Rcase_abs _); lra.
Qed.

Lemma tn_dummy : tn dummy_subtree = dummy_subtree.
Proof. unfold turned_node, dummy_subtree. cbn [source height sinks map]. rewrite t_dummy. auto. Qed.

Lemma t_arc sk i : get_arc (map tn sk) i = tn (get_arc sk i).
Proof. unfold get_arc. rewrite <- tn_dummy at 1. apply map_nth. Qed.

Lemma t_union l : forall q, fold_left (fun l s => if py_in veq s l then l else l ++ [s]) (map t l) (map t q) =
  map t (fold_left (fun l s => if py_in veq s l then l else l ++ [s]) l q).
Proof.
  induction l as [|x l IH]; intros q; cbn [map fold_left]; auto. rewrite t_in by auto. destruct (py_in veq x q); [apply IH|]. change [t x] with (map t [x]). rewrite <- map_app. apply IH.
Qed.

Lemma t_add_node acc p : add_node (map tn acc) (tn p) = map tn (add_node acc p).
Proof.
  induction acc as [|q acc IH]; cbn [map add_node]; auto. change (source (tn q)) with (t (source q)). change (source (tn p)) with (t (source p)).
  rewrite t_same_coords by auto. destruct (same_coords _ _); cbn [map].
  - f_equal. unfold with_sinks. cbn [turned_node source height sinks]. rewrite t_union. auto.
  - rewrite IH. auto.
Qed.

Lemma t_same sk : merge_same_sources (map tn sk) = map tn (merge_same_sources sk).
Proof.
  unfold merge_same_sources. change (@nil (@subtree RA)) with (map tn []) at 1. generalize (@nil (@subtree RA)). induction sk as [|p sk IH]; intros acc; cbn [map fold_left]; auto.
  rewrite t_add_node. apply IH.
Qed.

Lemma t_flat_sinks (p q : vec RA -> bool) sk cl : (forall x, p (t x) = q x) ->
  flat_map (fun node => filter p (sinks (get_arc (map tn sk) node))) cl = map t (flat_map (fun node => filter q (sinks (get_arc sk node))) cl).
Proof.
  intros H. induction cl as [|n cl IH]; cbn [flat_map]; auto. rewrite map_app, IH, t_arc. f_equal. cbn [turned_node sinks]. apply filter_map_f; auto.
Qed.

Lemma t_contour_sinks sk cv cl : contour_sinks (map tn sk) (map t cv) cl = map t (contour_sinks sk cv cl).
Proof. unfold contour_sinks. apply t_flat_sinks. intros x. apply t_in; auto. Qed.

Lemma t_nr_sinks sk cv cl : nr_contour_sinks (map tn sk) (map t cv) cl = nr_contour_sinks sk cv cl.
Proof.
  unfold nr_contour_sinks. generalize 0%nat. induction cl as [|n cl IH]; intros k; cbn [fold_left]; auto. rewrite IH. f_equal. f_equal. rewrite t_arc. cbn [turned_node sinks].
  apply count_map_f. intros x. apply t_in; auto.
Qed.

Lemma t_min_pair ini l : min_pair_dist (A := RA) ini (map t l) = min_pair_dist (A := RA) ini l.
Proof.
  unfold min_pair_dist. rewrite combinations_map. revert ini. induction (combinations2 l) as [|p ps IH]; intros ini; cbn [map fold_left]; auto. cbn [fst snd]. rewrite t_sub, t_len by auto. apply IH.
Qed.

Lemma t_near_apse sk cs cl : quarter -> near_apse (map tn sk) (map t cs) cl = near_apse sk cs cl.
Proof.
  intros Q. unfold near_apse. apply existsb_map_f. intros x. induction cl as [|n cl IH]; cbn [existsb]; auto. rewrite IH, t_arc. change (source (tn (get_arc sk n))) with (t (source (get_arc sk n))).
  rewrite t_manhattan by auto. auto.
Qed.

Lemma t_accept sk cv ap th cl : quarter -> accept_cluster (map tn sk) (map t cv) (option_map (map t) ap) th cl = accept_cluster sk cv ap th cl.
Proof.
  intros Q. unfold accept_cluster. destruct (Nat.leb _ _); auto. destruct ap as [cs|]; cbn [option_map]; rewrite ?t_near_apse, t_nr_sinks, t_contour_sinks, t_min_pair by auto; auto.
Qed.

Lemma t_cluster_loop fuel : quarter -> forall sk cv ap th cands, cluster_loop fuel (map tn sk) (map t cv) (option_map (map t) ap) th cands = cluster_loop fuel sk cv ap th cands.
Proof.
  intros Q. induction fuel as [|f IH]; intros sk cv ap th cands; cbn [cluster_loop]; auto. destruct cands as [|c0 rest]; auto. cbv zeta. rewrite IH.
  assert (E : filter (fun k => nltb (manhattan (source (get_arc (map tn sk) c0)) (source (get_arc (map tn sk) k))) th) rest =
              filter (fun k => nltb (manhattan (source (get_arc sk c0)) (source (get_arc sk k))) th) rest).
  { apply filter_ext. intros k. rewrite !t_arc. change (source (tn (get_arc sk c0))) with (t (source (get_arc sk c0))). change (source (tn (get_arc sk k))) with (t (source (get_arc sk k))).
    rewrite t_manhattan by auto. auto. }
  rewrite !E. rewrite t_accept by auto. auto.
Qed.

Lemma t_find_clusters sk cands cv ec th : quarter -> findClusters (map tn sk) cands (map t cv) (map (map te) ec) th = findClusters sk cands cv ec th.
Proof.
  intros Q. unfold findClusters. rewrite get_map. destruct (py_get ec 0) as [o|]; cbn [res_map bind]; auto. rewrite t_apses. destruct (detectApses o) as [ap|]; cbn [res_map bind]; auto.
  rewrite t_cluster_loop by auto. auto.
Qed.

Lemma t_redirect ms ns post : forall pre, redirect (map t ms) (t ns) (map t pre) (map t post) = map (fun p => (t (fst p), snd p)) (redirect ms ns pre post).
Proof.
  induction post as [|x post IH]; intros pre; cbn [map redirect]; auto. rewrite t_in by auto.
  change (t x :: map t post) with (map t (x :: post)). rewrite <- map_app, t_in by auto. destruct (py_in veq x ms); [destruct (py_in veq ns _)|]; cbn [map fst snd]; f_equal.
  - change [t x] with (map t [x]). rewrite <- map_app. apply IH.
  - change [t ns] with (map t [ns]). rewrite <- map_app. apply IH.
  - change [t x] with (map t [x]). rewrite <- map_app. apply IH.
Qed.

Lemma t_redirect_arc ms ns a : redirect_arc (map t ms) (t ns) (tn a) = tn (redirect_arc ms ns a).
Proof.
  unfold redirect_arc. change (source (tn a)) with (t (source a)). rewrite t_in by auto. destruct (py_in veq _ ms); auto. unfold with_sinks. cbn [turned_node source height sinks].
  change (@nil (vec RA)) with (map t []) at 1. rewrite t_redirect. rewrite (@filter_map_f _ _ (fun p : vec RA * bool => (t (fst p), snd p)) snd snd) by auto. unfold turned_node. cbn [source height sinks]. rewrite !map_map. auto.
Qed.

Lemma t_collect ms l : forall acc, collect_sinks (map t ms) (map t acc) (map t l) = map t (collect_sinks ms acc l).
Proof.
  unfold collect_sinks. induction l as [|x l IH]; intros acc; cbn [map fold_left]; auto. rewrite !t_in by auto. destruct (_ || _)%bool; [apply IH|].
  change [t x] with (map t [x]). rewrite <- map_app. apply IH.
Qed.

Lemma t_sums nodes : forall ax ay : R,
  fold_left (fun a n => nadd a (vx (source n))) (map tn nodes) (c * ax - s * ay : num RA) =
    c * fold_left (fun a n => nadd a (vx (source n))) nodes (ax : num RA) - s * fold_left (fun a n => nadd a (vy (source n))) nodes (ay : num RA) /\
  fold_left (fun a n => nadd a (vy (source n))) (map tn nodes) (s * ax + c * ay : num RA) =
    s * fold_left (fun a n => nadd a (vx (source n))) nodes (ax : num RA) + c * fold_left (fun a n => nadd a (vy (source n))) nodes (ay : num RA).
Proof.
  induction nodes as [|n nodes IH]; intros ax ay; cbn [map fold_left]; auto. cbn [turned_node source turned vx vy RA nadd]. change (num RA) with R in *.
  replace (c * ax - s * ay + (c * vx (source n) - s * vy (source n))) with (c * (ax + vx (source n)) - s * (ay + vy (source n))) by ring.
  replace (s * ax + c * ay + (s * vx (source n) + c * vy (source n))) with (s * (ax + vx (source n)) + c * (ay + vy (source n))) by ring. apply IH.
Qed.

Lemma t_heights nodes : forall h : num RA, fold_left (fun a n => nadd a (height n)) (map tn nodes) h = fold_left (fun a n => nadd a (height n)) nodes h.
Proof. induction nodes as [|n nodes IH]; intros h; cbn [map fold_left]; auto. Qed.

Lemma t_merge_cluster sk cl : mergeCluster (map tn sk) cl = res_map (map tn) (mergeCluster sk cl).
Proof.
  unfold mergeCluster. cbv zeta.
  assert (E : map (get_arc (map tn sk)) cl = map tn (map (get_arc sk) cl)). { rewrite map_map. apply map_ext. intros i. apply t_arc. }
  rewrite !E. set (nodes := map (get_arc sk) cl). rewrite t_heights.
  destruct (t_sums nodes 0 0) as [Sx Sy]. replace (c * 0 - s * 0) with 0 in Sx by ring. replace (s * 0 + c * 0) with 0 in Sy by ring.
  rewrite !zeroN_R. rewrite Sx, Sy. clear Sx Sy. generalize (fold_left (fun a n => nadd a (vx (source n))) nodes 0) as X. generalize (fold_left (fun a n => nadd a (vy (source n))) nodes 0) as Y.
  generalize (fold_left (fun a n => nadd a (height n)) nodes 0) as H. generalize (@nofZ RA (Z.of_nat (length cl))) as n. intros n H Y X.
  unfold pdiv. cbn [RA neqb ndiv]. rewrite !zeroN_R. destruct (Reqb_spec n 0) as [K|K]; cbn [bind res_map]; auto.
  assert (M : map (@source RA) (map tn nodes) = map t (map (@source RA) nodes)) by (rewrite !map_map; auto). rewrite !M.
  assert (V : mkvec (A := RA) ((c * X - s * Y) / n) ((s * X + c * Y) / n) = t (mkvec (A := RA) (X / n) (Y / n))).
  { rewrite t_mkvec. change (num RA) with R in *. f_equal; field; auto. }
  rewrite !V. clear V. set (ns := mkvec (A := RA) (X / n) (Y / n)). set (ms := map (@source RA) nodes). f_equal. rewrite map_app. f_equal.
  - assert (R1 : map (redirect_arc (map t ms) (t ns)) (map tn sk) = map tn (map (redirect_arc ms ns) sk)) by (rewrite !map_map; apply map_ext; intros; apply t_redirect_arc).
    rewrite R1, enumerate_map. rewrite (@filter_map_f _ _ (fun p : nat * @subtree RA => (fst p, tn (snd p))) _ (fun ia => negb (existsb (Nat.eqb (fst ia)) cl))) by auto.
    rewrite !map_map. auto.
  - cbn [map]. f_equal. unfold turned_node. cbn [source height sinks]. f_equal.
    change (@nil (vec RA)) with (map t []) at 1. clearbody ms. clear - unit_cs. generalize (@nil (vec RA)). induction nodes as [|a nodes' IH]; intros acc; cbn [map fold_left]; auto.
    cbn [sinks]. rewrite t_collect. apply IH.
Qed.

Lemma t_contour_vertices cs : map (@ep1 RA) (concat (map (map te) cs)) = map t (map (@ep1 RA) (concat cs)).
Proof. rewrite concat_map, concat_map, concat_map, !map_map. f_equal. apply map_ext. intros k. rewrite !map_map. auto. Qed.

Lemma t_merge_loop fuel : quarter -> forall sk cv ec, merge_loop fuel (map tn sk) (map t cv) (map (map te) ec) = res_map (map tn) (merge_loop fuel sk cv ec).
Proof.
  intros Q. induction fuel as [|f IH]; intros sk cv ec; cbn [merge_loop]; auto. rewrite map_length, t_find_clusters by auto. destruct (findClusters _ _ _ _ _) as [[|k ks]|]; cbn [res_map bind]; auto.
  rewrite t_merge_cluster. destruct (mergeCluster sk _) as [sk'|]; cbn [res_map bind]; auto.
Qed.

Lemma t_merge sk cs : quarter -> mergeNodeClusters (map tn sk) (map (map te) cs) = res_map (map tn) (mergeNodeClusters sk cs).
Proof.
  intros Q. unfold mergeNodeClusters. cbv zeta. rewrite t_same, map_length, t_contour_vertices. apply t_merge_loop; auto.
Qed.

(** ** ghosts *)
Lemma t_remove_loop a : remove_loop (tn a) = tn (remove_loop a).
Proof.
  unfold remove_loop. change (source (tn a)) with (t (source a)). change (sinks (tn a)) with (map t (sinks a)). rewrite t_in, t_remove by auto. destruct (py_in _ _ _); auto.
  destruct (py_remove veq (source a) (sinks a)); cbn [res_map]; auto.
Qed.

Lemma t_set_sinks i l sk : set_sinks i (map t l) (map tn sk) = map tn (set_sinks i l sk).
Proof. unfold set_sinks. rewrite t_arc. change (with_sinks (map t l) (tn (get_arc sk i))) with (tn (with_sinks l (get_arc sk i))). apply set_at_map. Qed.

Lemma t_ghost_move sk k n fs nrs : ghost_move (map tn sk) k n (t fs) (t nrs) = res_map (map tn) (ghost_move sk k n fs nrs).
Proof.
  unfold ghost_move. cbv zeta. rewrite t_arc. change (sinks (tn (get_arc sk n)) ++ [t fs]) with (map t (sinks (get_arc sk n)) ++ map t [fs]). rewrite <- map_app, t_set_sinks, t_arc.
  cbn [turned_node sinks]. rewrite t_remove by auto. destruct (py_remove veq fs _) as [l1|]; cbn [res_map bind]; auto. rewrite t_set_sinks, t_arc. cbn [turned_node sinks].
  rewrite t_remove by auto. destruct (py_remove veq nrs _) as [l2|]; cbn [res_map bind]; auto. rewrite t_set_sinks. auto.
Qed.

Definition t_po (o : @pair_outcome RA) : @pair_outcome RA := match o with PairNext sk a => PairNext (map tn sk) a | PairBreak sk a => PairBreak (map tn sk) a end.

Lemma t_ghost_pair sk k al p : ghost_pair (map tn sk) k al (t (fst p), t (snd p)) = res_map t_po (ghost_pair sk k al p).
Proof.
  unfold ghost_pair. cbv zeta. rewrite t_arc. cbn [fst snd turned_node source]. rewrite !t_sub, !t_len, !t_dot by auto. set (src := source (get_arc sk k)).
  destruct (_ && _)%bool; auto. destruct (pdiv _ _) as [d|]; cbn [bind]; auto. destruct (nltb (nabs (nsub d oneN)) PARALLEL); auto.
  set (b := nltb (vlen (vsub (fst p) src)) _).
  assert (E : (if b then (t (snd p), t (fst p)) else (t (fst p), t (snd p))) = (t (fst (if b then (snd p, fst p) else (fst p, snd p))), t (snd (if b then (snd p, fst p) else (fst p, snd p)))))
    by (destruct b; auto).
  rewrite E. clear E. destruct (if b then (snd p, fst p) else (fst p, snd p)) as [fs nrs]. cbn [fst snd].
  rewrite (@find_pos_map _ _ tn _ (fun node => veq (source node) nrs)) by (intros a; change (source (tn a)) with (t (source a)); apply t_veq; auto).
  destruct (find_pos _ sk) as [i|]; auto. destruct (nltb _ EPSILON).
  - rewrite t_ghost_move. destruct (ghost_move sk k i fs nrs); auto.
  - rewrite t_arc. cbn [turned_node sinks]. rewrite (@existsb_map_f _ _ t _ (fun sink => seg_intersect src fs nrs sink)) by (intros a; apply t_seg; auto).
    destruct (existsb _ _); auto. rewrite t_ghost_move. destruct (ghost_move sk k i fs nrs); auto.
Qed.

Lemma t_ghost_pairs k ps : forall sk al, ghost_pairs (map tn sk) k al (map (fun p => (t (fst p), t (snd p))) ps) = res_map (fun p => (map tn (fst p), snd p)) (ghost_pairs sk k al ps).
Proof.
  induction ps as [|p ps IH]; intros sk al; cbn [map ghost_pairs]; auto. rewrite t_ghost_pair. destruct (ghost_pair sk k al p) as [[sk' a'|sk' a']|]; cbn [res_map bind t_po]; auto.
Qed.

Lemma t_ghost_while fuel k : forall sk, ghost_while fuel (map tn sk) k = res_map (map tn) (ghost_while fuel sk k).
Proof.
  induction fuel as [|f IH]; intros sk; cbn [ghost_while]; auto. rewrite t_arc. cbn [turned_node sinks]. rewrite combinations_map, t_ghost_pairs.
  destruct (ghost_pairs sk k false _) as [[sk' a]|]; cbn [res_map bind fst snd]; auto. destruct a; auto.
Qed.

Lemma t_ghost_arcs ks : forall sk, ghost_arcs (map tn sk) ks = res_map (map tn) (ghost_arcs sk ks).
Proof.
  induction ks as [|k ks IH]; intros sk; cbn [ghost_arcs]; auto. rewrite t_arc. cbn [turned_node sinks]. rewrite map_length, t_ghost_while.
  destruct (ghost_while _ sk k); cbn [res_map bind]; auto.
Qed.

Lemma t_ghosts sk : removeGhosts (map tn sk) = res_map (map tn) (removeGhosts sk).
Proof.
  unfold removeGhosts. cbv zeta. rewrite !map_length. rewrite map_map. rewrite (@map_ext _ _ (fun x => remove_loop (tn x)) (fun x => tn (remove_loop x))) by (intros; apply t_remove_loop).
  rewrite <- (map_map remove_loop tn). apply t_ghost_arcs.
Qed.

Theorem t_skeleton_quarter fuel cs : quarter -> skeletonize fuel (map (map te) cs) = res_map (map tn) (skeletonize fuel cs).
Proof.
  intros Q. unfold skeletonize. rewrite t_raw. destruct (raw_skeleton fuel cs) as [raw|]; cbn [res_map bind]; auto. rewrite t_merge by auto.
  destruct (mergeNodeClusters raw cs) as [sk|]; cbn [res_map bind]; auto. apply t_ghosts.
Qed.

(** ** nodes that stand apart are not merged *)
Lemma apart_taxicab (a b : vec RA) : 1 / 100 <= (vx a - vx b) * (vx a - vx b) + (vy a - vy b) * (vy a - vy b) -> nltb (manhattan a b) (@smallThresh RA) = false.
Proof.
  rewrite manhattan_R, smallThresh_R. cbn [RA nltb]. change (num RA) with R in *. intros H. destruct (Rltb_spec (taxicab a b) (1 / 10)) as [K|K]; auto. exfalso.
  unfold taxicab in K. change (num RA) with R in *. set (x := vx a - vx b) in *. set (y := vy a - vy b) in *.
  assert (x * x = Rabs x * Rabs x) by (rewrite <- Rabs_mult; symmetry; apply Rabs_right; nra). assert (y * y = Rabs y * Rabs y) by (rewrite <- Rabs_mult; symmetry; apply Rabs_right; nra).
  pose proof (Rabs_pos x). pose proof (Rabs_pos y). nra.
Qed.

Lemma no_clusters sk cv ap : NoDup (map (@source RA) sk) -> nodes_apart sk -> forall fuel cands, NoDup cands -> (forall i, In i cands -> (i < length sk)%nat) ->
  cluster_loop fuel sk cv ap smallThresh cands = [].
Proof.
  intros ND HA. induction fuel as [|f IH]; intros cands Hn Hb; cbn [cluster_loop]; auto. destruct cands as [|c0 rest]; auto. cbv zeta.
  assert (E : filter (fun k => nltb (manhattan (source (get_arc sk c0)) (source (get_arc sk k))) smallThresh) rest = []).
  { rewrite (@filter_ext_in _ _ (fun _ => false)); [clear; induction rest; auto|]. intros k Hk. apply apart_taxicab. inversion_clear Hn.
    assert (N : forall i, (i < length sk)%nat -> nth_error sk i = Some (get_arc sk i)) by (intros i Hi; unfold get_arc; apply nth_error_nth'; auto).
    assert (B0 : (c0 < length sk)%nat) by (apply Hb; simpl; auto). assert (Bk : (k < length sk)%nat) by (apply Hb; simpl; auto).
    apply HA; [apply (nth_error_In _ c0); auto|apply (nth_error_In _ k); auto|]. intros K. apply H.
    assert (c0 = k); [|subst; auto]. apply (proj1 (NoDup_nth_error (map (@source RA) sk)) ND); [rewrite map_length; auto|]. rewrite !nth_error_map, !N by auto. cbn [option_map]. f_equal. auto. }
  rewrite E. unfold accept_cluster at 1. cbn [length Nat.leb]. apply IH.
  - apply NoDup_filter; auto.
  - intros i Hi. apply filter_In in Hi as [Hi _]. auto.
Qed.

Lemma merge_apart sk cs : nodes_apart sk -> mergeNodeClusters sk cs = (outer <- py_get cs 0 ;; _ <- detectApses outer ;; Ok (merge_same_sources sk)).
Proof.
  intros HA. unfold mergeNodeClusters. cbv zeta. cbn [merge_loop]. unfold findClusters. destruct (py_get cs 0) as [o|]; cbn [bind]; auto. destruct (detectApses o) as [ap|]; cbn [bind]; auto.
  rewrite no_clusters; auto.
  - apply merge_same_distinct. apply exact_R.
  - intros a b Ha Hb. destruct (merge_same_in Ha) as (a' & Ia & Ea & _). destruct (merge_same_in Hb) as (b' & Ib & Eb & _). rewrite <- Ea, <- Eb. apply HA; auto.
  - apply seq_NoDup.
  - intros i Hi. apply in_seq in Hi. lia.
Qed.

Lemma t_apart sk : nodes_apart sk -> nodes_apart (map tn sk).
Proof.
  intros HA a b Ha Hb Hne. apply in_map_iff in Ha as (a' & <- & Ha). apply in_map_iff in Hb as (b' & <- & Hb). cbn [turned_node source turned vx vy] in *.
  assert (N : source a' <> source b') by (intros K; apply Hne; rewrite K; auto). pose proof (HA a' b' Ha Hb N) as H. change (num RA) with R in *.
  revert H. clear - unit_cs. generalize (vx (source a') : R), (vy (source a') : R), (vx (source b') : R), (vy (source b') : R). change (num RA) with R. intros x y z w H.
  replace ((c * x - s * y - (c * z - s * w)) * (c * x - s * y - (c * z - s * w)) + (s * x + c * y - (s * z + c * w)) * (s * x + c * y - (s * z + c * w)))
    with ((c * c + s * s) * ((x - z) * (x - z) + (y - w) * (y - w))) by ring. rewrite unit_cs. lra.
Qed.

Lemma t_merge_apart sk cs : nodes_apart sk -> mergeNodeClusters (map tn sk) (map (map te) cs) = res_map (map tn) (mergeNodeClusters sk cs).
Proof.
  intros HA. rewrite !merge_apart by (auto using t_apart). rewrite get_map. destruct (py_get cs 0) as [o|]; cbn [res_map bind]; auto. rewrite t_apses.
  destruct (detectApses o); cbn [res_map bind]; auto. rewrite t_same. auto.
Qed.

Theorem t_skeleton fuel cs : quarter \/ (forall raw, raw_skeleton fuel cs = Ok raw -> nodes_apart raw) ->
  skeletonize fuel (map (map te) cs) = res_map (map tn) (skeletonize fuel cs).
Proof.
  intros H. unfold skeletonize. rewrite t_raw. destruct (raw_skeleton fuel cs) as [raw|]; cbn [res_map bind]; auto.
  assert (E : mergeNodeClusters (map tn raw) (map (map te) cs) = res_map (map tn) (mergeNodeClusters raw cs)) by (destruct H; [apply t_merge; auto|apply t_merge_apart; auto]).
  rewrite E. destruct (mergeNodeClusters raw cs) as [sk|]; cbn [res_map bind]; auto. apply t_ghosts.
Qed.
End Turn.
