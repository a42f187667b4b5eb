(** * MergeR: skeletonize over the real numbers: closure, heights, clusters *)

From Coq Require Import Permutation Reals Lra.
From Verif Require Import Py PyFacts Arith ArithR RSpec Euclid Lav Cluster ClusterSpec GhostProofs MergeProofs MergeExact
  LoopSpec LavLoop LoopStart.
Set Implicit Arguments.
Unset Strict Implicit.
Local Open Scope R_scope.

Lemma exact_R : @exact_equality RA.
Proof. split; [apply veq_R|apply Reqb_eq]. Qed.

Lemma lit_R z d : @lit RA z d = IZR z / IZR (Zpos d).
Proof. reflexivity. Qed.

Lemma manhattan_R (a b : vec RA) : manhattan a b = taxicab a b.
Proof. reflexivity. Qed.

Lemma smallThresh_R : @smallThresh RA = 1 / 10.
Proof. reflexivity. Qed.

Lemma near_refl_R (a : vec RA) : nltb (manhattan a a) smallThresh = true.
Proof.
  rewrite manhattan_R, smallThresh_R. unfold taxicab. rewrite !Rminus_eq_0, Rabs_R0. cbn [nltb RA]. apply Rltb_lt. lra.
Qed.

(** ** C19 *)
Theorem skeletonize_closed_R fuel (contours : list (list (@edge2 RA))) sk :
  skeletonize fuel contours = Ok sk -> closed (map (@ep1 RA) (concat contours)) sk.
Proof.
  unfold skeletonize. destruct (raw_skeleton fuel contours) as [raw|] eqn:Er; [|discriminate]. cbn [bind].
  destruct (mergeNodeClusters raw contours) as [sk1|] eqn:Em; [|discriminate]. cbn [bind]. intros H.
  eapply skeletonize_closed; eauto.
  - apply exact_R.
  - apply near_refl_R.
  - intros a p Ha Hp. destruct (raw_skeleton_inv Er Ha) as [_ Hk]. destruct (Hk p Hp) as [K|K]; auto.
    right. apply in_map_iff in K as (b & <- & Hb). exists b; auto.
Qed.

(** ** heights *)
Lemma line_distance_nonneg (l : @lin RA) p : 0 <= line_distance l p.
Proof. unfold line_distance. rewrite vlen_R. apply sqrt_pos. Qed.

Lemma node_height_nonneg E (a : @subtree RA) : node_height E a -> 0 <= height a.
Proof.
  intros [(e & _ & ->)|(d1 & p1 & d2 & p2 & (e1 & _ & ->) & (e2 & _ & ->) & ->)].
  - apply line_distance_nonneg.
  - pose proof (line_distance_nonneg (Line2_edge e1) p1). pose proof (line_distance_nonneg (Line2_edge e2) p2).
    rewrite twoN_R. cbn [RA ndiv nadd]. lra.
Qed.

Lemma fold_sum_R (l : list (@subtree RA)) (f : @subtree RA -> R) x :
  fold_left (fun a n => nadd (a := RA) a (f n)) l x = x + Rsum (map f l).
Proof.
  revert x. induction l as [|a t IH]; intros x; simpl; [lra|]. rewrite IH. simpl. lra.
Qed.

Lemma Rsum_nonneg l : (forall x, In x l -> 0 <= x) -> 0 <= Rsum l.
Proof.
  induction l as [|a t IH]; simpl; intros H; [lra|].
  assert (0 <= a) by auto. assert (0 <= Rsum t) by auto. unfold Rsum in *. lra.
Qed.

Lemma nofZ_R n : @nofZ RA (Z.of_nat n) = INR n.
Proof. unfold nofZ. simpl. rewrite INR_IZR_INZ. lra. Qed.

Lemma pdiv_mean (f : @subtree RA -> R) sk (cluster : list nat) (c : R) :
  pdiv (A := RA) (fold_left (fun a n => nadd (a := RA) a (f n)) (members sk cluster) zeroN) (nofZ (Z.of_nat (length cluster))) = Ok c ->
  c = Rmean (map f (members sk cluster)) /\ (cluster <> [])%list.
Proof.
  rewrite fold_sum_R, nofZ_R, zeroN_R, pdiv_R. destruct (Reqb_spec (INR (length cluster)) 0) as [E|E]; [discriminate|].
  intros H. apply Ok_inj in H. subst c. unfold Rmean. replace (length (map f (members sk cluster))) with (length cluster) by (unfold members; rewrite !map_length; auto).
  split; [f_equal; lra|]. intros ->. apply E. reflexivity.
Qed.

Definition nonneg_heights (sk : list (@subtree RA)) : Prop := forall a, In a sk -> 0 <= height a.

Lemma mergeCluster_heights sk c sk' : mergeCluster sk c = Ok sk' -> nonneg_heights sk ->
  (forall i, In i c -> (i < length sk)%nat) -> nonneg_heights sk'.
Proof.
  intros H Hn Hr. apply mergeCluster_shape in H as (cx & cy & ch & _ & _ & H3 & ->).
  apply (pdiv_mean (f := @height RA)) in H3 as [H3 Hc].
  intros a Ha. apply in_app_iff in Ha as [Ha|[<-|[]]].
  - apply in_map_iff in Ha as (b & <- & Hb). apply outside_In in Hb as (i & Hi & _). apply nth_error_In in Hi.
    unfold redirect_arc. destruct (py_in _ _ _); simpl; auto.
  - cbn [height]. subst ch. unfold Rmean. apply Rmult_le_pos.
    + apply Rsum_nonneg. intros x Hx. apply in_map_iff in Hx as (b & <- & Hb).
      unfold members in Hb. apply in_map_iff in Hb as (i & <- & Hi). apply Hn. eapply nth_error_In. apply get_arc_nth. auto.
    + rewrite map_length. unfold members. rewrite map_length. destruct c as [|i c]; [congruence|].
      apply Rlt_le, Rinv_0_lt_compat. apply lt_0_INR. simpl. lia.
Qed.

Theorem skeletonize_heights_R fuel (contours : list (list (@edge2 RA))) sk :
  skeletonize fuel contours = Ok sk -> nonneg_heights sk.
Proof.
  unfold skeletonize. destruct (raw_skeleton fuel contours) as [raw|] eqn:Er; [|discriminate]. cbn [bind].
  destruct (mergeNodeClusters raw contours) as [sk1|] eqn:Em; [|discriminate]. cbn [bind]. intros H.
  assert (H0 : nonneg_heights raw).
  { intros a Ha. destruct (raw_skeleton_inv Er Ha) as [Hh _]. eapply node_height_nonneg; eauto. }
  assert (H1 : nonneg_heights sk1).
  { unfold mergeNodeClusters in Em. set (s := merge_same_sources raw) in *.
    pose proof (@merge_loop_facts RA (S (length s)) s (map (@ep1 RA) (concat contours)) contours (Nat.lt_succ_diag_r _)) as F.
    rewrite Em in F. destruct F as ((n & Hm & _) & _). eapply (merges_invariant (P := nonneg_heights)); [|exact Hm|].
    - intros s0 c cs s1 HP Hf Hin He. eapply mergeCluster_heights; eauto. apply (findClusters_good Hf Hin).
    - intros q Hq. apply merge_same_in in Hq as (p & Hp & _ & <-). auto. }
  pose proof (removeGhosts_facts sk1) as F. rewrite H in F. destruct F as (_ & F & _).
  intros a Ha. apply (in_map (@height RA)) in Ha. rewrite F in Ha. apply in_map_iff in Ha as (b & <- & Hb). auto.
Qed.

(** ** what is left after merging: no group may be merged *)
Lemma filter_order (p : nat -> bool) rest : forall l1 x l2 y l3, filter p rest = l1 ++ x :: l2 ++ y :: l3 ->
  exists m1 m2 m3, rest = m1 ++ x :: m2 ++ y :: m3.
Proof.
  assert (G : forall rest l1 x l2, filter p rest = l1 ++ x :: l2 -> exists m1 m2, rest = m1 ++ x :: m2 /\ filter p m2 = l2).
  { clear rest. induction rest as [|a t IH]; simpl; intros l1 x l2 H; [destruct l1; discriminate|].
    destruct (p a) eqn:E.
    - destruct l1 as [|b l1]; simpl in H.
      + injection H as -> <-. exists [], t. auto.
      + injection H as -> H. destruct (IH _ _ _ H) as (m1 & m2 & -> & <-). exists (b :: m1), m2. auto.
    - destruct (IH _ _ _ H) as (m1 & m2 & -> & <-). exists (a :: m1), m2. auto. }
  intros l1 x l2 y l3 H. apply G in H as (m1 & m2 & -> & H). apply G in H as (m3 & m4 & -> & _). eauto.
Qed.

Lemma cluster_loop_grouped fuel : forall sk cv ap cands, (length cands <= fuel)%nat -> NoDup cands ->
  exists gs, grouped (fun i => source (get_arc sk i)) (1 / 10) cands gs /\
    cluster_loop fuel sk cv ap smallThresh cands = filter (accept_cluster sk cv ap smallThresh) gs.
Proof.
  induction fuel as [|f IH]; intros sk cv ap [|c rest] Hf Hnd; cbn [cluster_loop]; try (exists []; split; [constructor|auto]; fail).
  { simpl in Hf. lia. }
  cbv zeta. inversion Hnd as [|? ? N1 N2]; subst.
  set (nr := fun c0 => nltb (manhattan (source (get_arc sk c)) (source (get_arc sk c0))) smallThresh).
  set (cl := c :: filter nr rest).
  assert (Ec : filter (fun c0 => negb (existsb (Nat.eqb c0) cl)) (c :: rest) = filter (fun x => negb (nr x)) rest).
  { simpl. rewrite Nat.eqb_refl. simpl. apply filter_ext_in. intros x Hx. f_equal. simpl.
    destruct (Nat.eqb_spec x c) as [->|Hne]; [tauto|]. simpl.
    destruct (nr x) eqn:Enr.
    - apply existsb_eqb_In. apply filter_In. auto.
    - destruct (existsb (Nat.eqb x) (filter nr rest)) eqn:E; auto. apply existsb_eqb_In in E. apply filter_In in E as [_ E]. congruence. }
  rewrite Ec. destruct (IH sk cv ap (filter (fun x => negb (nr x)) rest)) as (gs & G1 & G2).
  - pose proof (filter_partition_perm nr rest) as P. apply Permutation_length in P. rewrite app_length in P. simpl in Hf. lia.
  - apply NoDup_filter. auto.
  - assert (Hnr : forall i, nr i = true <-> taxicab (source (get_arc sk c)) (source (get_arc sk i)) < 1 / 10).
    { intros i. unfold nr. rewrite manhattan_R, smallThresh_R. apply Rltb_lt. }
    exists (cl :: gs). split.
    + apply grouped_cons with (left := filter (fun x => negb (nr x)) rest); auto.
      * intros i. rewrite filter_In, Hnr. tauto.
      * intros i. rewrite filter_In, <- Hnr. destruct (nr i); simpl; intuition congruence.
      * pose proof (filter_partition_perm nr rest) as P. apply Permutation_length in P. rewrite app_length in P. auto.
      * apply filter_order.
    + cbn [filter]. rewrite G2. destruct (accept_cluster sk cv ap smallThresh cl); auto.
Qed.

Lemma get_arc_default sk i : get_arc sk i = node_at sk i.
Proof.
  unfold get_arc, node_at. f_equal. unfold dummy_subtree, dummy_vec. rewrite zeroN_R. reflexivity.
Qed.

Lemma contour_sinks_spec sk pts g : footprint_sinks sk pts g (contour_sinks sk pts g).
Proof.
  exists (map (fun node => filter (fun s => py_in veq s pts) (sinks (get_arc sk node))) g). split; [apply map_length|]. split.
  - unfold contour_sinks. apply flat_map_concat_map.
  - intros k i Hk. eexists. split; [apply map_nth_error; exact Hk|]. exists (fun s => py_in veq s pts).
    rewrite get_arc_default. split; auto. intros p. apply (in_veq exact_R).
Qed.

Lemma min_pair_dist_gt init l d : (d < min_pair_dist (A := RA) init l) <-> d < init /\ pairwise_above d l.
Proof.
  unfold min_pair_dist.
  assert (G : forall ps m, d < fold_left (fun m p => nmin (A := RA) (vlen (vsub (fst p) (snd p))) m) ps m <->
     d < m /\ forall p, In p ps -> d < euclid_dist (fst p) (snd p)).
  { induction ps as [|p ps IH]; intros m; cbn [fold_left In]; [split; [intros H; split; auto; intros p []|tauto]|].
    rewrite IH. unfold nmin at 1. cbn [nltb RA].
    assert (Ed : vlen (vsub (fst p) (snd p)) = euclid_dist (fst p) (snd p)) by (rewrite vlen_R; reflexivity).
    rewrite Ed. destruct (Rltb_spec m (euclid_dist (fst p) (snd p))) as [H|H].
    - split; [intros [H1 H2]|intros [H1 H2]]; split; auto. intros q [<-|Hq]; auto. lra.
    - split; [intros [H1 H2]|intros [H1 H2]]; split; auto; [lra|]. intros q [<-|Hq]; auto. }
  rewrite G. split; intros [H1 H2]; split; auto.
  - intros i j a b Hij Ha Hb. apply (H2 (a, b)). clear -Hij Ha Hb. revert i j Hij Ha Hb.
    induction l as [|x t IH]; intros [|i] [|j] Hij Ha Hb; simpl in *; try lia; try discriminate.
    + injection Ha as <-. apply in_app_iff. left. apply nth_error_In in Hb. apply in_map_iff. eauto.
    + apply in_app_iff. right. eapply IH; [|eauto|eauto]. lia.
  - intros [a b] Hp. simpl.
    assert (K : exists i j, (i < j)%nat /\ nth_error l i = Some a /\ nth_error l j = Some b).
    { clear -Hp. induction l as [|x t IH]; simpl in Hp; [destruct Hp|]. apply in_app_iff in Hp as [Hp|Hp].
      - apply in_map_iff in Hp as (y & [= -> ->] & Hy). apply In_nth_error in Hy as (j & Hj). exists 0%nat, (S j). repeat split; auto. lia.
      - destruct (IH Hp) as (i & j & Hij & Hi & Hj). exists (S i), (S j). repeat split; auto. lia. }
    destruct K as (i & j & Hij & Hi & Hj). eapply H2; eauto.
Qed.

Lemma nr_contour_sinks_spec sk pts g : footprint_links sk pts g (nr_contour_sinks sk pts g).
Proof.
  set (f := fun node => count_b (fun el => py_in veq el (sinks (get_arc sk node))) pts).
  exists (map f g). split; [apply map_length|]. split.
  - unfold nr_contour_sinks. assert (G : forall n, fold_left (fun n node => n + f node)%nat g n = (n + list_sum (map f g))%nat).
    { induction g as [|a t IH]; intros n; simpl; [lia|]. rewrite IH. lia. }
    apply (G 0%nat).
  - intros k i Hk. exists (f i), (fun el => py_in veq el (sinks (get_arc sk i))).
    split; [apply map_nth_error; auto|]. split; [reflexivity|]. intros p. rewrite <- get_arc_default. apply (in_veq exact_R).
Qed.

Lemma footprint_links_fun sk pts g n m : footprint_links sk pts g n -> footprint_links sk pts g m -> n = m.
Proof.
  intros (a & A1 & -> & A3) (b & B1 & -> & B3). f_equal. apply nth_error_ext. intros k.
  destruct (nth_error g k) as [i|] eqn:E.
  - destruct (A3 k i E) as (c & f & -> & -> & Hf). destruct (B3 k i E) as (d & h & -> & -> & Hh). do 2 f_equal.
    apply filter_ext. intros p. apply Bool.eq_true_iff_eq. rewrite Hf, Hh. tauto.
  - apply nth_error_None in E. rewrite (proj2 (nth_error_None a k)), (proj2 (nth_error_None b k)) by lia. auto.
Qed.

Lemma footprint_sinks_fun sk pts g n m : footprint_sinks sk pts g n -> footprint_sinks sk pts g m -> n = m.
Proof.
  intros (a & A1 & -> & A3) (b & B1 & -> & B3). f_equal. apply nth_error_ext. intros k.
  destruct (nth_error g k) as [i|] eqn:E.
  - destruct (A3 k i E) as (c & -> & f & -> & Hf). destruct (B3 k i E) as (d & -> & h & -> & Hh). f_equal.
    apply filter_ext. intros p. apply Bool.eq_true_iff_eq. rewrite Hf, Hh. tauto.
  - apply nth_error_None in E. rewrite (proj2 (nth_error_None a k)), (proj2 (nth_error_None b k)) by lia. auto.
Qed.

Lemma accept_cluster_R sk pts ap g :
  accept_cluster sk pts ap (@smallThresh RA) g = true <-> mergeable sk pts (match ap with Some cs => cs | None => [] end) g.
Proof.
  unfold accept_cluster, mergeable.
  assert (Hap : match ap with Some cs => near_apse sk cs g | None => false end = true <->
     exists c i, In c (match ap with Some cs => cs | None => [] end) /\ In i g /\ taxicab c (source (node_at sk i)) < 3).
  { destruct ap as [cs|]; [|split; [discriminate|intros (c & i & [] & _)]]. unfold near_apse. rewrite existsb_exists. split.
    - intros (c & Hc & H). apply existsb_exists in H as (i & Hi & H). exists c, i. split; auto. split; auto.
      rewrite <- get_arc_default. apply Rltb_lt in H. unfold taxicab. unfold manhattan in H. simpl in H. lra.
    - intros (c & i & Hc & Hi & H). exists c. split; auto. apply existsb_exists. exists i. split; auto.
      rewrite get_arc_default. apply Rltb_lt. unfold taxicab in H. unfold manhattan. simpl. lra. }
  destruct (Nat.leb_spec (length g) 1) as [Hl|Hl].
  { split; [discriminate|]. intros (H & _). lia. }
  destruct (match ap with Some cs => near_apse sk cs g | None => false end).
  { split; [discriminate|]. intros (_ & H & _). destruct (proj1 Hap eq_refl) as (c & i & H1 & H2 & H3). exfalso. eapply H; eauto. }
  assert (Hnap : forall c i, In c (match ap with Some cs => cs | None => [] end) -> In i g ->
    ~ taxicab c (source (node_at sk i)) < 3).
  { intros c i H1 H2 H3. assert (K : false = true) by (apply Hap; eauto). discriminate. }
  pose proof (nr_contour_sinks_spec sk pts g) as Hnr. pose proof (contour_sinks_spec sk pts g) as Hcs.
  assert (Hmd : ngtb (min_pair_dist (nmul (lit 3 1) smallThresh) (contour_sinks sk pts g)) (nmul twoN (@smallThresh RA)) = true <->
     pairwise_above (2 / 10) (contour_sinks sk pts g)).
  { unfold ngtb. cbn [nltb RA]. rewrite Rltb_lt. rewrite twoN_R, smallThresh_R, lit_R. cbn [nmul RA].
    replace (2 * (1 / 10)) with (2 / 10) by lra. rewrite min_pair_dist_gt. split; [tauto|]. intros H; split; auto. lra. }
  destruct (Nat.ltb_spec (nr_contour_sinks sk pts g) 2) as [Hlt|Hge].
  - split; auto. intros _. split; auto. split; auto. left. eauto.
  - split.
    + intros H. apply Hmd in H. split; auto. split; auto. right. eauto.
    + intros (_ & _ & [(n & H1 & H2)|(l & H1 & H2)]).
      * rewrite (footprint_links_fun Hnr H1) in Hge. lia.
      * apply Hmd. rewrite (footprint_sinks_fun Hcs H1). auto.
Qed.

Lemma findClusters_grouped sk contours ap cs outer :
  nth_error contours 0 = Some outer -> detectApses outer = Ok ap ->
  findClusters sk (seq 0 (length sk)) (map (@ep1 RA) (concat contours)) contours (@smallThresh RA) = Ok cs ->
  exists gs, grouped (fun i => source (node_at sk i)) (1 / 10) (seq 0 (length sk)) gs /\
    (forall g, In g cs <-> In g gs /\
        mergeable sk (map (@ep1 RA) (concat contours)) (match ap with Some cs => cs | None => [] end) g).
Proof.
  intros Ho Ha. unfold findClusters. destruct contours as [|o t]; [discriminate|]. injection Ho as ->. cbn [py_get length].
  replace (py_get (outer :: t) 0) with (Ok outer) by reflexivity. cbn [bind]. rewrite Ha. cbn [bind].
  intros H. apply Ok_inj in H. subst cs. rewrite seq_length.
  destruct (@cluster_loop_grouped (length sk) sk (map (@ep1 RA) (concat (outer :: t))) ap (seq 0 (length sk))) as (gs & G1 & G2).
  - rewrite seq_length. lia.
  - apply seq_NoDup.
  - exists gs. split.
    + replace (fun i => source (node_at sk i)) with (fun i => source (get_arc sk i)); auto.
      apply FunctionalExtensionality.functional_extensionality. intros i. rewrite get_arc_default. auto.
    + intros g. rewrite G2, filter_In, accept_cluster_R. tauto.
Qed.
