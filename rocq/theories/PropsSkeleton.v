(** * PropsSkeleton: properties C19 - C26 (and C27 for reachable states) of skeletonize *)

From Coq Require Import Reals Lra ZArith.
From Verif Require Import Py Arith ArithR ArithF ArithQ RSpec Euclid Lav LavSpec Cluster ClusterSpec LoopSpec GeoSpec
  LavWalk MergeExact MergeR SkeletonFacts SkeletonCases PropsLav.
Set Implicit Arguments.
Unset Strict Implicit.
Local Open Scope nat_scope.

(** ** C19 *)
Theorem C19_skeleton_closed :
  forall fuel (contours : list (list (@edge2 RA))) sk,
  skeletonize fuel contours = Ok sk -> closed (map (@ep1 RA) (concat contours)) sk.
Proof. exact skeletonize_closed_R. Qed.
Print Assumptions C19_skeleton_closed.

(** before merging, for every arithmetic *)
Theorem C19_event_loop_closed :
  forall (A : arith) (contours : list (list (@edge2 A))) fuel out,
  raw_skeleton fuel contours = Ok out -> closed (map (@ep1 A) (concat contours)) out.
Proof. exact raw_closed. Qed.
Print Assumptions C19_event_loop_closed.

(** with the rounded == of mathutils, merging can leave a sink that is neither a vertex nor a node *)
Theorem C19_merging_keeps_closed_ieee_refuted :
  exists (sk : list (@subtree F64)) contours sk',
  closed (map (@ep1 F64) (concat contours)) sk /\ mergeNodeClusters sk contours = Ok sk' /\
  exists a p, In a sk' /\ In p (sinks a) /\
    forall q, In q (map (@ep1 F64) (concat contours) ++ map (@source F64) sk') -> veq q p = false.
Proof. exact merging_dangles. Qed.
Print Assumptions C19_merging_keeps_closed_ieee_refuted.

(** ** C20 *)
Theorem C20_removeGhosts_keeps_nodes :
  forall (A : arith) (sk sk' : list (@subtree A)), removeGhosts sk = Ok sk' ->
  length sk' = length sk /\
  map (@source A) sk' = map (@source A) sk /\ map (@height A) sk' = map (@height A) sk /\
  (forall p, is_sink sk' p -> is_sink sk p).
Proof. exact removeGhosts_nodes. Qed.
Print Assumptions C20_removeGhosts_keeps_nodes.

(** ** C21 *)
Theorem C21_removeGhosts_ends :
  forall (A : arith) (sk : list (@subtree A)),
  (exists sk', removeGhosts sk = Ok sk') \/ removeGhosts sk = Err ValueError \/ removeGhosts sk = Err ZeroDivisionError.
Proof. exact removeGhosts_ends. Qed.
Print Assumptions C21_removeGhosts_ends.

Theorem C21_while_loop_rounds :
  forall (A : arith) (sk : list (@subtree A)) k fuel,
  length (sinks (get_arc sk k)) < fuel ->
  ghost_while fuel sk k <> Err OutOfFuel /\
  ghost_while fuel sk k = ghost_while (S (length (sinks (get_arc sk k)))) sk k.
Proof. exact ghost_while_rounds. Qed.
Print Assumptions C21_while_loop_rounds.

(** list.remove of a sink that an earlier pair has already removed *)
Theorem C21_removeGhosts_never_raises_refuted :
  exists sk : list (@subtree F64), removeGhosts sk = Err ValueError.
Proof. exact ghosts_raise. Qed.
Print Assumptions C21_removeGhosts_never_raises_refuted.

(** ** C22 *)
Theorem C22_merging_ends_with_nothing_to_merge :
  forall (A : arith) (sk : list (@subtree A)) contours,
  let pts := map (@ep1 A) (concat contours) in
  mergeNodeClusters sk contours <> Err OutOfFuel /\
  forall sk', mergeNodeClusters sk contours = Ok sk' ->
    (exists n, merges pts contours n (merge_same_sources sk) sk' /\
               length sk' + n <= length (merge_same_sources sk)) /\
    findClusters sk' (seq 0 (length sk')) pts contours smallThresh = Ok [].
Proof. exact mergeNodeClusters_ends. Qed.
Print Assumptions C22_merging_ends_with_nothing_to_merge.

Theorem C22_no_group_left :
  forall (sk : list (@subtree RA)) contours sk' outer centers,
  mergeNodeClusters sk contours = Ok sk' -> nth_error contours 0 = Some outer -> detectApses outer = Ok centers ->
  exists gs, grouped (fun i => source (node_at sk' i)) (1 / 10) (seq 0 (length sk')) gs /\
    forall g, In g gs ->
      ~ mergeable sk' (map (@ep1 RA) (concat contours)) (match centers with Some cs => cs | None => [] end) g.
Proof. exact nothing_left_R. Qed.
Print Assumptions C22_no_group_left.

(** ** C23 *)
Theorem C23_cluster_replaced_by_center :
  forall (sk : list (@subtree RA)) cluster nodes,
  cluster <> [] -> Forall2 (fun i a => nth_error sk i = Some a) cluster nodes ->
  (forall i a b, ~ In i cluster -> nth_error sk i = Some a -> In b nodes -> source a <> source b) ->
  exists others rest new,
    mergeCluster sk cluster = Ok (rest ++ [new]) /\ rest_of sk cluster others /\
    vx (source new) = Rmean (map (fun a => vx (source a)) nodes) /\
    vy (source new) = Rmean (map (fun a => vy (source a)) nodes) /\
    height new = Rmean (map (@height RA) nodes) /\
    NoDup (sinks new) /\
    (forall x, In x (sinks new) <-> (exists a, In a nodes /\ In x (sinks a)) /\ ~ In x (map (@source RA) nodes)) /\
    Forall2 (fun a a' => source a' = source a /\ height a' = height a /\
               (~ In (source new) (map (@source RA) nodes) ->
                redirected (map (@source RA) nodes) (source new) (sinks a) (sinks a'))) others rest.
Proof. exact mergeCluster_R. Qed.
Print Assumptions C23_cluster_replaced_by_center.

(** if the center of gravity is one of the merged positions, links to it are lost, even in exact arithmetic *)
Theorem C23_links_always_redirected_refuted :
  exists (sk : list (@subtree QA)) cluster sk' a i c,
  mergeCluster sk cluster = Ok sk' /\
  In a sk /\ In i cluster /\ nth_error sk i = Some c /\ In (source c) (sinks a) /\
  forall a' b, In a' sk' -> In b sk' -> ~ In (source b) (sinks a').
Proof. exact link_lost. Qed.
Print Assumptions C23_links_always_redirected_refuted.

(** ** C24 *)
Theorem C24_same_positions_united :
  forall (A : arith), @exact_equality A -> forall sk : list (@subtree A), united sk (merge_same_sources sk).
Proof. exact (fun A EX => @united_ok A EX). Qed.
Print Assumptions C24_same_positions_united.

Theorem C24_real_numbers_are_exact : @exact_equality RA.
Proof. exact exact_R. Qed.
Print Assumptions C24_real_numbers_are_exact.

(** ** C25 *)
Theorem C25_event_height_is_distance :
  forall (contours : list (list (@edge2 RA))) st0 st e t s' arcs new,
  skeleton_start contours = Ok st0 -> reach st0 st (e :: t) -> handle_event (lo_slav st) e = Ok (s', arcs, new) ->
  no_dormer e ->
  forall a, In a arcs -> exists w, In w (concat contours) /\ dist_to_line (ep1 w) (ep2 w) (source a) (height a).
Proof. exact event_heights_R. Qed.
Print Assumptions C25_event_height_is_distance.

(** for every arithmetic, with Line2.distance; dormer events included (mean of two such distances) *)
Theorem C25_node_heights :
  forall (A : arith) (contours : list (list (@edge2 A))) st0 st pend,
  skeleton_start contours = Ok st0 -> reach st0 st pend ->
  forall a, In a (lo_out st) -> node_height (concat contours) a.
Proof. exact loop_heights. Qed.
Print Assumptions C25_node_heights.

(** ** C26 *)
Theorem C26_heights_not_negative :
  forall fuel (contours : list (list (@edge2 RA))) sk,
  skeletonize fuel contours = Ok sk -> forall a, In a sk -> (0 <= height a)%R.
Proof. exact skeletonize_heights_R. Qed.
Print Assumptions C26_heights_not_negative.

(** ** C27: the hypothesis of C27 holds in every state of the event loop *)
Theorem C27_references_stay_in_range :
  forall (A : arith) (contours : list (list (@edge2 A))) st0 st pend,
  skeleton_start contours = Ok st0 -> reach st0 st pend ->
  refs_in_range (s_vs (lo_slav st)) /\
  forall l, In l (s_act (lo_slav st)) -> l_head (getl (s_ls (lo_slav st)) l) < length (s_vs (lo_slav st)).
Proof. exact reach_in_range. Qed.
Print Assumptions C27_references_stay_in_range.

(** ** concrete cases *)

(** the L-shaped contour with a hole: the event loop ends, its nodes and the final skeleton *)
Example ex_skeleton :
  match raw_skeleton 100 [l_contour; l_hole], skeletonize 100 [l_contour; l_hole] with
  | Ok raw, Ok sk => (Nat.ltb 0 (length raw) && Nat.ltb 0 (length sk))%bool
  | _, _ => false
  end = true.
Proof. vm_compute. reflexivity. Qed.

(** two nodes share a position: united, the sinks joined *)
Definition qsk : list (@subtree QA) :=
  [Subtree (Pq (qi 1) (qi 1)) (qi 1) [Pq (qi 0) (qi 0); Pq (qi 5) (qi 5)];
   Subtree (Pq (qi 5) (qi 5)) (qi 2) [Pq (qi 9) (qi 9)];
   Subtree (Pq (qi 1) (qi 1)) (qi 3) [Pq (qi 0) (qi 0); Pq (qi 2) (qi 0)]].
Example ex_united :
  map (fun a => (length (sinks a), neqb (height a) (qi 1))) (merge_same_sources qsk) = [(3, true); (1, false)] /\
  united qsk (merge_same_sources qsk).
Proof. split; [vm_compute; reflexivity|exact (C24_same_positions_united exact_Q qsk)]. Qed.

(** a cluster of two nodes, with one node linked to it *)
Definition rsk : list (@subtree RA) :=
  [Subtree (rvec 0 0) 1%R [rvec 9 9]; Subtree (rvec 5 0) 2%R [rvec 0 0; rvec 7 7]; Subtree (rvec (1 / 32) 0) 3%R [rvec 0 0; rvec 8 8]].
Example ex_cluster :
  exists others rest new, mergeCluster rsk [0; 2] = Ok (rest ++ [new]) /\ rest_of rsk [0; 2] others /\
    vx (source new) = (1 / 64)%R /\ height new = 2%R /\ ~ In (source new) (map (@source RA) [nth 0 rsk (nth 1 rsk (Subtree (rvec 0 0) 0%R [])); nth 2 rsk (nth 1 rsk (Subtree (rvec 0 0) 0%R []))]).
Proof.
  destruct (@C23_cluster_replaced_by_center rsk [0; 2]
    [Subtree (rvec 0 0) 1%R [rvec 9 9]; Subtree (rvec (1 / 32) 0) 3%R [rvec 0 0; rvec 8 8]])
    as (others & rest & new & H1 & H2 & H3 & H4 & H5 & _).
  - discriminate.
  - repeat constructor.
  - intros i a b Hi Ha Hb K. destruct i as [|[|[|i]]]; simpl in Ha.
    + apply Hi; simpl; auto.
    + injection Ha as <-. destruct Hb as [<-|[<-|[]]]; cbn [source] in K; apply (f_equal vx) in K; simpl in K; lra.
    + apply Hi; simpl; auto.
    + destruct i; discriminate.
  - exists others, rest, new. split; auto. split; auto. unfold Rmean, Rsum in *. simpl in *.
    assert (K : vx (source new) = (1 / 64)%R) by (rewrite H3; lra).
    split; auto. split; [rewrite H5; lra|].
    intros [E|[E|[]]]; rewrite <- E in K; simpl in K; lra.
Qed.
