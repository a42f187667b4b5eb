(** * RenumLav: the skeleton does not depend on the numbers of the vertices *)

From Coq Require Import ZArith List Lia Bool.
From Verif Require Import Py PyFacts Arith Euclid Heapq Lav Cluster TurnSpec SymLav.
Set Implicit Arguments.
Unset Strict Implicit.

Section Renum.
Context {A : arith}.

(** the edge with the numbers of its ends replaced *)
Definition renumbered (r : Z -> Z) (e : @edge2 A) : @edge2 A := Edge (eid e) (ep1 e) (ep2 e) (enorm e) (r (ei1 e)) (r (ei2 e)).

Notation erased := (renumbered (fun _ => 0%Z)).
Notation idv := (fun v : vec A => v).

Lemma lin_id (l : @lin A) : t_lin idv l = l.
Proof. destruct l. auto. Qed.

Lemma node_id (a : @subtree A) : t_node idv a = a.
Proof. destruct a. unfold t_node. cbn. rewrite map_id. auto. Qed.

Lemma opt_id (S : Type) (o : option S) : option_map (fun x => x) o = o.
Proof. destruct o; auto. Qed.

Lemma erase_laws : sym_laws idv (fun _ => 0%Z).
Proof. constructor; auto; intros a b; rewrite ?lin_id, ?opt_id; auto. Qed.

Lemma raw_erased fuel cs : raw_skeleton fuel (map (map erased) cs) = raw_skeleton fuel cs.
Proof.
  transitivity (res_map (map (t_node idv)) (raw_skeleton fuel cs)); [exact (SymLav.t_raw erase_laws fuel cs)|]. destruct (raw_skeleton fuel cs) as [sk|]; cbn [res_map]; auto. f_equal. rewrite <- (map_id sk) at 2. apply map_ext. apply node_id.
Qed.

Lemma apses_erased k : detectApses (map erased k) = detectApses k.
Proof.
  unfold detectApses, apse_sequence. rewrite circ_map. destruct (circ_prev_next k) as [pn|]; cbn [res_map bind]; auto. rewrite map_map.
  assert (E : map (fun x : @edge2 A * @edge2 A => low_angle (erased (fst x), erased (snd x))) pn = map low_angle pn) by (apply map_ext; intros [a b]; reflexivity).
  rewrite E. clear E. destruct (forallb _ _); auto. cbv zeta. destruct (runs 0 0 _) as [|m ms]; auto. f_equal.
  apply mapM_ext. intros se _. f_equal. apply mapM_ext. intros i _. rewrite nth_error_map. destruct (nth_error k _); auto.
Qed.

Lemma merge_loop_erased fuel : forall sk cv ec, merge_loop fuel sk cv (map (map erased) ec) = merge_loop fuel sk cv ec.
Proof.
  induction fuel as [|f IH]; intros sk cv ec; cbn [merge_loop]; auto.
  assert (E : findClusters sk (seq 0 (length sk)) cv (map (map erased) ec) smallThresh = findClusters sk (seq 0 (length sk)) cv ec smallThresh).
  { unfold findClusters. rewrite get_map. destruct (py_get ec 0) as [o|]; cbn [res_map bind]; auto. rewrite apses_erased. auto. }
  rewrite E. clear E. destruct (findClusters _ _ _ _ _) as [[|k ks]|]; cbn [bind]; try reflexivity. destruct (mergeCluster sk _) as [sk'|]; cbn [bind]; auto.
Qed.

Lemma skeleton_erased fuel cs : skeletonize fuel (map (map erased) cs) = skeletonize fuel cs.
Proof.
  unfold skeletonize. rewrite raw_erased. destruct (raw_skeleton fuel cs) as [raw|]; cbn [bind]; auto. unfold mergeNodeClusters. cbv zeta.
  assert (E : map (@ep1 A) (concat (map (map erased) cs)) = map (@ep1 A) (concat cs)).
  { rewrite <- concat_map, map_map. reflexivity. }
  rewrite E, merge_loop_erased. auto.
Qed.

Theorem skeleton_renumbered fuel r cs : skeletonize fuel (map (map (renumbered r)) cs) = skeletonize fuel cs.
Proof.
  rewrite <- (skeleton_erased fuel (map (map (renumbered r)) cs)), <- (skeleton_erased fuel cs). f_equal. rewrite map_map. apply map_ext. intros k. rewrite map_map. reflexivity.
Qed.
End Renum.
