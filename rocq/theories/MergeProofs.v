(** * MergeProofs: lemmas about findClusters, mergeCluster and mergeNodeClusters (bpypolyskel.py:577-713) *)

From Coq Require Import Permutation.
From Verif Require Import Py PyFacts Arith Euclid Lav Cluster ClusterSpec GhostProofs.
Set Implicit Arguments.
Unset Strict Implicit.
Local Open Scope nat_scope.

Section Merge.
Context {A : arith}.
Notation num := (num A).
Notation vec := (vec A).
Notation subtree := (@subtree A).
Notation edge2 := (@edge2 A).
Implicit Types sk : list subtree.

(** ** the clusters found *)
Definition good_cluster (n : nat) (c : list nat) : Prop :=
  NoDup c /\ 2 <= length c /\ forall i, In i c -> i < n.

Lemma NoDup_filter X (p : X -> bool) l : NoDup l -> NoDup (filter p l).
Proof.
  induction l as [|x t IH]; simpl; intros H; [constructor|]. inversion H; subst.
  destruct (p x); auto. constructor; auto. rewrite filter_In. tauto.
Qed.

Lemma cluster_loop_good n fuel : forall sk cv ap th cands, NoDup cands -> (forall i, In i cands -> i < n) ->
  forall c, In c (cluster_loop fuel sk cv ap th cands) -> good_cluster n c /\ incl c cands.
Proof.
  induction fuel as [|f IH]; intros sk cv ap th [|c0 rest] Hnd Hr c Hc; cbn [cluster_loop] in Hc; try destruct Hc.
  cbv zeta in Hc.
  set (cl := c0 :: filter (fun c => nltb (manhattan (source (get_arc sk c0)) (source (get_arc sk c))) th) rest) in *.
  set (cands' := filter (fun c => negb (existsb (Nat.eqb c) cl)) (c0 :: rest)) in *.
  inversion Hnd as [|? ? N1 N2]; subst.
  assert (G : In c (cluster_loop f sk cv ap th cands') -> good_cluster n c /\ incl c (c0 :: rest)).
  { intros H. apply IH in H.
    - destruct H as [H1 H2]. split; auto. intros i Hi. apply H2 in Hi. apply filter_In in Hi. tauto.
    - apply NoDup_filter. auto.
    - intros i Hi. apply filter_In in Hi as [Hi _]. auto. }
  destruct (accept_cluster _ _ _ _ cl) eqn:Ea; auto. destruct Hc as [<-|Hc]; auto.
  unfold accept_cluster in Ea. destruct (Nat.leb_spec (length cl) 1) as [Hl|Hl]; [discriminate|].
  assert (Hi : incl cl (c0 :: rest)).
  { intros i [->|Hi]; simpl; auto. right. apply filter_In in Hi. tauto. }
  split; auto. split; [|split]; auto.
  unfold cl. constructor; [|apply NoDup_filter; auto]. rewrite filter_In. tauto.
Qed.

Lemma findClusters_good sk cv ec th cs : findClusters sk (seq 0 (length sk)) cv ec th = Ok cs ->
  forall c, In c cs -> good_cluster (length sk) c.
Proof.
  unfold findClusters. destruct (py_get ec 0) as [o|]; [|discriminate]. cbn [bind].
  destruct (detectApses o) as [ap|]; [|discriminate]. cbn [bind]. intros H. apply Ok_inj in H. subst cs.
  intros c Hc. eapply cluster_loop_good in Hc; [apply Hc| |].
  - apply seq_NoDup.
  - intros i Hi. apply in_seq in Hi. lia.
Qed.

Lemma largest_in c cs : In (largest_cluster c cs) (c :: cs).
Proof. apply first_best_in. Qed.

Lemma largest_longest c cs : forall c', In c' (c :: cs) -> length c' <= length (largest_cluster c cs).
Proof.
  intros c' Hc'. unfold largest_cluster.
  pose proof (@first_best_best _ (fun x best : list nat => Nat.ltb (length best) (length x))) as F.
  rewrite <- Nat.ltb_ge. apply F with (b := c) (l := cs); auto.
  - intros x y z H1 H2. apply Nat.ltb_lt in H1. apply Nat.ltb_ge in H2. apply Nat.ltb_lt. lia.
  - intros x y H1. apply Nat.ltb_lt in H1. apply Nat.ltb_ge. lia.
Qed.

(** ** mergeCluster: the nodes that stay *)
Definition outside sk (cluster : list nat) : list subtree :=
  map snd (filter (fun ia => negb (existsb (Nat.eqb (fst ia)) cluster)) (enumerate sk)).

Lemma existsb_eqb_In i l : existsb (Nat.eqb i) l = true <-> In i l.
Proof.
  rewrite existsb_exists. split.
  - intros (x & Hx & E). apply Nat.eqb_eq in E. subst; auto.
  - intros H. exists i. split; auto. apply Nat.eqb_refl.
Qed.

Lemma outside_In sk cluster a : In a (outside sk cluster) <-> exists i, nth_error sk i = Some a /\ ~ In i cluster.
Proof.
  unfold outside. rewrite in_map_iff. split.
  - intros ([i x] & <- & H). apply filter_In in H as [H1 H2]. apply In_enumerate in H1. exists i. split; auto.
    simpl in H2. apply negb_true_iff in H2. intros K. apply existsb_eqb_In in K. congruence.
  - intros (i & H1 & H2). exists (i, a). split; auto. apply filter_In. split; [apply In_enumerate; auto|].
    simpl. apply negb_true_iff. destruct (existsb (Nat.eqb i) cluster) eqn:E; auto.
    apply existsb_eqb_In in E. tauto.
Qed.

Lemma outside_map sk cluster (f : subtree -> subtree) : outside (map f sk) cluster = map f (outside sk cluster).
Proof.
  unfold outside, enumerate. rewrite map_length.
  assert (G : forall k, map snd (filter (fun ia => negb (existsb (Nat.eqb (fst ia)) cluster)) (combine (seq k (length sk)) (map f sk))) =
     map f (map snd (filter (fun ia => negb (existsb (Nat.eqb (fst ia)) cluster)) (combine (seq k (length sk)) sk)))); auto.
  induction sk as [|a t IH]; intros k; simpl; auto. destruct (existsb (Nat.eqb k) cluster); simpl; auto. f_equal. auto.
Qed.

Lemma filter_partition_perm X (p : X -> bool) l : Permutation l (filter p l ++ filter (fun x => negb (p x)) l).
Proof.
  induction l as [|x t IH]; simpl; auto. destruct (p x); simpl; auto.
  apply Permutation_cons_app. auto.
Qed.

Lemma outside_length sk cluster : NoDup cluster -> (forall i, In i cluster -> i < length sk) ->
  length (outside sk cluster) + length cluster = length sk.
Proof.
  intros Hnd Hr. unfold outside. rewrite map_length.
  assert (G : length (filter (fun ia => negb (existsb (Nat.eqb (fst ia)) cluster)) (enumerate sk)) =
              length (filter (fun i => negb (existsb (Nat.eqb i) cluster)) (seq 0 (length sk)))).
  { rewrite <- (map_fst_enumerate sk). induction (enumerate sk) as [|x t IH]; simpl; auto.
    destruct (existsb (Nat.eqb (fst x)) cluster); simpl; auto. }
  rewrite G. pose proof (filter_partition_perm (fun i => existsb (Nat.eqb i) cluster) (seq 0 (length sk))) as P.
  apply Permutation_length in P. rewrite app_length, seq_length in P.
  assert (P2 : Permutation cluster (filter (fun i => existsb (Nat.eqb i) cluster) (seq 0 (length sk)))).
  { apply NoDup_Permutation; auto.
    - apply NoDup_filter. apply seq_NoDup.
    - intros i. rewrite filter_In, existsb_eqb_In, in_seq. split; [intros H; specialize (Hr i H); split; [lia|auto]|tauto]. }
  apply Permutation_length in P2. lia.
Qed.

Lemma mergeCluster_shape sk cluster sk' : mergeCluster sk cluster = Ok sk' ->
  let nodes := map (get_arc sk) cluster in
  let M := map (@source A) nodes in
  exists cx cy ch,
    pdiv (fold_left (fun a n => nadd a (vx (source n))) nodes zeroN) (nofZ (Z.of_nat (length cluster))) = Ok cx /\
    pdiv (fold_left (fun a n => nadd a (vy (source n))) nodes zeroN) (nofZ (Z.of_nat (length cluster))) = Ok cy /\
    pdiv (fold_left (fun a n => nadd a (height n)) nodes zeroN) (nofZ (Z.of_nat (length cluster))) = Ok ch /\
    sk' = map (redirect_arc M (mkvec cx cy)) (outside sk cluster) ++
          [Subtree (mkvec cx cy) ch (fold_left (fun acc a => collect_sinks M acc (sinks a)) nodes [])].
Proof.
  unfold mergeCluster. cbv zeta.
  destruct (pdiv _ _) as [cx|] eqn:Ex; [|discriminate]. cbn [bind].
  destruct (pdiv (fold_left (fun a n => nadd a (vy (source n))) _ _) _) as [cy|] eqn:Ey; [|discriminate]. cbn [bind].
  destruct (pdiv (fold_left (fun a n => nadd a (height n)) _ _) _) as [ch|] eqn:Eh; [|discriminate]. cbn [bind].
  intros H. apply Ok_inj in H. exists cx, cy, ch. split; auto. split; auto. split; auto. rewrite <- H. f_equal.
  change (map snd (filter (fun ia => negb (existsb (Nat.eqb (fst ia)) cluster))
    (enumerate (map (redirect_arc (map (@source A) (map (get_arc sk) cluster)) (mkvec cx cy)) sk)))) with
    (outside (map (redirect_arc (map (@source A) (map (get_arc sk) cluster)) (mkvec cx cy)) sk) cluster).
  apply outside_map.
Qed.

Lemma mergeCluster_length sk cluster sk' : mergeCluster sk cluster = Ok sk' -> good_cluster (length sk) cluster ->
  length sk' + length cluster = S (length sk).
Proof.
  intros H (G1 & G2 & G3). apply mergeCluster_shape in H as (cx & cy & ch & _ & _ & _ & ->).
  rewrite app_length, map_length. simpl. pose proof (outside_length G1 G3). lia.
Qed.

Lemma mergeCluster_err sk cluster x : mergeCluster sk cluster = Err x -> x = ZeroDivisionError.
Proof.
  unfold mergeCluster, pdiv. cbv zeta. destruct (neqb _ zeroN); cbn [bind]; congruence.
Qed.

(** ** the loop *)
Lemma merge_loop_facts fuel : forall sk cv ec, length sk < fuel ->
  match merge_loop fuel sk cv ec with
  | Ok sk' => (exists n, merges cv ec n sk sk' /\ length sk' + n <= length sk) /\
              findClusters sk' (seq 0 (length sk')) cv ec smallThresh = Ok []
  | Err x => x <> OutOfFuel
  end.
Proof.
  induction fuel as [|f IH]; intros sk cv ec Hf; [lia|]. cbn [merge_loop].
  destruct (findClusters sk _ cv ec smallThresh) as [cs|x] eqn:Ec; cbn [bind].
  2: { unfold findClusters in Ec. unfold py_get in Ec. destruct ec as [|e0 et]; [simpl in Ec; congruence|].
       simpl in Ec. destruct (detectApses e0) as [ap|y] eqn:Ed; simpl in Ec; [discriminate|].
       injection Ec as <-. unfold detectApses in Ed.
       destruct (apse_sequence e0) as [sq|z] eqn:Es; cbn [bind] in Ed.
       - destruct (forallb _ sq); [discriminate|].
         assert (G : forall (F : nat * nat -> res vec) l z, (forall x z, F x = Err z -> z <> OutOfFuel) ->
                       mapM F l = Err z -> z <> OutOfFuel).
         { intros F l z HF. induction l as [|a l IHl]; cbn [mapM]; [discriminate|].
           destruct (F a) eqn:EF; cbn [bind]; [|intros [= <-]; eapply HF; eauto].
           destruct (mapM F l); cbn [bind]; [discriminate|]. intros [= <-]. auto. }
         assert (Hcd : forall (a b : @cpx A) z, cdiv a b = Err z -> z <> OutOfFuel).
         { intros a b z. unfold cdiv. destruct (ngeb _ _); [destruct (neqb _ _)|]; congruence. }
         assert (Hfit : forall l z, fitCircle3Points (A := A) l = Err z -> z <> OutOfFuel).
         { intros l z. unfold fitCircle3Points.
           assert (Hg : forall i z, py_get l i = Err z -> z <> OutOfFuel).
           { intros i z0. unfold py_get. cbv zeta. destruct (_ && _); [|congruence].
             destruct (nth_error _ _); simpl; congruence. }
           destruct (py_get l 0) eqn:E1; cbn [bind]; [|intros [= <-]; eapply Hg; eauto].
           destruct (py_get l (Z.of_nat (length l) / 2)) eqn:E2; cbn [bind]; [|intros [= <-]; eapply Hg; eauto].
           destruct (py_get l (-1)) eqn:E3; cbn [bind]; [|intros [= <-]; eapply Hg; eauto].
           cbv zeta. destruct (cdiv _ _) eqn:E4; cbn [bind]; [|intros [= <-]; eapply Hcd; eauto].
           destruct (cdiv (cmul _ _) _) eqn:E5; cbn [bind]; [|intros [= <-]; eapply Hcd; eauto].
           destruct (cdiv _ (creal _)) eqn:E6; cbn [bind]; [discriminate|intros [= <-]; eapply Hcd; eauto]. }
         cbv zeta in Ed. destruct (runs 0 0 (sq ++ sq)) as [|m ms]; [discriminate|].
         destruct (mapM _ (filter _ _)) as [c|z] eqn:Em; cbn [bind] in Ed; [discriminate|]. injection Ed as <-.
         eapply G; [|exact Em]. intros [a b] z'. simpl.
         destruct (mapM _ (seq a (b - a))) as [vs|w] eqn:Ev; cbn [bind].
         + destruct (fitCircle3Points vs) eqn:Ef; cbn [bind]; [discriminate|]. intros [= <-]. eapply Hfit; eauto.
         + intros [= <-]. apply mapM_err in Ev as (i & _ & Hi).
           destruct (nth_error e0 _); simpl in Hi; congruence.
       - injection Ed as <-. unfold apse_sequence, circ_prev_next in Es. destruct e0; simpl in Es; congruence. }
  pose proof (findClusters_good Ec) as Hg. destruct cs as [|c t].
  - split; auto. exists 0. split; [constructor|lia].
  - pose proof (largest_in c t) as Hl. set (best := largest_cluster c t) in *.
    destruct (mergeCluster sk best) as [sk1|x] eqn:Em; cbn [bind].
    2: { apply mergeCluster_err in Em. congruence. }
    pose proof (mergeCluster_length Em (Hg _ Hl)) as Hlen. destruct (Hg _ Hl) as (_ & H2 & _).
    assert (Hf' : length sk1 < f) by lia. specialize (IH sk1 cv ec Hf').
    destruct (merge_loop f sk1 cv ec) as [sk'|x]; auto. destruct IH as ((n & I1 & I2) & I3). split; auto.
    exists (S n). split; [|lia]. eapply merges_S; eauto. apply largest_longest.
Qed.

(** a property kept by every merge *)
Lemma merges_invariant (P : list subtree -> Prop) cv ec :
  (forall sk c cs sk1, P sk -> findClusters sk (seq 0 (length sk)) cv ec smallThresh = Ok cs -> In c cs ->
     mergeCluster sk c = Ok sk1 -> P sk1) ->
  forall n sk sk', merges cv ec n sk sk' -> P sk -> P sk'.
Proof. intros H n sk sk' Hm. induction Hm; auto. intros HP. apply IHHm. eapply H; eauto. Qed.

(** ** nodes at identical positions *)
Lemma add_node_shape acc (p : subtree) :
  (exists l1 q l2, acc = l1 ++ q :: l2 /\ same_coords (source q) (source p) = true /\
     (forall r, In r l1 -> same_coords (source r) (source p) = false) /\
     add_node acc p =
     l1 ++ with_sinks (fold_left (fun l s => if py_in veq s l then l else l ++ [s]) (sinks p) (sinks q)) q :: l2) \/
  ((forall q, In q acc -> same_coords (source q) (source p) = false) /\ add_node acc p = acc ++ [p]).
Proof.
  induction acc as [|q t IH]; cbn [add_node]; [right; split; auto; intros q []|].
  destruct (same_coords (source q) (source p)) eqn:E.
  - left. exists [], q, t. split; auto. split; auto. split; auto. intros r [].
  - destruct IH as [(l1 & r & l2 & -> & H1 & H2 & ->)|[H1 ->]].
    + left. exists (q :: l1), r, l2. split; auto. split; auto. split; auto. intros x [<-|Hx]; auto.
    + right. split; auto. intros x [<-|Hx]; auto.
Qed.

Definition ordered_apart (l : list subtree) : Prop :=
  forall l1 q l2 p l3, l = l1 ++ q :: l2 ++ p :: l3 -> same_coords (source q) (source p) = false.

Lemma ordered_apart_map l l' : map (@source A) l = map (@source A) l' -> ordered_apart l -> ordered_apart l'.
Proof.
  intros Hm H l1 q l2 p l3 ->.
  rewrite !map_app in Hm. simpl in Hm. rewrite !map_app in Hm. simpl in Hm.
  symmetry in Hm.
  assert (G : forall (l : list subtree) a x b, map (@source A) a ++ x :: b = map (@source A) l -> 
     exists l1 y l2, l = l1 ++ y :: l2 /\ source y = x /\ map (@source A) l2 = b).
  { intros k a x b Hk. symmetry in Hk. apply map_eq_app in Hk as (k1 & k2 & -> & _ & Hk2).
    apply map_eq_cons in Hk2 as (y & k3 & -> & Hy & Hk3). exists k1, y, k3. auto. }
  apply G in Hm as (k1 & y & k2 & -> & Hy & Hk). symmetry in Hk. apply G in Hk as (k3 & z & k4 & -> & Hz & _).
  rewrite <- Hy, <- Hz. eapply H; eauto.
Qed.

Lemma merge_same_apart sk : ordered_apart (merge_same_sources sk).
Proof.
  unfold merge_same_sources. rewrite <- fold_left_rev_right. induction (rev sk) as [|p l IH]; simpl.
  - intros l1 q l2 p l3 H. destruct l1; discriminate.
  - set (acc := fold_right _ _ l) in *. destruct (add_node_shape acc p) as [(l1 & q & l2 & E & E1 & E2 & ->)|[E1 ->]].
    + eapply ordered_apart_map; [|exact IH]. rewrite E, !map_app. simpl. auto.
    + intros l1 q l2 r l3 H.
      destruct l3 as [|x l3] using rev_ind.
      * assert (H' : acc ++ [p] = (l1 ++ q :: l2) ++ [r]) by (rewrite H, <- app_assoc; reflexivity).
        apply app_inj_tail in H' as [-> ->]. apply E1. apply in_app_iff. simpl; auto.
      * clear IHl3. assert (H' : acc ++ [p] = (l1 ++ q :: l2 ++ r :: l3) ++ [x]).
        { rewrite H, <- app_assoc. simpl. rewrite <- app_assoc. reflexivity. }
        apply app_inj_tail in H' as [-> ->]. eapply IH; eauto.
Qed.

(** every node kept is one of the given nodes with sinks added; heights and positions are old ones *)
Lemma merge_same_in sk q : In q (merge_same_sources sk) -> exists p, In p sk /\ source p = source q /\ height p = height q.
Proof.
  unfold merge_same_sources. rewrite <- fold_left_rev_right.
  assert (G : forall (l : list subtree) (q : subtree), In q (fold_right (fun p acc => add_node acc p) [] l) ->
     exists p, In p l /\ source p = source q /\ height p = height q).
  { clear q. induction l as [|p l IH]; intros q; simpl; [intros []|]. set (acc := fold_right _ _ l) in *.
    destruct (add_node_shape acc p) as [(l1 & r & l2 & E & E1 & E2 & ->)|[E1 ->]].
    - intros H. apply in_app_iff in H as [H|[<-|H]].
      + destruct (IH q) as (x & Hx & K); [rewrite E; apply in_app_iff; auto|]. exists x; auto.
      + destruct (IH r) as (x & Hx & K); [rewrite E; apply in_app_iff; simpl; auto|]. exists x; auto.
      + destruct (IH q) as (x & Hx & K); [rewrite E; apply in_app_iff; simpl; auto|]. exists x; auto.
    - intros H. apply in_app_iff in H as [H|[<-|[]]]; [|exists p; auto].
      destruct (IH q H) as (x & Hx & K). exists x; auto. }
  intros H. apply G in H as (p & Hp & K). exists p. split; auto. apply in_rev. auto.
Qed.

End Merge.
