(** * SkeletonFacts: the statements about skeletonize, assembled *)

From Coq Require Import Permutation Reals Lra.
From Verif Require Import Py PyFacts Arith ArithR RSpec Euclid Lav Cluster ClusterSpec GhostProofs MergeProofs MergeExact MergeR
  LavSpec LavWalk LavGrow LoopSpec LavLoop LoopStart GeoSpec GeoR.
Set Implicit Arguments.
Unset Strict Implicit.
Local Open Scope nat_scope.

(** ** C25 *)
Lemma event_heights (A : arith) (contours : list (list (@edge2 A))) st0 st e t s' arcs new :
  skeleton_start contours = Ok st0 -> reach st0 st (e :: t) -> handle_event (lo_slav st) e = Ok (s', arcs, new) ->
  (no_dormer e -> forall a, In a arcs -> edge_distance (concat contours) (height a) (source a)) /\
  (forall a, In a arcs -> node_height (concat contours) a).
Proof.
  intros H Hr Hh. destruct (skeleton_reach H Hr) as (Hs & Hv).
  destruct (Hv e) as [V1 V2]; [simpl; auto|]. pose proof Hs as (Hrng & _).
  destruct (handle_event_grow Hrng V1 Hh) as (_ & Ha & _). destruct Ha as [[-> _]|Ha].
  { split; [intros _|]; intros a []. }
  destruct e as [d ip va vb|d ip v opp|d dp vp dn vn de ipe va vb].
  - destruct Ha as (ids & -> & _). split; [intros _|]; intros a [<-|[]]; simpl; auto. left; auto.
  - destruct Ha as (ids & -> & _). destruct V2 as (V2 & _). split; [intros _|]; intros a [<-|[]]; simpl; auto. left; auto.
  - split; [intros []|]. destruct Ha as (p & _ & ->). destruct V2 as (V21 & (p1 & V22) & (p2 & V23)).
    intros a [<-|[<-|[]]]; [left; auto|]. right. exists dp, p1, dn, p2. auto.
Qed.

Lemma loop_heights (A : arith) (contours : list (list (@edge2 A))) st0 st pend :
  skeleton_start contours = Ok st0 -> reach st0 st pend ->
  forall a, In a (lo_out st) -> node_height (concat contours) a.
Proof. intros H Hr a Ha. destruct (skeleton_reach H Hr) as ((_ & _ & _ & H4) & _). apply H4; auto. Qed.

Lemma raw_heights (A : arith) (contours : list (list (@edge2 A))) fuel out :
  raw_skeleton fuel contours = Ok out -> forall a, In a out -> node_height (concat contours) a.
Proof. intros H a Ha. apply (raw_skeleton_inv H Ha). Qed.

Lemma raw_closed (A : arith) (contours : list (list (@edge2 A))) fuel out :
  raw_skeleton fuel contours = Ok out -> closed (map (@ep1 A) (concat contours)) out.
Proof.
  intros H a p Ha Hp. destruct (raw_skeleton_inv H Ha) as [_ Hk]. destruct (Hk p Hp) as [K|K]; auto.
  right. apply in_map_iff in K as (b & <- & Hb). exists b; auto.
Qed.

Lemma reach_in_range (A : arith) (contours : list (list (@edge2 A))) st0 st pend :
  skeleton_start contours = Ok st0 -> reach st0 st pend ->
  refs_in_range (s_vs (lo_slav st)) /\
  forall l, In l (s_act (lo_slav st)) -> l_head (getl (s_ls (lo_slav st)) l) < length (s_vs (lo_slav st)).
Proof.
  intros H Hr. destruct (skeleton_reach H Hr) as (((R1 & R2 & R3) & _) & _). split; auto.
  intros v Hv. apply In_nth_error in Hv as (i & Hi). assert (Hl : i < length (s_vs (lo_slav st))) by (apply nth_error_Some; congruence).
  destruct (R1 i Hl) as [K _]. unfold getv in K. rewrite (nth_error_nth _ _ _ Hi) in K. auto.
Qed.

(** ** C20, C21 *)
Lemma removeGhosts_nodes (A : arith) (sk sk' : list (@subtree A)) : removeGhosts sk = Ok sk' ->
  length sk' = length sk /\
  map (@source A) sk' = map (@source A) sk /\ map (@height A) sk' = map (@height A) sk /\
  (forall p, is_sink sk' p -> is_sink sk p).
Proof.
  intros H. pose proof (removeGhosts_facts sk) as F. rewrite H in F. destruct F as (F1 & F2 & F3).
  split; auto. rewrite <- (map_length (@source A) sk'), F1, map_length. auto.
Qed.

Lemma removeGhosts_ends (A : arith) (sk : list (@subtree A)) :
  (exists sk', removeGhosts sk = Ok sk') \/ removeGhosts sk = Err ValueError \/ removeGhosts sk = Err ZeroDivisionError.
Proof.
  pose proof (removeGhosts_facts sk) as F. destruct (removeGhosts sk) as [sk'|x]; [left; eauto|].
  destruct F as [-> | ->]; auto.
Qed.

Lemma ghost_while_rounds (A : arith) (sk : list (@subtree A)) k fuel :
  length (sinks (get_arc sk k)) < fuel ->
  ghost_while fuel sk k <> Err OutOfFuel /\
  ghost_while fuel sk k = ghost_while (S (length (sinks (get_arc sk k)))) sk k.
Proof.
  intros H. split; [|apply ghost_while_fuel; lia].
  pose proof (ghost_while_facts H) as F. destruct (ghost_while fuel sk k) as [sk'|x]; [discriminate|].
  destruct F as [-> | ->]; discriminate.
Qed.

(** ** C22 *)
Lemma mergeNodeClusters_ends (A : arith) (sk : list (@subtree A)) ec :
  let pts := map (@ep1 A) (concat ec) in
  mergeNodeClusters sk ec <> Err OutOfFuel /\
  forall sk', mergeNodeClusters sk ec = Ok sk' ->
    (exists n, merges pts ec n (merge_same_sources sk) sk' /\ length sk' + n <= length (merge_same_sources sk)) /\
    findClusters sk' (seq 0 (length sk')) pts ec smallThresh = Ok [].
Proof.
  intros pts. unfold mergeNodeClusters. fold pts. set (s := merge_same_sources sk).
  pose proof (@merge_loop_facts A (S (length s)) s pts ec (Nat.lt_succ_diag_r _)) as F.
  destruct (merge_loop _ s pts ec) as [r|x].
  - split; [discriminate|]. intros sk' H. apply Ok_inj in H. subst r. auto.
  - split; [congruence|discriminate].
Qed.

Lemma nothing_left_R (sk : list (@subtree RA)) contours sk' outer centers :
  mergeNodeClusters sk contours = Ok sk' -> nth_error contours 0 = Some outer -> detectApses outer = Ok centers ->
  exists gs, grouped (fun i => source (node_at sk' i)) (1 / 10) (seq 0 (length sk')) gs /\
    forall g, In g gs -> ~ mergeable sk' (map (@ep1 RA) (concat contours)) (match centers with Some cs => cs | None => [] end) g.
Proof.
  intros H Ho Ha. destruct (mergeNodeClusters_ends sk contours) as [_ F]. destruct (F _ H) as (_ & F2).
  destruct (findClusters_grouped Ho Ha F2) as (gs & G1 & G2). exists gs. split; auto.
  intros g Hg Hm. apply (proj2 (G2 g)). auto.
Qed.

(** ** C23 *)
Lemma mergeCluster_R (sk : list (@subtree RA)) cluster nodes :
  cluster <> [] -> Forall2 (fun i a => nth_error sk i = Some a) cluster nodes ->
  (forall i a b, ~ In i cluster -> nth_error sk i = Some a -> In b nodes -> source a <> source b) ->
  exists others rest new,
    mergeCluster sk cluster = Ok (rest ++ [new]) /\ rest_of sk cluster others /\
    vx (source new) = Rmean (map (fun a => vx (source a)) nodes) /\
    vy (source new) = Rmean (map (fun a => vy (source a)) nodes) /\
    height new = Rmean (map (@height RA) nodes) /\
    NoDup (sinks new) /\
    (forall x, In x (sinks new) <-> (exists a, In a nodes /\ In x (sinks a)) /\ ~ In x (map (@source RA) nodes)) /\
    Forall2 (fun a a' => source a' = source a /\ height a' = height a /\
               (~ In (source new) (map (@source RA) nodes) ->
                redirected (map (@source RA) nodes) (source new) (sinks a) (sinks a'))) others rest.
Proof.
  intros Hne Hn Hsep. pose proof (members_Forall2 Hn) as Hm.
  assert (Hs : separate sk cluster).
  { intros a b Ha Hb. rewrite Hm in Hb. apply outside_In in Ha as (i & Hi & Hi2). eapply Hsep; eauto. }
  destruct (mergeCluster sk cluster) as [sk'|x] eqn:E.
  2: { exfalso. unfold mergeCluster in E. cbv zeta in E. rewrite !pdiv_R, nofZ_R in E.
       destruct (Reqb_spec (INR (length cluster)) 0) as [K|K]; [|discriminate].
       apply INR_eq with (m := 0) in K. destruct cluster; [congruence|discriminate]. }
  destruct (mergeCluster_spec exact_R E Hs) as (cx & cy & ch & rest & new & -> & S1 & S2 & S3 & S4 & S5 & S6 & S7 & S8).
  apply (pdiv_mean (f := fun a => vx (source a))) in S1 as [S1 _].
  apply (pdiv_mean (f := fun a => vy (source a))) in S2 as [S2 _].
  apply (pdiv_mean (f := @height RA)) in S3 as [S3 _].
  rewrite Hm in *. exists (outside sk cluster), rest, new. split; auto. split; [apply outside_rest|].
  rewrite S4. simpl. split; auto. split; auto. split; [congruence|]. split; auto. split; auto.
  clear -S8 S4. rewrite S4 in S8. induction S8 as [|a a' l l' (K1 & K2 & K3) K4 IH]; constructor; auto.
  split; auto. split; auto. intros K. apply redirected_ok with (EX := exact_R). auto.
Qed.

(** ** C25 in exact arithmetic *)
Lemma edge_distance_R (E : list (@edge2 RA)) d p :
  edge_distance E d p -> exists e, In e E /\ dist_to_line (ep1 e) (ep2 e) p d.
Proof. intros (e & He & ->). exists e. split; auto. apply edge_line_distance_R. Qed.

Lemma event_heights_R (contours : list (list (@edge2 RA))) st0 st e t s' arcs new :
  skeleton_start contours = Ok st0 -> reach st0 st (e :: t) -> handle_event (lo_slav st) e = Ok (s', arcs, new) ->
  no_dormer e ->
  forall a, In a arcs -> exists w, In w (concat contours) /\ dist_to_line (ep1 w) (ep2 w) (source a) (height a).
Proof.
  intros H Hr Hh Hn a Ha. apply edge_distance_R. apply (proj1 (event_heights H Hr Hh) Hn). auto.
Qed.
