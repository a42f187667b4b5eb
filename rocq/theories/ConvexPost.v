(** * ConvexPost: merging of nodes and removal of ghosts leave the nodes of a convex contour alone (C49) *)

From Coq Require Import Permutation Reals Lra.
From Verif Require Import Py PyFacts Arith ArithR Euclid Lav Cluster ClusterSpec GeoSpec GeoLines BisSpec BisProofs BisStart PatSpec PatProofs TriSkel
  ConvexSpec ConvexGeo ConvexWave RoofSpec ConvexComb ConvexTree.
Set Implicit Arguments.
Unset Strict Implicit.
Local Open Scope nat_scope.

(** ** a convex contour has no collinear vertices, so circles can be fitted *)
Theorem convex_apses (c : list (@edge2 RA)) : convex_contour c -> exists a, detectApses c = Ok a.
Proof.
  intros Hc. pose proof (n_pos Hc) as H3. assert (Hne : c <> []) by (intros ->; simpl in H3; lia).
  destruct (detectApses_spec Hne) as (rs & _ & Hrs & _ & H0 & H1). destruct rs as [|r rs']; [rewrite H0; eauto|].
  specialize (H1 ltac:(discriminate)). destruct (detectApses c) as [[cs|]|x]; eauto.
  destruct H1 as ([s e] & pts & Hin & (Hlen & Hpts) & Hfit). apply Hrs in Hin as (S1 & S2 & S3 & S4 & _). cbn [fst snd] in *. exfalso.
  assert (Hn : e - s < length c).
  { destruct (Nat.lt_ge_cases (e - s) (length c)); auto. exfalso. apply S4.
    replace e with ((e - length c) + length c) by lia. apply smooth_add; auto. apply S3. lia. }
  assert (G : forall k, k < e - s -> nth_error pts k = Some (pnt c (s + k))).
  { intros k Hk. destruct (nth_error pts k) as [p|] eqn:Ep; [|apply nth_error_None in Ep; lia].
    destruct (Hpts k p Ep) as (w & Hw & ->). unfold pnt. rewrite Hw. auto. }
  assert (L2 : (e - s) / 2 < e - s) by (apply Nat.div_lt; lia).
  assert (L3 : 0 < (e - s) / 2) by (apply Nat.div_str_pos; lia).
  assert (L4 : (e - s) / 2 < e - s - 1).
  { apply Nat.div_lt_upper_bound; lia. }
  destruct (@fitCircle_R pts (pnt c (s + 0)) (pnt c (s + (e - s) / 2)) (pnt c (s + (e - s - 1)))) as [_ F].
  - apply G. lia.
  - rewrite Hlen. apply G. auto.
  - rewrite Hlen. apply G. lia.
  - destruct F as (ctr & R & F & _); [|congruence].
    pose proof (@pnt_orient c Hc s 0 ((e - s) / 2) (e - s - 1) L3 L4 ltac:(lia)). lra.
Qed.

(** ** nodes in different places stay *)
Lemma add_node_new (acc : list (@subtree RA)) p : (forall q, In q acc -> source q <> source p) -> add_node acc p = acc ++ [p].
Proof.
  induction acc as [|q t IH]; intros H; simpl; auto. unfold same_coords. cbn [RA neqb].
  destruct (Reqb (vx (source q)) (vx (source p)) && Reqb (vy (source q)) (vy (source p)))%bool eqn:E.
  - exfalso. apply andb_true_iff in E as [E1 E2]. apply Reqb_eq in E1, E2. apply (H q (or_introl eq_refl)). apply vec_ext; auto.
  - rewrite IH; auto. intros r Hr. apply H. right; auto.
Qed.

Lemma merge_same_id (sk : list (@subtree RA)) : NoDup (map (@source RA) sk) -> merge_same_sources sk = sk.
Proof.
  unfold merge_same_sources.
  assert (G : forall sk acc, NoDup (map (@source RA) (acc ++ sk)) -> fold_left add_node sk acc = acc ++ sk).
  { clear. induction sk as [|p t IH]; intros acc H; simpl; [rewrite app_nil_r; auto|].
    rewrite add_node_new.
    - rewrite IH; rewrite <- app_assoc; auto.
    - intros q Hq E. rewrite map_app in H. simpl in H. apply NoDup_remove_2 in H. apply H. rewrite <- E. apply in_or_app. left. apply in_map; auto. }
  apply (G sk []).
Qed.

Lemma cluster_loop_none (sk : list (@subtree RA)) cv ap th : forall fuel cands, NoDup cands ->
  (forall i j, In i cands -> In j cands -> i <> j -> nltb (manhattan (source (get_arc sk i)) (source (get_arc sk j))) th = false) ->
  cluster_loop fuel sk cv ap th cands = [].
Proof.
  induction fuel as [|f IH]; intros [|c0 rest] Hnd H; auto. cbn [cluster_loop]. apply NoDup_cons_iff in Hnd as [Hn Hnd].
  assert (E : filter (fun c => nltb (manhattan (source (get_arc sk c0)) (source (get_arc sk c))) th) rest = []).
  { assert (G : forall x, In x rest -> nltb (manhattan (source (get_arc sk c0)) (source (get_arc sk x))) th = false).
    { intros x Hx. apply H; simpl; auto. intros ->. auto. }
    clear - G. induction rest as [|x r IH]; cbn [filter]; auto. rewrite (G x (or_introl eq_refl)). apply IH. intros; apply G; right; auto. }
  rewrite E. cbn [length Nat.leb accept_cluster]. unfold accept_cluster. cbn [length Nat.leb]. apply IH.
  - apply NoDup_filter. constructor; auto.
  - intros i j Hi Hj. apply filter_In in Hi as [Hi _]. apply filter_In in Hj as [Hj _]. auto.
Qed.

(** ** sinks in clearly different directions stay *)
Definition wide (a b : vec RA) : Prop := (vdot a b <= (1 - 1 / 100) * (vlen a * vlen b))%R.

Lemma wide_sym a b : wide a b -> wide b a.
Proof. unfold wide. rewrite !vdot_R. intros H. rewrite (Rmult_comm (vlen b)). eapply Rle_trans; [|exact H]. simpl. lra. Qed.

Lemma wide_scale a b s t : (0 <= s)%R -> (0 <= t)%R -> wide a b -> wide (rvec (s * vx a) (s * vy a)) (rvec (t * vx b) (t * vy b)).
Proof.
  intros Hs Ht H. unfold wide in *. rewrite !vdot_R, !vlen_R in *. unfold rvec. cbn [vx vy]. change (num RA) with R in *.
  replace (s * vx a * (s * vx a) + s * vy a * (s * vy a))%R with ((s * s) * (vx a * vx a + vy a * vy a))%R by ring.
  replace (t * vx b * (t * vx b) + t * vy b * (t * vy b))%R with ((t * t) * (vx b * vx b + vy b * vy b))%R by ring.
  rewrite (sqrt_mult (s * s)), (sqrt_mult (t * t)) by nra. rewrite (sqrt_square s), (sqrt_square t) by auto.
  set (u := sqrt (vx a * vx a + vy a * vy a)) in *. set (w := sqrt (vx b * vx b + vy b * vy b)) in *.
  pose proof (Rmult_le_compat_l (s * t) _ _ (Rmult_le_pos _ _ Hs Ht) H) as K. lra.
Qed.

Lemma ghost_wide (sk : list (@subtree RA)) k a b : wide (vsub a (source (get_arc sk k))) (vsub b (source (get_arc sk k))) ->
  ghost_pair sk k false (a, b) = Ok (PairNext sk false).
Proof.
  intros H. unfold ghost_pair. cbn [fst snd]. set (x := vsub a _) in *. set (y := vsub b _) in *. rewrite !ntruth_R.
  destruct (Reqb_spec (vlen x) 0) as [E|E]; cbn [negb andb]; auto. destruct (Reqb_spec (vlen y) 0) as [F|F]; cbn [negb andb]; auto.
  rewrite pdiv_R. cbn [RA nmul]. destruct (Reqb_spec (vlen x * vlen y)%R 0) as [G|G].
  { apply Rmult_integral in G as [G|G]; contradiction. }
  cbn [bind RA nsub nabs]. rewrite oneN_R. unfold PARALLEL. cbn [RA nltb lit].
  assert (Px : (0 < vlen x)%R) by (rewrite vlen_R in *; pose proof (sqrt_pos (vx x * vx x + vy x * vy x)); simpl in *; lra).
  assert (Py : (0 < vlen y)%R) by (rewrite vlen_R in *; pose proof (sqrt_pos (vx y * vx y + vy y * vy y)); simpl in *; lra).
  assert (Hq : (vdot x y / (vlen x * vlen y) <= 1 - 1 / 100)%R).
  { pose proof (Rmult_lt_0_compat _ _ Px Py) as Hm. apply (Rmult_le_reg_r (vlen x * vlen y)); auto.
    unfold Rdiv. rewrite Rmult_assoc, Rinv_l, Rmult_1_r by auto. exact H. }
  match goal with |- context [Rltb (Rabs ?z) ?w] => destruct (Rltb_spec (Rabs z) w) as [L|L]; auto end.
  exfalso. rewrite Rabs_left in L; simpl in *; lra.
Qed.

Definition spread (a : @subtree RA) : Prop :=
  ~ In (source a) (sinks a) /\ forall p q, In (p, q) (combinations2 (sinks a)) -> wide (vsub p (source a)) (vsub q (source a)).

Lemma ghosts_none (sk : list (@subtree RA)) : (forall a, In a sk -> spread a) -> removeGhosts sk = Ok sk.
Proof.
  intros H. unfold removeGhosts.
  assert (E : map remove_loop sk = sk).
  { rewrite <- (map_id sk) at 2. apply map_ext_in. intros a Ha. destruct (H a Ha) as [N _]. unfold remove_loop.
    destruct (py_in veq (source a) (sinks a)) eqn:K; auto. exfalso. apply N. unfold py_in in K. apply existsb_exists in K as (x & Hx & Kx).
    apply veq_R in Kx. congruence. }
  rewrite E.
  assert (G : forall ks, (forall k, In k ks -> k < length sk) -> ghost_arcs sk ks = Ok sk).
  { induction ks as [|k t IH]; intros Hk; auto. cbn [ghost_arcs ghost_while].
    destruct (H (get_arc sk k)) as [_ W]; [apply nth_In, Hk; simpl; auto|].
    assert (Gp : forall ps, (forall p q, In (p, q) ps -> wide (vsub p (source (get_arc sk k))) (vsub q (source (get_arc sk k)))) ->
       ghost_pairs sk k false ps = Ok (sk, false)).
    { induction ps as [|[p q] ps IHp]; intros Hp; auto. cbn [ghost_pairs]. rewrite ghost_wide by (apply Hp; simpl; auto). cbn [bind].
      apply IHp. intros; apply Hp; simpl; auto. }
    rewrite Gp by auto. cbn [bind]. apply IH. intros; apply Hk; simpl; auto. }
  apply G. intros k Hk. apply in_seq in Hk. lia.
Qed.

Section Post.
Variable c : list (@edge2 RA).
Hypothesis Hc : convex_contour c.
Hypothesis Hapart : apart c.
Hypothesis Hblunt : blunt c.
Let n := length c.
Variables (out : list (@subtree RA)) (M : nat) (wp wl A B U : nat -> nat) (F : nat -> list nat) (P : nat -> pt) (H : nat -> R).
Hypothesis Hr : roof c out M wp wl A B U F P H.

(** ** the sources are the nodes *)
Lemma out_node k a : nth_error out k = Some a -> n + k < M /\ source a = P (n + k) /\ height a = H (n + k).
Proof.
  intros Hk. assert (L : k < length out) by (apply nth_error_Some; congruence). pose proof (r_len Hr) as HM. fold n in HM.
  split; [lia|]. destruct (Nat.eq_dec (S (n + k)) M) as [E|E].
  - destruct (r_peak Hr E) as (l & _ & K). fold n in K. rewrite K in Hk. injection Hk as <-. auto.
  - pose proof (r_out Hr (k := k)) as K. fold n in K. rewrite K in Hk by lia. injection Hk as <-. auto.
Qed.

Lemma sources_nodup : NoDup (map (@source RA) out).
Proof.
  apply NoDup_nth_error. intros i j Hi E. rewrite map_length in Hi. rewrite !nth_error_map in E.
  destruct (nth_error out i) as [a|] eqn:Ea; [|apply nth_error_None in Ea; lia].
  destruct (nth_error out j) as [b|] eqn:Eb; [|discriminate]. cbn [option_map] in E. injection E as E.
  destruct (out_node Ea) as (L1 & S1 & _). destruct (out_node Eb) as (L2 & S2 & _). rewrite S1, S2 in E.
  apply (r_dist Hr) in E; auto. lia.
Qed.

Lemma not_near i j : i < length out -> j < length out -> i <> j ->
  nltb (manhattan (source (get_arc out i)) (source (get_arc out j))) (@smallThresh RA) = false.
Proof.
  intros Hi Hj Hij. destruct (nth_error out i) as [a|] eqn:Ea; [|apply nth_error_None in Ea; lia].
  destruct (nth_error out j) as [b|] eqn:Eb; [|apply nth_error_None in Eb; lia].
  destruct (out_node Ea) as (L1 & S1 & _). destruct (out_node Eb) as (L2 & S2 & _).
  unfold get_arc. rewrite (nth_error_nth _ _ _ Ea), (nth_error_nth _ _ _ Eb), S1, S2.
  unfold smallThresh, manhattan. cbn [RA nltb lit nadd nabs nsub]. match goal with |- Rltb ?u ?w = false => destruct (Rltb_spec u w) as [L|L]; auto end. exfalso.
  destruct (Hapart (r_point Hr (x := n + i) ltac:(fold n; lia)) (r_point Hr (x := n + j) ltac:(fold n; lia))) as [K|K]; [|simpl in *; lra].
  apply Hij. apply (r_dist Hr) in K; auto. lia.
Qed.

Lemma merge_none : mergeNodeClusters out [c] = Ok out.
Proof.
  unfold mergeNodeClusters. rewrite merge_same_id by exact sources_nodup. cbn [merge_loop]. unfold findClusters.
  change (py_get [c] 0) with (Ok c). cbn [bind]. destruct (convex_apses Hc) as (a & ->). cbn [bind].
  rewrite cluster_loop_none; auto.
  - apply seq_NoDup.
  - intros i j Hi Hj. apply in_seq in Hi, Hj. apply not_near; lia.
Qed.

(** ** directions at a node *)
Lemma bend u v w : u < n -> v < n -> w < n -> u <> v -> v <> w -> u <> w -> wide (sub (wn c v) (wn c u)) (sub (wn c w) (wn c v)).
Proof.
  intros Lu Lv Lw Nuv Nvw Nuw. destruct (edge_at_some Hc u) as (e1 & E1). destruct (edge_at_some Hc v) as (e2 & E2). destruct (edge_at_some Hc w) as (e3 & E3).
  rewrite (wn_edge E1), (wn_edge E2), (wn_edge E3).
  assert (ND : NoDup [e1; e2; e3]).
  { constructor; [simpl; intros [<-|[<-|[]]]|constructor; [simpl; intros [<-|[]]|constructor; [simpl; tauto|constructor]]].
    - apply Nuv. symmetry. exact (wall_eq Hc Lv Lu E2 E1).
    - apply Nuw. symmetry. exact (wall_eq Hc Lw Lu E3 E1).
    - apply Nvw. symmetry. exact (wall_eq Hc Lw Lv E3 E2). }
  pose proof (Hblunt (edge_in E1) (edge_in E2) (edge_in E3) ND) as K. cbv zeta in K.
  unfold wide. rewrite vdot_R, !vlen_R. unfold sub, rvec. cbn [vx vy]. exact K.
Qed.

Lemma tri_distinct u v w : (0 < tri (wn c u) (wn c v) (wn c w))%R -> u <> v /\ v <> w /\ u <> w.
Proof. intros K. repeat split; intros ->; unfold tri, ncross in K; simpl in K; lra. Qed.

Lemma node_walls x : n <= x < M -> wp (A x) < n /\ wl (A x) < n /\ wl (B x) < n /\
  wp (A x) <> wl (A x) /\ wl (A x) <> wl (B x) /\ wp (A x) <> wl (B x).
Proof.
  intros Hx. destruct (r_node Hr Hx) as (K & _). apply tri_distinct in K. destruct (t_node (r_tree Hr) Hx) as (A1 & A2 & _).
  destruct (t_wl (r_tree Hr) (v := A x)) as [W1 W2]; [lia|]. destruct (t_wl (r_tree Hr) (v := B x)) as [W3 _]; [lia|]. tauto.
Qed.

Lemma to_sink v x : v < M -> U v = x -> exists t, (0 < t)%R /\ vsub (P v) (P x) = rvec (t * - vx (dir c wp wl v)) (t * - vy (dir c wp wl v)).
Proof.
  intros Hv <-. destruct (r_link Hr Hv) as (t & Ht & E). exists t. split; auto. rewrite E. rewrite vsub_R. unfold move, rvec. cbn [vx vy].
  apply vec_ext; cbn [vx vy]; change (num RA) with R in *; ring.
Qed.

Lemma wide_neg a b : wide a b -> wide (rvec (- vx a) (- vy a)) (rvec (- vx b) (- vy b)).
Proof. unfold wide. rewrite !vdot_R, !vlen_R. unfold rvec. cbn [vx vy]. intros K. change (num RA) with R in *.
  replace (- vx a * - vx a + - vy a * - vy a)%R with (vx a * vx a + vy a * vy a)%R by ring.
  replace (- vx b * - vx b + - vy b * - vy b)%R with (vx b * vx b + vy b * vy b)%R by ring. lra. Qed.

Lemma sinks_wide v w x : v < M -> w < M -> U v = x -> U w = x -> wide (dir c wp wl v) (dir c wp wl w) ->
  wide (vsub (P v) (P x)) (vsub (P w) (P x)).
Proof.
  intros Hv Hw Uv Uw K. destruct (to_sink Hv Uv) as (s & Hs & ->). destruct (to_sink Hw Uw) as (t & Ht & ->).
  apply wide_neg in K. apply (@wide_scale _ _ s t) in K; [exact K|lra|lra].
Qed.

Lemma dir_wide v w : v < M -> w < M -> wl v = wp w -> wp v <> wl v -> wl v <> wl w -> wp v <> wl w -> wide (dir c wp wl v) (dir c wp wl w).
Proof.
  intros Hv Hw E N1 N2 N3. destruct (t_wl (r_tree Hr) Hv) as [W1 W2]. destruct (t_wl (r_tree Hr) Hw) as [W3 W4].
  unfold dir. rewrite <- E. apply bend; auto.
Qed.

(** the children of a node, and the other end at the peak *)
Definition child x v : Prop := v < M /\ U v = x.

Lemma pair_wide x : n <= x < M -> wide (dir c wp wl (A x)) (dir c wp wl (B x)).
Proof.
  intros Hx. destruct (node_walls Hx) as (L1 & L2 & L3 & N1 & N2 & N3). destruct (t_node (r_tree Hr) Hx) as (A1 & A2 & _ & _ & _ & A3 & _).
  apply dir_wide; auto; lia.
Qed.

Lemma peak_wide x : n <= x < M -> S x = M -> U (U x) = x /\ U x < M /\ U x <> x /\
  wide (dir c wp wl (B x)) (dir c wp wl (U x)) /\ wide (dir c wp wl (U x)) (dir c wp wl (A x)).
Proof.
  intros Hx Hl. destruct (node_walls Hx) as (L1 & L2 & L3 & N1 & N2 & N3). destruct (t_node (r_tree Hr) Hx) as (A1 & A2 & A3 & A4 & A5 & A6 & A7 & A8).
  destruct (t_peak (r_tree Hr)) as (p & C & Ep & _ & U1 & U2 & W1 & W2 & _). assert (Epx : p = x) by lia. rewrite Epx in *. clear p Epx. rewrite U1.
  assert (HC : C < M) by (rewrite <- U1; apply (t_up (r_tree Hr)); lia).
  assert (Hne : C <> x) by (rewrite <- U1; apply (t_up (r_tree Hr)); lia).
  rewrite A7 in W1. rewrite A8 in W2. split; auto. split; auto. split; auto. split.
  - apply dir_wide; auto; try lia; try congruence; rewrite ?W1, ?W2, <- ?A6; auto.
  - apply dir_wide; auto; try lia; try congruence; rewrite ?W1, ?W2, <- ?A6; auto.
Qed.

Lemma wide_pairs x l : n <= x < M -> (forall v, In v l -> child x v) -> NoDup l ->
  (forall v w, In v l -> In w l -> v <> w -> wide (dir c wp wl v) (dir c wp wl w)) ->
  forall p q, In (p, q) (combinations2 (map P l)) -> wide (vsub p (P x)) (vsub q (P x)).
Proof.
  intros Hx. induction l as [|v l IH]; intros Hch Hnd Hw p q Hin; [destruct Hin|]. apply NoDup_cons_iff in Hnd as [Hn Hnd].
  cbn [map combinations2] in Hin. apply in_app_iff in Hin as [Hin|Hin].
  - apply in_map_iff in Hin as (y & E & Hy). injection E as <- <-. apply in_map_iff in Hy as (w & <- & Hy).
    destruct (Hch v (or_introl eq_refl)) as [C1 C2]. destruct (Hch w (or_intror Hy)) as [C3 C4].
    apply sinks_wide; auto. apply Hw; simpl; auto. intros ->. auto.
  - apply IH; auto; intros; [apply Hch; right; auto|apply Hw; simpl; auto].
Qed.

Lemma node_spread a : In a out -> spread a.
Proof.
  intros Ha. apply In_nth_error in Ha as (k & Hk). destruct (out_node Hk) as (L & S1 & _).
  pose proof (r_len Hr) as HM. fold n in HM. assert (Hx : n <= n + k < M) by lia. set (x := n + k) in *.
  destruct (t_node (r_tree Hr) Hx) as (A1 & A2 & A3 & A4 & A5 & A6 & A7 & A8).
  assert (G : forall l, sinks a = map P l -> (forall v, In v l -> child x v /\ v <> x) -> NoDup l ->
    (forall v w, In v l -> In w l -> v <> w -> wide (dir c wp wl v) (dir c wp wl w)) -> spread a).
  { intros l E Hch Hnd Hw. split.
    - rewrite E, S1. intros K. apply in_map_iff in K as (v & E' & Hv). destruct (Hch v Hv) as [[C1 _] C2].
      apply (r_dist Hr) in E'; auto.
    - rewrite E, S1. apply wide_pairs; auto. intros v Hv. apply (Hch v Hv). }
  pose proof (pair_wide Hx) as WAB. destruct (Nat.eq_dec (S x) M) as [E|E].
  - destruct (r_peak Hr E) as (l & Hp & K). fold n x in Hp, K. rewrite K in Hk. injection Hk as <-.
    destruct (peak_wide Hx E) as (U2 & U3 & U4 & WBU & WUA). destruct (t_peak (r_tree Hr)) as (p & C & Ep & _ & U1 & _ & _ & _ & C1 & C2 & _).
    assert (Epx : p = x) by lia. rewrite Epx in *. clear p Epx. rewrite <- U1 in C1, C2.
    apply (G l); auto.
    + intros v Hv. apply (Permutation_in _ Hp) in Hv. unfold child. destruct Hv as [<-|[<-|[<-|[]]]]; repeat split; auto; lia.
    + eapply Permutation_NoDup; [apply Permutation_sym; exact Hp|].
      constructor; [simpl; intros [?|[?|[]]]; congruence|constructor; [simpl; intros [?|[]]; congruence|constructor; [simpl; tauto|constructor]]].
    + intros v w Hv Hw Hne. apply (Permutation_in _ Hp) in Hv, Hw.
      destruct Hv as [<-|[<-|[<-|[]]]], Hw as [<-|[<-|[<-|[]]]]; auto using wide_sym; congruence.
  - pose proof (r_out Hr (k := k)) as K. fold n x in K. rewrite K in Hk by lia. injection Hk as <-.
    apply (G [A x; B x]); auto.
    + intros v Hv. unfold child. destruct Hv as [<-|[<-|[]]]; repeat split; auto; lia.
    + constructor; [simpl; intros [?|[]]; congruence|constructor; [simpl; tauto|constructor]].
    + intros v w Hv Hw Hne. destruct Hv as [<-|[<-|[]]], Hw as [<-|[<-|[]]]; auto using wide_sym; congruence.
Qed.

Lemma post_none fuel : raw_skeleton fuel [c] = Ok out -> skeletonize fuel [c] = Ok out.
Proof.
  intros Hraw. unfold skeletonize. rewrite Hraw. cbn [bind]. rewrite merge_none. cbn [bind]. apply ghosts_none. exact node_spread.
Qed.
End Post.
