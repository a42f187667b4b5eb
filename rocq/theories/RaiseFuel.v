(** * RaiseFuel: the only fuel a call can run out of is that of the event loop (C68) *)

From Coq Require Import Lia Permutation.
From Verif Require Import Py PyFacts Arith Euclid Heapq HeapProofs Lav LavSpec LavWalk LavWf LavInit LavNext LavGrow Cluster ClusterSpec
  LoopSpec LavLoop LoopStart GhostProofs MergeProofs SkeletonFacts QueueProofs PatSpec PatProofs PatEvents Poly PolySpec PolyProofs PolyFaces RaiseSpec RaiseProofs.
Set Implicit Arguments.
Unset Strict Implicit.
Local Open Scope nat_scope.

Definition raised (e : exn) : Prop := e <> OutOfFuel.
Notation real r := (errs raised r).

Ltac real_exn := apply errs_err; unfold raised; congruence.

Section Fuel.
Context {A : arith}.
Implicit Type s : @slav A.
Notation edge2 := (@edge2 A).

Lemma lav_iter_real s l : rng s -> l_head (getl (s_ls s) l) < length (s_vs s) -> snd (lav_iter s l) <> Some OutOfFuel.
Proof.
  intros (R1 & _) Hh. unfold lav_iter. apply walk_fuel.
  - intros v Hv. apply (In_nth _ _ (getv (s_vs s) 0)) in Hv as (i & Hi & <-). destruct (R1 i Hi) as (N & _ & _).
    unfold getv in N. erewrite nth_indep by auto. exact N.
  - constructor; [intros []|constructor].
  - intros x [<-|[]]; auto.
  - left; auto.
  - simpl. lia.
Qed.

Lemma lav_list_real s l : rng s -> l_head (getl (s_ls s) l) < length (s_vs s) -> real (lav_list s l).
Proof.
  intros Hr Hh. pose proof (lav_iter_real Hr Hh) as H. unfold lav_list. destruct (lav_iter s l) as [ids [x|]]; [|apply errs_ok].
  apply errs_err. simpl in H. unfold raised. congruence.
Qed.

Lemma from_chain_real s h : rng s -> h < length (s_vs s) -> real (from_chain s h).
Proof.
  intros Hr Hh. unfold from_chain. apply errs_bind; [|intros; apply errs_ok].
  pose proof Hr as (R1 & R2 & R3). apply lav_list_real.
  - split; [|split]; cbn [s_vs s_ls s_act with_ls].
    + rewrite app_length. simpl. intros i Hi. destruct (R1 i Hi) as (N1 & N2 & N3). split; auto. split; auto.
      intros l Hl. apply N3 in Hl. lia.
    + intros l. rewrite app_length. simpl. intros Hl. destruct (Nat.eq_dec l (length (s_ls s))) as [->|Hne].
      * unfold getl. rewrite nth_middle. auto.
      * rewrite getl_app1 by lia. apply R2. lia.
    + intros l Hl. apply R3 in Hl. rewrite app_length. lia.
  - cbn [s_vs s_ls with_ls]. unfold getl. rewrite nth_middle. auto.
Qed.

Lemma remove_lav_real s l : real (remove_lav s l).
Proof.
  unfold remove_lav. destruct l as [l|]; [|real_exn].
  apply errs_bind; [|intros; apply errs_ok]. intros e E. apply py_remove_err in E. unfold raised; congruence.
Qed.

Lemma next_event_real s i : real (next_event s i).
Proof.
  unfold next_event, candidates. apply errs_bind; [|intros; apply errs_ok]. apply errs_bind; [|intros; apply errs_ok].
  destruct (v_reflex _); [|apply errs_ok]. destruct (v_lav _); [apply errs_ok|real_exn].
Qed.

Lemma next_events_real s : forall ids, real (next_events s ids).
Proof.
  induction ids as [|i t IH]; cbn [next_events]; [apply errs_ok|]. apply errs_bind; [apply next_event_real|intros e _].
  apply errs_bind; [auto|intros; apply errs_ok].
Qed.

Lemma find_split_lavs_real s ip opp : rng s -> forall ls, (forall l, In l ls -> l < length (s_ls s)) -> real (find_split_lavs s ip opp ls).
Proof.
  intros Hr. induction ls as [|l t IH]; intros Hl; cbn [find_split_lavs]; [apply errs_ok|].
  assert (H : snd (lav_iter s l) <> Some OutOfFuel).
  { apply lav_iter_real; auto. destruct Hr as (_ & R2 & _). apply R2, Hl. left; auto. }
  destruct (lav_iter s l) as [ids [x|]] eqn:E; destruct (find_split _ _ _ _); try apply errs_ok.
  - apply errs_err. simpl in H. unfold raised. congruence.
  - apply IH. intros; apply Hl; right; auto.
Qed.

Lemma settle_all_real : forall ls s verts snks, rng s -> (forall l, In l ls -> l < length (s_ls s)) ->
  (forall i, In i verts -> i < length (s_vs s)) -> real (fold_left settle_lav ls (Ok (s, verts, snks))).
Proof.
  induction ls as [|l t IH]; intros s verts snks Hr Hl Hv; cbn [fold_left]; [apply errs_ok|].
  assert (Hl0 : l < length (s_ls s)) by (apply Hl; left; auto).
  destruct (settle_lav (Ok (s, verts, snks)) l) as [[[s1 v1] k1]|x] eqn:E.
  - destruct (settle_facts Hr Hl0 Hv E) as (_ & _ & S3 & _ & S5 & S6 & _). apply IH; auto.
    intros l' Hl'. rewrite S5. apply Hl; right; auto.
  - rewrite settle_all_err. apply errs_err. unfold settle_lav in E. cbn [bind] in E. cbv zeta in E.
    destruct (2 <? _)%Z; [discriminate|]. destruct (lav_list s l) as [ids|y] eqn:El; [discriminate|].
    cbn [bind] in E. injection E as <-. eapply (@lav_list_real s l); eauto. apply Hr; auto.
Qed.

Lemma handle_edge_real s d ip va vb : rng s -> va < length (s_vs s) -> vb < length (s_vs s) -> real (handle_edge_event s d ip va vb).
Proof.
  intros Hr Ha Hb. unfold handle_edge_event. pose proof Hr as (R1 & R2 & R3). destruct (Nat.eqb _ _).
  - apply errs_bind; [apply remove_lav_real|]. intros s1 E1. destruct (remove_lav_facts E1) as (F1 & F2 & F3 & F4 & F5 & _).
    destruct (v_lav (getv (s_vs s) va)) as [l|] eqn:El; cbn [of_option bind]; [|real_exn].
    apply errs_bind; [|intros; apply errs_ok]. apply lav_list_real; auto. rewrite F2, F1. apply R2.
    destruct (R1 va Ha) as (_ & _ & H3). auto.
  - destruct (v_lav (getv (s_vs s) va)) as [l|] eqn:El; cbn [of_option bind]; [|real_exn].
    destruct (unify s l va vb ip) as [s1 nv]. apply errs_bind; [apply next_event_real|intros; apply errs_ok].
Qed.

Lemma handle_split_real s d ip v opp : rng s -> v < length (s_vs s) -> real (handle_split_event s d ip v opp).
Proof.
  intros Hr Hv. unfold handle_split_event. pose proof Hr as (R1 & R2 & R3).
  destruct (find_split_lavs s ip opp (s_act s)) as [[[x y]|]|ex] eqn:Ef; cbn [bind]; [|apply errs_ok|].
  2: { apply errs_err. eapply (@find_split_lavs_real s ip opp Hr (s_act s)); eauto. }
  destruct (@find_split_lavs_rng A s ip opp (s_act s) x y) as [Hx Hy]; auto.
  cbv zeta. set (n1 := length (s_vs s)).
  set (v1 := mk_vertex n1 ip (v_eprev (getv (s_vs s) v)) opp None true).
  set (v2 := mk_vertex (S n1) ip opp (v_enext (getv (s_vs s) v)) None true).
  set (vs0 := s_vs s ++ [v1; v2]).
  set (vs1 := modv n1 (with_prev (v_prev (getv vs0 v))) vs0).
  set (vs2 := modv n1 (with_next x) vs1).
  set (vs3 := modv (v_prev (getv vs2 v)) (with_next n1) vs2).
  set (vs4 := modv x (with_prev n1) vs3).
  set (vs5 := modv (S n1) (with_prev y) vs4).
  set (vs6 := modv (S n1) (with_next (v_next (getv vs5 v))) vs5).
  set (vs7 := modv (v_next (getv vs6 v)) (with_prev (S n1)) vs6).
  set (vs8 := modv y (with_next (S n1)) vs7).
  assert (L0 : length vs0 = S (S n1)) by (unfold vs0; rewrite app_length; simpl; unfold n1; lia).
  assert (L1 : length vs1 = S (S n1)) by (unfold vs1; rewrite modv_length; auto).
  assert (L2 : length vs2 = S (S n1)) by (unfold vs2; rewrite modv_length; auto).
  assert (L3 : length vs3 = S (S n1)) by (unfold vs3; rewrite modv_length; auto).
  assert (L4 : length vs4 = S (S n1)) by (unfold vs4; rewrite modv_length; auto).
  assert (L5 : length vs5 = S (S n1)) by (unfold vs5; rewrite modv_length; auto).
  assert (L6 : length vs6 = S (S n1)) by (unfold vs6; rewrite modv_length; auto).
  assert (L7 : length vs7 = S (S n1)) by (unfold vs7; rewrite modv_length; auto).
  assert (L8 : length vs8 = S (S n1)) by (unfold vs8; rewrite modv_length; auto).
  set (m := length (s_ls s)).
  assert (Q0 : rvs m vs0).
  { apply rvs_app; auto. simpl. fold n1. intros w [<-|[<-|[]]]; apply mk_vertex_rngv; lia. }
  assert (Hvl : v < S (S n1)) by (fold n1 in Hv; lia).
  assert (Q1 : rvs m vs1) by (apply rvs_prev; auto; apply Q0; lia).
  assert (Q2 : rvs m vs2) by (apply rvs_next; auto; rewrite L1; fold n1 in Hx; lia).
  assert (Q3 : rvs m vs3) by (apply rvs_next; auto; lia).
  assert (Q4 : rvs m vs4) by (apply rvs_prev; auto; lia).
  assert (Q5 : rvs m vs5) by (apply rvs_prev; auto; rewrite L4; fold n1 in Hy; lia).
  assert (Q6 : rvs m vs6) by (apply rvs_next; auto; apply Q5; lia).
  assert (Q7 : rvs m vs7) by (apply rvs_prev; auto; lia).
  assert (Q8 : rvs m vs8) by (apply rvs_next; auto; lia).
  clearbody vs8. clear L1 L2 L3 L4 L5 L6 L7 Q1 Q2 Q3 Q4 Q5 Q6 Q7 vs1 vs2 vs3 vs4 vs5 vs6 vs7.
  set (s1 := with_vs vs8 s).
  assert (Hr1 : rng s1) by (apply rng_vs; auto; fold n1; lia).
  apply errs_bind; [apply remove_lav_real|]. intros s2 E2.
  destruct (remove_lav_facts E2) as (F1 & F2 & F3 & F4 & F5 & _).
  assert (Ev2 : s_vs s2 = vs8) by (rewrite F1; reflexivity).
  match goal with |- real (bind ?p _) => set (pick := p) end.
  assert (Hp : real pick /\ forall s3 new, pick = Ok (s3, new) -> rng s3 /\ forall l, In l new -> l < length (s_ls s3)).
  { unfold pick. clear pick. match goal with |- real (if ?c then _ else _) /\ _ => destruct c end.
    - destruct (remove_lav s2 (v_lav (getv vs8 x))) as [s2'|ex] eqn:E3; cbn [bind].
      2: { split; [apply errs_err; eapply remove_lav_real; eauto|discriminate]. }
      destruct (remove_lav_facts E3) as (K1 & K2 & K3 & K4 & K5 & _).
      assert (Ev : s_vs s2' = vs8) by (rewrite K1; auto).
      assert (Hr2 : rng s2') by auto.
      assert (Hn : n1 < length (s_vs s2')) by (rewrite Ev; lia).
      split; [apply errs_bind; [apply from_chain_real; auto|intros [? ?] _; apply errs_ok]|].
      intros s3 new. destruct (from_chain s2' n1) as [[s4 l1]|ex] eqn:E4; [|discriminate]. cbn [bind].
      intros H. apply Ok_inj in H. injection H as <- <-.
      destruct (from_chain_facts E4) as (M1 & M2 & M3 & M4 & M5 & M6 & M7). split; [apply M7; auto|].
      intros l [<-|[]]. lia.
    - assert (Hr2 : rng s2) by auto.
      assert (Hn : n1 < length (s_vs s2)) by (rewrite Ev2; lia).
      destruct (from_chain s2 n1) as [[s4 l1]|ex] eqn:E4; cbn [bind].
      2: { split; [apply errs_err; eapply from_chain_real; eauto|discriminate]. }
      destruct (from_chain_facts E4) as (M1 & M2 & M3 & M4 & M5 & M6 & M7).
      assert (Hr4 : rng s4) by (apply M7; auto).
      assert (Hn' : S n1 < length (s_vs s4)) by (rewrite M4, Ev2; lia).
      split; [apply errs_bind; [apply from_chain_real; auto|intros [? ?] _; apply errs_ok]|].
      intros s3 new. destruct (from_chain s4 (S n1)) as [[s5 l2]|ex] eqn:E5; [|discriminate]. cbn [bind].
      destruct (from_chain_facts E5) as (N1 & N2 & N3 & N4 & N5 & N6 & N7).
      intros H. apply Ok_inj in H. injection H as <- <-. split; [apply N7; auto|].
      intros l [<-|[<-|[]]]; lia. }
  destruct Hp as [Hp1 Hp2]. apply errs_bind; [exact Hp1|]. intros [s3 new] Ep. destruct (Hp2 _ _ Ep) as [P1 P2].
  apply errs_bind; [apply settle_all_real; auto; intros i []|]. intros [[s4 verts] snks] _.
  apply errs_bind; [apply next_events_real|intros; apply errs_ok].
Qed.

Lemma handle_dormer_real s d dp vp dn vn de ipe va vb : rng s -> ev_rng s (DormerEv d dp vp dn vn de ipe va vb) ->
  real (handle_dormer_event s dp vp dn vn de ipe va vb).
Proof.
  intros Hr (Hvp & Hvn & Hva & Hvb). unfold handle_dormer_event. pose proof Hr as (R1 & R2 & R3).
  destruct (v_lav (getv (s_vs s) vp)) as [l|] eqn:El; [|apply errs_ok].
  cbv zeta. cbn [s_vs s_ls with_ls with_vs].
  set (hd := v_prev (getv (s_vs s) vp)). set (c := v_next (getv (s_vs s) vn)).
  set (vs1 := modv hd (with_next c) (s_vs s)).
  set (vs2 := modv (v_next (getv vs1 vn)) (with_prev (v_prev (getv vs1 vp))) vs1).
  set (s1 := with_vs vs2 _).
  assert (Hl : l < length (s_ls s)) by (destruct (R1 vp Hvp) as (_ & _ & H3); auto).
  assert (Hhd : hd < length (s_vs s)) by (apply R1; auto).
  assert (Hc : c < length (s_vs s)) by (apply R1; auto).
  assert (L1 : length vs1 = length (s_vs s)) by apply modv_length.
  assert (L2 : length vs2 = length (s_vs s)) by (unfold vs2; rewrite modv_length; auto).
  assert (Q1 : rvs (length (s_ls s)) vs1) by (apply rvs_next; auto).
  assert (Q2 : rvs (length (s_ls s)) vs2).
  { apply rvs_prev; auto. apply Q1. lia. }
  assert (Hr1 : rng s1).
  { split; [|split]; simpl; rewrite ?set_at_length; auto.
    intros l' Hl'. rewrite L2. destruct (Nat.eq_dec l' l) as [->|Hne].
    - rewrite getl_set_at_eq by auto. auto.
    - rewrite getl_set_at by auto. auto. }
  apply errs_bind; [apply from_chain_real; auto; simpl; lia|]. intros [s2 l2] _.
  apply errs_bind; [apply remove_lav_real|]. intros s3 _. destruct (line_intersect _ _); [apply errs_ok|real_exn].
Qed.

Lemma handle_event_real s e : rng s -> ev_rng s e -> real (handle_event s e).
Proof.
  intros Hr He. destruct e as [d ip va vb|d ip v opp|d dp vp dn vn de ipe va vb]; cbn [handle_event].
  - destruct He. destruct (_ || _); [apply errs_ok|]. apply handle_edge_real; auto.
  - destruct (negb _); [apply errs_ok|]. apply handle_split_real; auto.
  - destruct (_ || _); [apply errs_ok|]. eapply handle_dormer_real; eauto.
Qed.

(** ** the event loop *)
Lemma handle_batch_done evs : forall st st', handle_batch st evs = Ok st' <-> batch_done (A := A) st evs st'.
Proof.
  induction evs as [|e t IH]; intros st st'; cbn [handle_batch]; split.
  - intros H. apply Ok_inj in H. subst. constructor.
  - inversion 1; subst; auto.
  - destruct (handle_event (lo_slav st) e) as [[[s' arcs] new]|x] eqn:E; [|discriminate]. cbn [bind].
    intros H. econstructor; [exact E|]. apply IH; auto.
  - inversion 1; subst. rewrite H3. cbn [bind]. apply IH; auto.
Qed.

Variable contours : list (list edge2).
Variable st0 : @loop_state A.
Hypothesis Hst0 : skeleton_start contours = Ok st0.

Lemma handle_batch_real st evs : reach st0 st evs -> real (handle_batch st evs).
Proof.
  intros Hr. pose proof (handle_batch_reach Hr) as H. destruct (handle_batch st evs) as [st'|x]; [apply errs_ok|].
  destruct H as (st1 & e & t & H1 & H2). apply errs_err.
  destruct (skeleton_reach Hst0 H1) as ((I1 & _) & I2). eapply handle_event_real; [exact I1| |exact H2].
  destruct (I2 e) as [V _]; [left; auto|]. exact V.
Qed.

Lemma event_loop_rounds : forall fuel st, reach st0 st [] ->
  (event_loop fuel st = Err OutOfFuel <-> exists st', rounds fuel st st').
Proof.
  induction fuel as [|f IH]; intros st Hr; cbn [event_loop].
  { split; auto. intros _. exists st. constructor. }
  destruct (lo_queue st) as [|e0 q0] eqn:Eq.
  { split; [discriminate|]. intros (st' & H). inversion H; subst. congruence. }
  destruct (s_act (lo_slav st)) as [|l0 a0] eqn:Ea.
  { split; [discriminate|]. intros (st' & H). inversion H; subst. congruence. }
  destruct (getAllEqualDistance (e0 :: q0)) as [[b q']|] eqn:Eg.
  2: { apply getAllEqualDistance_none in Eg. discriminate. }
  assert (Hb : reach st0 (Loop (lo_slav st) q' (lo_out st)) b).
  { apply reach_batch; auto; try congruence. }
  pose proof (handle_batch_reach Hb) as Hh. pose proof (handle_batch_real Hb) as Hn.
  destruct (handle_batch _ b) as [st1|x] eqn:E; cbn [bind].
  - apply handle_batch_done in E. rewrite (IH st1 Hh). split.
    + intros (st' & H). exists st'. eapply rounds_more; eauto; congruence.
    + intros (st' & H). inversion H as [|n0 ? b' q1 st1' ? Hq Ha Hg Hd Hm]; subst. rewrite Eq, Eg in Hg. injection Hg as <- <-.
      apply handle_batch_done in Hd. apply handle_batch_done in E. rewrite E in Hd. apply Ok_inj in Hd. subst st1'. eauto.
  - split.
    + intros [= ->]. exfalso. apply (Hn _ eq_refl). auto.
    + intros (st' & H). inversion H as [|n0 ? b' q1 st1' ? Hq Ha Hg Hd Hm]; subst. rewrite Eq, Eg in Hg. injection Hg as <- <-.
      apply handle_batch_done in Hd. congruence.
Qed.
End Fuel.

Section Call.
Context {A : arith}.

Lemma skeleton_start_real (c : list (@edge2 A)) rest : (forall c', In c' (c :: rest) -> c' <> []) -> real (skeleton_start (c :: rest)).
Proof.
  intros Hne. assert (Hc : c <> []) by (apply Hne; simpl; auto).
  unfold skeleton_start. destruct (init_slav_ok Hne) as (s & -> & W & _). cbn [bind]. apply errs_bind.
  { eapply errs_impl; [apply detectDormers_errs; auto|unfold zero, only, raised; congruence]. }
  intros dms Ed. unfold initial_events at 1. rewrite (chain_wavefront W Hne). cbn [bind].
  apply errs_bind; [apply errs_mapM; intros; apply next_event_real|]. intros evs Ee.
  apply errs_bind; [|intros; apply errs_ok]. destruct dms as [|d0 dt] eqn:Edm; [apply errs_ok|]. rewrite <- Edm in *. clear Edm d0 dt.
  pose proof (mapM_length _ _ Ee) as Hlen. rewrite seq_length in Hlen.
  assert (Hdm : forall dm, In dm dms -> NoDup (fst dm) /\ length (fst dm) = 4 /\ forall i, In i (fst dm) -> i < length evs).
  { intros dm Hin. destruct (dormers_sound Hc Ed) as (HF & _). rewrite Forall_forall in HF.
    destruct (HF dm Hin) as (q & p & Q1 & _ & _ & _ & _ & Q2 & Q3 & _). split; auto. rewrite Q2. split; auto.
    intros i Hi. unfold dormer_vertices in Hi. apply in_map_iff in Hi as (k & <- & _).
    rewrite Hlen. simpl. rewrite app_length. pose proof (Nat.mod_upper_bound (q + k) (length c)). lia. }
  destruct (processDormers_spec s Hdm) as (idx & es & kept & _ & _ & ->). apply errs_ok.
Qed.

Lemma skeletonize_out_of_fuel fuel (c : list (@edge2 A)) rest : (forall c', In c' (c :: rest) -> c' <> []) ->
  (skeletonize fuel (c :: rest) = Err OutOfFuel <->
   exists st0 st, skeleton_start (c :: rest) = Ok st0 /\ rounds fuel st0 st).
Proof.
  intros Hne. assert (Hc : c <> []) by (apply Hne; simpl; auto). unfold skeletonize, raw_skeleton.
  pose proof (skeleton_start_real Hne) as Hs. destruct (skeleton_start (c :: rest)) as [st0|x] eqn:Es; cbn [bind].
  2: { split; [intros [= ->]; exfalso; apply (Hs _ eq_refl); auto|intros (st1 & st & H & _); discriminate]. }
  pose proof (event_loop_rounds Es fuel (reach_start st0)) as He.
  destruct (event_loop fuel st0) as [st'|x]; cbn [bind].
  - split.
    + intros H. exfalso. apply bind_err in H as [H|(out' & _ & H)].
      * unfold mergeNodeClusters in H. set (sk1 := merge_same_sources _) in H.
        pose proof (@merge_loop_facts A (S (length sk1)) sk1 (map (@ep1 A) (concat (c :: rest))) (c :: rest) (Nat.lt_succ_diag_r _)) as F.
        rewrite H in F. apply F. auto.
      * destruct (removeGhosts_ends out') as [[sk K]|[K|K]]; rewrite K in H; discriminate.
    + intros (st1 & st & H & H'). apply Ok_inj in H. subst st1. assert (F : Ok st' = Err OutOfFuel) by (apply He; eauto). discriminate.
  - split.
    + intros [= ->]. destruct He as [He _]. destruct (He eq_refl) as (st & H). eauto.
    + intros (st1 & st & H & H'). apply Ok_inj in H. subst st1. assert (F : Err (A := @loop_state A) x = Err OutOfFuel) by (apply He; eauto).
      injection F as ->. reflexivity.
Qed.

Lemma slope_real (sk : list (@subtree A)) hgt tan : real (slope sk hgt tan).
Proof.
  unfold slope. destruct (ntruth hgt); [|apply errs_ok]. apply errs_bind.
  - unfold max_height. destruct (map _ sk); [real_exn|apply errs_ok].
  - intros m _ e E. apply pdiv_err in E. unfold raised; congruence.
Qed.

Theorem polygonize_out_of_fuel fuel sw sch dbg (verts : list (vec3 A)) first cnt holes hgt tan faces us :
  let hs := match holes with Some h => h | None => [] end in
  blocks_inside (length verts) first cnt hs -> units_inside us cnt hs ->
  (o_result (polygonize fuel sw sch dbg verts first cnt holes hgt tan faces us) = Err OutOfFuel <->
   exists zBase center contours st0 st,
     prepare verts first cnt holes us = Ok (zBase, center, contours) /\
     skeleton_start contours = Ok st0 /\ rounds fuel st0 st).
Proof.
  intros hs Hb Hu. pose proof Hb as ((B1 & B2 & B3) & Hh). simpl in B1, B2, B3.
  assert (Hh1 : forall h, In h hs -> (1 <= snd h)%Z) by (intros h Hin; apply Hh in Hin; destruct Hin; tauto).
  destruct (prepare verts first cnt holes us) as [[[zBase center] contours]|x] eqn:Hp.
  2: { split; [|intros (? & ? & ? & ? & ? & H & _); discriminate]. unfold polygonize. rewrite Hp. simpl. intros [= ->].
       apply (prepare_errs Hb Hu) in Hp. discriminate. }
  assert (Hrings := @prepare_rings _ verts first cnt holes us zBase center contours B2 Hh1 Hp). fold hs in Hrings.
  assert (Hne : forall c', In c' contours -> c' <> []).
  { intros c' Hc'. destruct (Forall2_In_r _ Hrings Hc') as (b & Hin & Hl & _).
    assert (1 <= snd b)%Z by (destruct Hin as [<-|Hin]; simpl; auto).
    intros ->. simpl in Hl. lia. }
  destruct contours as [|c rest]; [inversion Hrings|].
  pose proof (skeletonize_out_of_fuel fuel Hne) as Hk.
  transitivity (skeletonize fuel (c :: rest) = Err OutOfFuel).
  - destruct (skeletonize fuel (c :: rest)) as [sk|x] eqn:Hs.
    + split; [|discriminate]. intros Hr. exfalso.
      unfold polygonize in Hr. rewrite Hp in Hr. cbn [bind] in Hr. rewrite Hs in Hr. cbn [bind] in Hr.
      destruct (slope sk hgt tan) as [ta|x] eqn:Ht.
      * cbv zeta in Hr. fold hs in Hr. destruct (roof_faces _ _ _ _ _ _ _ _ _) as [fs|x] eqn:Hf; simpl in Hr; [destruct faces; discriminate|].
        injection Hr as ->. apply (call_faces_errs Hb Hp) in Hf. unfold faces_exn in Hf. intuition discriminate.
      * injection Hr as ->. apply slope_real in Ht. apply Ht. auto.
    + unfold polygonize. rewrite Hp. cbn [bind]. rewrite Hs. cbn [bind o_result]. split; intros [= ->]; auto.
  - rewrite Hk. split.
    + intros (st0 & st & H1 & H2). exists zBase, center, (c :: rest), st0, st. auto.
    + intros (z' & c' & cs & st0 & st & H0 & H1 & H2). apply Ok_inj in H0. injection H0 as <- <- <-. eauto.
Qed.
End Call.
