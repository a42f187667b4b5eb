(** * ConvexStart: the wavefront of a convex contour shrinks to nothing (C48) *)

From Coq Require Import Permutation Reals Lra.
From Verif Require Import Py PyFacts Arith ArithR Euclid Heapq Lav Cluster LavSpec LavWalk LavWf LavRing LavInit LavNext LavGrow LavStep LavSplit
  LoopSpec LavLoop LoopStart QueueProofs HeapProofs WaveSpec LavWave ClusterSpec GeoSpec GeoR GeoLines BisSpec BisProofs BisStart UnitProofs PatSpec TriSkel
  PolyProofs ConvexSpec ConvexGeo ConvexLoop ConvexWave ConvexMerge ConvexOrder ConvexEnd.
Set Implicit Arguments.
Unset Strict Implicit.
Local Open Scope nat_scope.

Lemma put_fold_all (A : arith) (evs : list (option (@event A))) q e : In e q \/ In (Some e) evs -> In e (fold_left put evs q).
Proof.
  revert q. induction evs as [|o evs IH]; intros q H; simpl; [destruct H as [H|[]]; auto|]. apply IH.
  assert (K : In e q -> In e (put q o)).
  { destruct o as [e'|]; simpl; auto. intros H0. eapply Permutation_in; [apply Permutation_sym, (heappush_perm (@ev_lt A) q e')|right; auto]. }
  destruct H as [H|[->|H]]; auto. left. simpl.
  eapply Permutation_in; [apply Permutation_sym, (heappush_perm (@ev_lt A) q e)|left; auto].
Qed.

Lemma mapM_has X Y (f : X -> res Y) l r : mapM f l = Ok r -> forall x, In x l -> exists y, f x = Ok y /\ In y r.
Proof.
  revert r. induction l as [|a l IH]; simpl; intros r H; [intros x []|].
  destruct (f a) as [b|] eqn:Ef; [|discriminate]. simpl in H.
  destruct (mapM f l) as [t|] eqn:Em; [|discriminate]. simpl in H. apply Ok_inj in H. subst r.
  intros x [<-|Hx]; [exists b; split; auto; left; auto|]. destruct (IH t eq_refl x Hx) as (y & Hy & Hi). exists y. split; auto. right; auto.
Qed.

Section Start.
Variable c : list (@edge2 RA).
Hypothesis Hc : convex_contour c.
Implicit Type s : @slav RA.
Implicit Type st : @loop_state RA.
Notation event := (@event RA).
Let n := length c.

Lemma start_vertex s i : wavefront_of [c] s -> i < n -> nx s i = S i mod n /\
  edge_at c (i + n - 1) = Some (eps s i) /\ edge_at c i = Some (ens s i) /\ Bs s i = ep1 (ens s i) /\
  l_is_ray (v_bis (getv (s_vs s) i)) = true /\ lp (v_bis (getv (s_vs s) i)) = v_point (getv (s_vs s) i).
Proof.
  intros W Hi. destruct W as (_ & _ & _ & W). destruct (W 0 c eq_refl) as (_ & pns & Hp & Hb).
  pose proof (n_pos Hc) as H3. fold n in H3.
  destruct (circ_prev_next_spec c) as (_ & Hs). destruct Hs as (pn & Hpn & Hlen & Hnth); [apply Hc|].
  assert (pn = pns) by congruence. subst pn. destruct (Hnth i Hi) as (e1 & e2 & N1 & N2 & N3).
  destruct (Hb i _ N3) as (B1 & _ & B3). unfold offset in B1, B3. cbn [firstn concat length Nat.add fst snd] in B1, B3.
  destruct B3 as (S1 & S2 & S3 & S4 & S5 & S6 & S7). simpl in S1, S2, S3. cbn [with_lav v_bis] in *.
  unfold edge_at, eps, ens, Bs. fold n in B1, N1 |- *. split; [|split; [|split]].
  - unfold nx. rewrite B1. destruct (Nat.eqb_spec (S i) n) as [->|Hne]; [rewrite Nat.mod_same; lia|rewrite Nat.mod_small; lia].
  - rewrite S2. auto.
  - rewrite Nat.mod_small by auto. rewrite S3. auto.
  - destruct (mk_vertex_ray 0 (ep1 e2) e1 e2 None false) as [R1 R2].
    assert (Hv : v_bis (getv (s_vs s) i) = v_bis (mk_vertex (A := RA) 0 (ep1 e2) e1 e2 None false)) by (first [exact S4|exact S5|exact S6|exact S7]).
    assert (Hp0 : v_point (getv (s_vs s) i) = ep1 e2) by (first [exact S1|rewrite S1; reflexivity]).
    rewrite Hv, R1, R2, S3, Hp0. auto.
Qed.

Lemma edge_along e : directed e -> ep2 e = move (ep1 e) (euclid_dist (ep1 e) (ep2 e)) (enorm e).
Proof.
  intros (_ & Hx & Hy). unfold move, rvec. apply vec_ext; cbn [vx vy]; change (num RA) with R in *; lra.
Qed.

Lemma ndist_p1 e : ndist e (ep1 e) = 0%R.
Proof. unfold ndist. change (num RA) with R in *. ring. Qed.
Lemma ndist_p2 e : directed e -> ndist e (ep2 e) = 0%R.
Proof. intros H. rewrite (edge_along H), ndist_move, ndist_p1, ncross_self. ring. Qed.

Lemma start_geo s : wavefront_of [c] s -> (forall i, V s i <-> i < n) -> geo c s 0.
Proof.
  intros W HV. pose proof (n_pos Hc) as H3. fold n in H3. exists (fun k => k mod n). split.
  - split; [intros k; apply HV, Nat.mod_upper_bound; lia|]. split.
    { intros k. fold n. replace (k + n) with (k + 1 * n) by lia. apply Nat.mod_add. lia. }
    intros v Hv. apply HV in Hv. destruct (start_vertex W Hv) as (N1 & N2 & N3 & _). exists (v + n - 1), 1. split.
    + split; auto. split; auto. replace (v + n - 1 + 1) with (v + 1 * n) by lia. split.
      { unfold edge_at in *. fold n in N3 |- *. rewrite Nat.mod_add by lia. auto. }
      split; [|rewrite N1; replace (S (v + 1 * n)) with (S v + 1 * n) by lia; apply Nat.mod_add; lia].
      intros k Hk. assert (k = v + 1 * n) as -> by lia. rewrite Nat.mod_add by lia. apply Nat.mod_small. auto.
    + intros k Hk. exists (v + n). split; [lia|]. fold n. rewrite Hk. replace (v + n) with (v + 1 * n) by lia. rewrite Nat.mod_add by lia. apply Nat.mod_small; auto.
  - left. exists (Bs s). split.
    + intros v Hv. apply HV in Hv. destruct (start_vertex W Hv) as (N1 & N2 & N3 & N4 & _).
      assert (N3' : edge_at c (S (v + n - 1)) = Some (ens s v)).
      { replace (S (v + n - 1)) with (v + 1 * n) by lia. unfold edge_at in *. fold n in N3 |- *. rewrite Nat.mod_add by lia. auto. }
      assert (Hp2 : ep2 (eps s v) = Bs s v).
      { rewrite (edge_at_succ Hc N2). unfold pnt. rewrite N3'. auto. }
      split; [exact (turn_left Hc N2 N3')|]. split; [rewrite <- Hp2; apply ndist_p2; eapply edge_directed; eauto|].
      split; [rewrite N4; apply ndist_p1|]. split; [exists 0%R; split; [lra|rewrite move_0; auto]|].
      pose proof (edge_directed Hc N3) as D. exists (euclid_dist (ep1 (ens s v)) (ep2 (ens s v))). split; [apply Rlt_le, dist_pos, D|].
      rewrite N4, <- (edge_along D), (edge_at_succ Hc N3). unfold pnt.
      assert (Hn : nx s v < n) by (rewrite N1; apply Nat.mod_upper_bound; lia).
      destruct (start_vertex W Hn) as (_ & _ & M3 & M4 & _). rewrite M4.
      assert (Hm : edge_at c (S v) = Some (ens s (nx s v))).
      { rewrite <- M3. rewrite N1. unfold edge_at. fold n. rewrite Nat.mod_mod by lia. auto. }
      rewrite Hm. auto.
    + intros k e He. fold n. assert (Hn : k mod n < n) by (apply Nat.mod_upper_bound; lia).
      destruct (start_vertex W Hn) as (_ & _ & M3 & M4 & _). 
      assert (Hm : Some e = Some (ens s (k mod n))).
      { rewrite <- M3, <- He. unfold edge_at. fold n. rewrite Nat.mod_mod by lia. auto. }
      injection Hm as ->. rewrite M4, ndist_p1. lra.
Qed.

Lemma start_ginv st0 : skeleton_start [c] = Ok st0 -> ginv c st0 [].
Proof.
  intros H. pose proof (start_cinv Hc H) as G. destruct (start_inv H) as (Hi & Ho & _).
  destruct (init_slav_ok (contours_ne Hc)) as (s & H1 & H2 & H3). rewrite Hi in H1. apply Ok_inj in H1. subst s.
  destruct st0 as [s q out]. cbn [lo_slav lo_queue lo_out] in *.
  assert (Hact : s_act s = [0]) by apply H2.
  assert (Hlen : length (s_vs s) = n) by (destruct H2 as (-> & _); simpl; rewrite app_nil_r; auto).
  pose proof G as (G1 & G2 & Rg & sp & W & Hcor & _). cbn [lo_slav lo_queue lo_out] in *.
  destruct (ring_facts W Hact) as (HVr & _ & chain & big & inj & prevs).
  assert (HV : forall i, V s i <-> i < n).
  { intros i. split; [intros Hv; apply V_rng in Hv; lia|]. intros Hv. unfold V, is_valid.
    destruct (wavefront_wfL H2 (contours_ne Hc)) as (_ & Q2 & _). rewrite Hact in Q2.
    destruct (Q2 0 (or_introl eq_refl)) as [(_ & _ & _ & K) _]. apply (K i). unfold contour_ids. apply in_seq. unfold offset. simpl. fold n. lia. }
  assert (Hrays : rays s).
  { intros i Hli. rewrite Hlen in Hli. destruct (start_vertex H2 Hli) as (_ & _ & _ & _ & R1 & R2). split; auto. split; auto.
    destruct (Hcor i) as (_ & C1 & C2 & _); [lia|]. auto. }
  pose proof (start_geo H2 HV) as Hg. assert (T0 : (0 <= 0)%R) by lra.
  pose proof (fun v Hv => next_choice Hc W Hact Hrays T0 Hg (v := v) Hv) as Hnext.
  assert (Hq : forall e, In e q <-> exists v, V s v /\ next_event s v = Ok (Some e)).
  { unfold skeleton_start in H. rewrite Hi, (contour_dormers Hc) in H. cbn [bind] in H.
    destruct (initial_events s) as [evs|x] eqn:Ee; [|discriminate]. cbn [bind] in H. apply Ok_inj in H. injection H as Hq _.
    unfold initial_events in Ee. rewrite (chain_wavefront H2 (contours_ne Hc)) in Ee. cbn [bind] in Ee.
    assert (Hids : forall i, In i (seq 0 (length (concat [c]))) <-> V s i).
    { intros i. rewrite HV, in_seq. simpl. rewrite app_nil_r. fold n. lia. }
    intros e. rewrite <- Hq. split.
    - intros He. apply put_fold_in in He as [[]|He]. destruct (mapM_in Ee He) as (id & Hid & Hn). exists id. split; auto. apply Hids; auto.
    - intros (v & Hv & Hn). apply put_fold_all. right. destruct (mapM_has Ee (proj2 (Hids v) Hv)) as (y & Hy & Hiny).
      rewrite Hn in Hy. apply Ok_inj in Hy. subst y. auto. }
  split; [exact G|]. split; auto. cbn [lo_slav lo_queue lo_out]. rewrite Ho. split; [intros a []|]. right. split; auto.
  exists 0%R. split; auto. split; auto. cbn [app]. split.
  - intros d p u w He _ _. apply Hq in He as (v & Hv & Hn). destruct (Hnext v Hv) as (e & Hn' & Hch). rewrite Hn in Hn'.
    apply Ok_inj in Hn'. injection Hn' as <-.
    destruct Hch as [(p1 & d1 & u1 & Vu1 & Hnu1 & X & Hh1 & _)|(p1 & d1 & X & Hh1 & _)]; injection X as -> -> -> ->; auto.
  - intros u Hu. destruct (chain u Hu) as [Hw _]. destruct (big u Hu) as (Hne & _).
    destruct (Nat.lt_ge_cases u (nx s u)) as [Hlt|Hge].
    + destruct (Hnext (nx s u) Hw) as (e & Hn & [(p1 & d1 & u1 & Vu1 & Hnu1 & -> & Hh1 & _)|(p1 & d1 & -> & Hh1 & Hs1)]).
      * assert (u1 = u) by (apply inj; auto). subst u1. left. exists d1, p1. apply Hq. eauto.
      * right. left. split; auto. split; auto. left. exists d1, p1. apply Hq. eauto.
    + destruct (Hnext u Hu) as (e & Hn & [(p1 & d1 & u1 & Vu1 & Hnu1 & -> & Hh1 & Hs1)|(p1 & d1 & -> & Hh1 & _)]).
      * right. right. exists u1. split; auto. split; auto. split; [lia|]. split; auto. left. exists d1, p1. rewrite Hnu1. apply Hq. eauto.
      * left. exists d1, p1. apply Hq. eauto.
Qed.

(** ** the loop *)
Lemma ginv_batch s q out b q' : ginv c (Loop s q out) [] -> getAllEqualDistance q = Some (b, q') -> ginv c (Loop s q' out) b.
Proof.
  intros ((I1 & I2 & I3) & Hr & Ho & Hs) Hg. apply getAllEqualDistance_perm in Hg. cbn [lo_slav lo_queue lo_out app] in *.
  assert (Hin : forall e, In e (b ++ q') <-> In e q).
  { intros e. split; apply Permutation_in; auto. apply Permutation_sym. auto. }
  split; [|split; [auto|split; [auto|]]].
  - split; auto. split; auto. cbn [lo_slav lo_queue]. intros e He. apply I2. apply Hin. auto.
  - destruct Hs as [Hs|(Ha & T & T0 & Hgeo & He & Hw)]; auto. right. split; auto. exists T. split; auto. split; auto. cbn [lo_slav lo_queue]. split.
    + intros d p u w Hi. apply He. apply Hin. auto.
    + intros u Hu. assert (Hh : forall v, hasev s q v -> hasev s (b ++ q') v) by (intros v (d & p & K); exists d, p; apply Hin; auto).
      specialize (Hw u Hu). destruct Hw as [H|[(H1 & H2 & H3)|(v & H1 & H2 & H3 & H4 & H5)]].
      * left. auto.
      * right. left. split; auto. split; auto. destruct H3; auto.
      * right. right. exists v. split; auto. split; auto. split; auto. split; auto. destruct H5; auto.
Qed.

Lemma reach_ginv st0 : ginv c st0 [] -> in_order st0 -> forall st pend, reach st0 st pend -> ginv c st pend.
Proof.
  intros G0 Hord st pend H. induction H as [|st b q' H IH Hq Ha Hg|st e t s' arcs new H IH Hh]; auto.
  - destruct st as [s q out]. eapply ginv_batch; eauto.
  - refine (proj1 (ginv_event Hc IH _ Hh)). intros Hl e' He'. apply (Hord st e t H Hl e' He').
Qed.

Theorem convex_done fuel st0 : skeleton_start [c] = Ok st0 -> in_order st0 -> length c + 2 * (length c - 2) < fuel ->
  exists out, raw_skeleton fuel [c] = Ok out /\ length out = length c - 2 /\
    forall a, In a out -> equidistant c (source a) (height a) /\ forall e, In e c -> (height a <= edge_dist e (source a))%R.
Proof.
  intros H Hord Hf. destruct (convex_ends Hc Hf) as (out & Hout & _). exists out. split; auto.
  unfold raw_skeleton in Hout. rewrite H in Hout. cbn [bind] in Hout.
  destruct (event_loop fuel st0) as [st|x] eqn:El; [|discriminate]. cbn [bind] in Hout. apply Ok_inj in Hout. subst out.
  pose proof (event_loop_reach fuel (reach_start st0)) as Hr. rewrite El in Hr. destruct Hr as [Hr Hstop].
  pose proof (reach_ginv (start_ginv H) Hord Hr) as (G & Hrays & Hin & Hs).
  destruct (reach_cinv Hc (start_cinv Hc H) Hr) as [_ K0].
  destruct (wavefront_intact (contour_distinct Hc) (contours_three Hc) (contour_dormers Hc) H K0) as (Rg & _ & Hcap).
  assert (Hact : s_act (lo_slav st) = []).
  { destruct Hs as [Hs|(Ha & T & T0 & Hgeo & He & Hw)]; auto. destruct Hstop as [Hq|Hq]; auto. exfalso.
    destruct G as (_ & _ & R' & sp & W & _). destruct (first_event Hc W Ha Hgeo Hw) as (u & _ & (d & p & Hi) & _). rewrite Hq in Hi. destruct Hi. }
  split.
  - unfold capacity in Hcap. rewrite Hact in Hcap. simpl in Hcap. lia.
  - intros a Ha. split; auto. eapply convex_nodes; eauto.
Qed.

End Start.
