(** * PyramidSkel: the skeleton of a convex contour with an inscribed circle is one node (C52) *)

From Coq Require Import Permutation Reals Lra.
From Verif Require Import Py PyFacts Arith ArithR Euclid Heapq Lav Cluster LavSpec LavWalk LavWf LavRing LavInit LavNext LavGrow LavStep LavSplit
  LoopSpec LavLoop LoopStart QueueProofs HeapProofs WaveSpec LavWave ClusterSpec GeoSpec GeoR GeoLines BisSpec BisProofs BisStart UnitProofs PatSpec TriSkel
  SkeletonFacts ConvexSpec ConvexGeo ConvexLoop ConvexWave ConvexMerge ConvexOrder ConvexEnd ConvexStart ConvexSep ConvexStep ConvexPost PyramidSpec.
Set Implicit Arguments.
Unset Strict Implicit.
Local Open Scope nat_scope.

Lemma two_cross (a b v : pt) : ncross a b <> 0%R -> ncross a v = 0%R -> ncross b v = 0%R -> vx v = 0%R /\ vy v = 0%R.
Proof.
  unfold ncross. destruct a as [ax ay], b as [bx by'], v as [x y]. cbn [vx vy]. change (num RA) with R in *. intros H H1 H2.
  split; apply (Rmult_eq_reg_l (ax * by' - ay * bx)); auto; rewrite Rmult_0_r.
  - replace ((ax * by' - ay * bx) * x)%R with (bx * (ax * y - ay * x) - ax * (bx * y - by' * x))%R by ring. rewrite H1, H2. ring.
  - replace ((ax * by' - ay * bx) * y)%R with (by' * (ax * y - ay * x) - ay * (bx * y - by' * x))%R by ring. rewrite H1, H2. ring.
Qed.

Section Pyr.
Variable c : list (@edge2 RA).
Hypothesis Hc : convex_contour c.
Variables (x : pt) (r : R).
Hypothesis Ht : tangential c x r.
Implicit Type s : @slav RA.
Implicit Type st : @loop_state RA.
Notation event := (@event RA).
Let n := length c.
Let n3 : 3 <= n := n_pos Hc.

Lemma tan_edge i e : edge_at c i = Some e -> ndist e x = r.
Proof.
  intros H. rewrite <- edge_dist_n by (eapply edge_directed; eauto). apply Ht. unfold edge_at in H. eapply nth_error_In; eauto.
Qed.

Lemma tri_three i j k e f g : i < n -> j < n -> k < n -> i <> j -> j <> k -> i <> k ->
  edge_at c i = Some e -> edge_at c j = Some f -> edge_at c k = Some g -> tri (enorm e) (enorm f) (enorm g) <> 0%R.
Proof.
  intros Li Lj Lk N1 N2 N3 He Hf Hg.
  assert (G : forall i j k e f g, i < j -> j < k -> k < n -> edge_at c i = Some e -> edge_at c j = Some f -> edge_at c k = Some g ->
    (0 < tri (enorm e) (enorm f) (enorm g))%R).
  { clear - Hc n3. intros i j k e f g L1 L2 L3 He Hf Hg. apply (@turn_tri c Hc i (j - i) (k - i) e f g); try lia; auto.
    - replace (i + (j - i)) with j by lia. auto.
    - replace (i + (k - i)) with k by lia. auto. }
  destruct (Nat.lt_trichotomy i j) as [L|[L|L]]; [|contradiction|]; (destruct (Nat.lt_trichotomy j k) as [M|[M|M]]; [|contradiction|]);
    (destruct (Nat.lt_trichotomy i k) as [Q|[Q|Q]]; [|contradiction|]); try lia.
  - pose proof (G i j k e f g L M Lk He Hf Hg). lra.
  - pose proof (G i k j e g f Q M Lj He Hg Hf) as K. unfold tri, ncross in *. change (num RA) with R in *. lra.
  - pose proof (G k i j g e f Q L Lj Hg He Hf) as K. unfold tri, ncross in *. change (num RA) with R in *. lra.
  - pose proof (G j i k f e g L Q Lk Hf He Hg) as K. unfold tri, ncross in *. change (num RA) with R in *. lra.
  - pose proof (G j k i f g e M Q Li Hf Hg He) as K. unfold tri, ncross in *. change (num RA) with R in *. lra.
  - pose proof (G k j i g f e M L Li Hg Hf He) as K. unfold tri, ncross in *. change (num RA) with R in *. lra.
Qed.

(** no other point is equally far from three walls *)
Lemma tan_unique y h : equidistant c y h -> y = x /\ h = r.
Proof.
  intros (e & f & g & Ie & If & Ig & N1 & N2 & N3 & D1 & D2 & Dh).
  apply In_nth_error in Ie as (i & Ie). apply In_nth_error in If as (j & If). apply In_nth_error in Ig as (k & Ig).
  assert (Li : i < n) by (apply nth_error_Some; congruence). assert (Lj : j < n) by (apply nth_error_Some; congruence).
  assert (Lk : k < n) by (apply nth_error_Some; congruence).
  assert (He : edge_at c i = Some e) by (unfold edge_at; rewrite Nat.mod_small by auto; auto).
  assert (Hf : edge_at c j = Some f) by (unfold edge_at; rewrite Nat.mod_small by auto; auto).
  assert (Hg : edge_at c k = Some g) by (unfold edge_at; rewrite Nat.mod_small by auto; auto).
  pose proof (@tri_three i j k e f g Li Lj Lk ltac:(congruence) ltac:(congruence) ltac:(congruence) He Hf Hg) as Htri.
  rewrite <- cross_dirs in Htri.
  rewrite !edge_dist_n in * by (eapply edge_directed; eauto).
  pose proof (tan_edge He) as T1. pose proof (tan_edge Hf) as T2. pose proof (tan_edge Hg) as T3.
  assert (L : forall e, ndist e y = (ndist e x + ncross (enorm e) (sub y x))%R).
  { intros e0. unfold ndist, ncross, sub, rvec. cbn [vx vy]. change (num RA) with R in *. ring. }
  rewrite !L, ?T1, ?T2, ?T3 in *.
  assert (B : forall a b v, ncross (sub b a) v = (ncross b v - ncross a v)%R) by (intros; unfold ncross, sub, rvec; simpl; ring).
  destruct (@two_cross _ _ (sub y x) Htri) as [V1 V2]; [rewrite B; lra|rewrite B; lra|].
  unfold sub, rvec in V1, V2. cbn [vx vy] in V1, V2.
  assert (E : y = x) by (apply vec_ext; change (num RA) with R in *; lra). split; auto. subst y.
  rewrite Dh. assert (Z : ncross (enorm e) (sub x x) = 0%R) by (unfold ncross, sub, rvec; simpl; ring).
  rewrite Z, Rplus_0_r. apply Rabs_right. destruct Ht. lra.
Qed.

Lemma tan_separated : separated c.
Proof. intros y d y' d' H H'. left. destruct (tan_unique H) as [_ ->]. destruct (tan_unique H') as [_ ->]. auto. Qed.

Lemma pnt_not_x i : pnt c i <> x.
Proof.
  intros E. destruct (edge_at_some Hc i) as (e & He). pose proof (tan_edge He) as K. rewrite <- E in K. unfold pnt in K. rewrite He, ndist_p1 in K.
  destruct Ht. lra.
Qed.

(** ** every corner is used as a sink *)
Let E := concat [c].

Lemma ring_of_three s Rg va vb : wf E s Rg -> s_act s = [0] -> V s va -> nx s va = vb -> nx s (nx s vb) = va ->
  forall i, V s i -> i = va \/ i = vb \/ i = nx s vb.
Proof.
  intros W Ha Va Hn Hcyc. destruct (ring_facts W Ha) as (HV & _ & chain & big & inj & prevs).
  destruct W as [(_ & W2 & _) W4]. rewrite Ha in W2, W4. destruct (W2 0 (or_introl eq_refl)) as [Hok _].
  destruct (ring_pair Hok (W4 0 (or_introl eq_refl)) (proj1 (HV va) Va) Hn) as (rest & Hrest & Hr2 & Hp2 & P1 & P2 & _ & _ & P3).
  pose proof (ring_NoDup Hr2) as Hnd. apply NoDup_cons_iff in Hnd as [_ Hnd]. apply NoDup_cons_iff in Hnd as [_ Hnd].
  assert (Vb : V s vb) by (rewrite <- Hn; apply chain; auto). destruct (chain vb Vb) as [Vc _].
  assert (Vl : V s (last rest 0)).
  { apply HV. eapply Permutation_in; [apply Permutation_sym; exact Hp2|]. right. right. apply last_in. auto. }
  assert (K : last rest 0 = hd 0 rest).
  { rewrite <- P2. change (last rest 0 = nx s vb). apply inj; auto. rewrite Hcyc. exact P3. }
  destruct (hd_last Hnd Hrest K) as (z & ->). intros i Hi. apply HV in Hi. apply (Permutation_in _ Hp2) in Hi.
  destruct Hi as [<-|[<-|[<-|[]]]]; auto.
Qed.

Record used st : Prop := {
  u_pt : forall i, i < n -> V (lo_slav st) i -> Bs (lo_slav st) i = pnt c i;
  u_sink : forall i, i < n -> V (lo_slav st) i \/ exists a, In a (lo_out st) /\ In (pnt c i) (sinks a);
  u_first : lo_out st = [] -> length (s_vs (lo_slav st)) = n;
  u_long : n <= length (s_vs (lo_slav st));
  u_nodup : forall a t, lo_out st = a :: t -> NoDup (sinks a) }.

Lemma used_start st0 : skeleton_start [c] = Ok st0 -> used st0.
Proof.
  intros H. destruct (start_inv H) as (Hi & Ho & _).
  destruct (init_slav_ok (contours_ne Hc)) as (s & H1 & H2 & H3). rewrite Hi in H1. apply Ok_inj in H1. subst s.
  destruct st0 as [s q out]. cbn [lo_slav lo_queue lo_out] in *. subst out.
  assert (Hact : s_act s = [0]) by apply H2.
  assert (Hlen : length (s_vs s) = n) by (destruct H2 as (-> & _); simpl; rewrite app_nil_r; auto).
  pose proof n3 as L3. split; cbn [lo_slav lo_out]; try (intros; discriminate); auto; try lia.
  - intros i Hv _. destruct (start_vertex Hc H2 Hv) as (_ & _ & Q1 & Q2 & _). rewrite Q2. unfold pnt. rewrite Q1. auto.
  - intros i Hv. left. unfold V, is_valid.
    destruct (wavefront_wfL H2 (contours_ne Hc)) as (_ & Q2 & _). rewrite Hact in Q2.
    destruct (Q2 0 (or_introl eq_refl)) as [(_ & _ & _ & K) _]. apply (K i). unfold contour_ids. apply in_seq. unfold offset. simpl. fold n. lia.
Qed.

Lemma used_event st e t s' arcs new : ginv c st (e :: t) ->
  (live (lo_slav st) e -> forall e', In e' (t ++ lo_queue st) -> live (lo_slav st) e' -> (ev_distance e <= ev_distance e')%R) ->
  handle_event (lo_slav st) e = Ok (s', arcs, new) -> used st -> used (Loop s' (put_all (lo_queue st) new) (lo_out st ++ arcs)).
Proof.
  intros G Hord Hh [U1 U2 U3 U4 U5]. destruct (step_cases Hc G Hord Hh) as [(-> & -> & ->)|(d & X & va & vb & _ & Hbef & Haft)].
  - rewrite app_nil_r. split; auto.
  - destruct st as [s q out]. cbn [lo_slav lo_queue lo_out] in *.
    destruct (b_wf Hbef) as (Rg & W). pose proof (b_act Hbef) as Ha. pose proof (b_va Hbef) as Va. pose proof (b_vb Hbef) as Vb. pose proof (b_nx Hbef) as Hn.
    destruct (ring_facts W Ha) as (HV & _ & chain & big & inj & prevs). destruct (chain vb Vb) as [Vc _].
    destruct (big va Va) as (B1 & B2 & B3). rewrite Hn in B1, B2, B3.
    assert (Bd : forall i j, V s i -> V s j -> i <> j -> out = [] -> Bs s i <> Bs s j).
    { intros i j Vi Vj Hij Ho K. specialize (U3 Ho). pose proof (V_rng Vi). pose proof (V_rng Vj). rewrite !U1 in K by (auto; lia).
      apply (pnt_distinct Hc) in K; fold n; auto; lia. }
    destruct Haft as [(Hcyc & Ha' & ids & Hp & ->)|(Ha' & Hm & Hg' & Hlen & Hgr & ->)].
    + split; cbn [lo_slav lo_out].
      * intros i Hi Vi. exfalso. destruct (proj1 (ginv_event Hc G Hord Hh)) as ((_ & _ & R' & sp & W' & _) & _). cbn [lo_slav] in W'.
        destruct W' as [(_ & _ & W3) _]. destruct (W3 i (V_rng Vi) Vi) as (l & Hl & _). rewrite Ha' in Hl. destruct Hl.
      * intros i Hi. right. destruct (U2 i Hi) as [Vi|(a & A1 & A2)]; [|exists a; split; auto; apply in_or_app; auto].
        eexists. split; [apply in_or_app; right; left; reflexivity|]. cbn [sinks]. rewrite <- (U1 i Hi Vi). apply in_map.
        apply (Permutation_in _ (Permutation_sym Hp)). destruct (ring_of_three W Ha Va Hn Hcyc Vi) as [->|[->| ->]]; simpl; auto.
      * intros K. destruct out; discriminate.
      * pose proof G as ((G1 & G2 & _) & _). destruct (G2 e (or_introl eq_refl)) as (He & _).
        assert (Hg1 : grows (s_vs s) (s_vs s')) by (apply (handle_event_grow (proj1 G1) (proj1 He) Hh)). destruct Hg1 as [Hg1 _]. lia.
      * intros a t0 K. destruct out as [|b out']; [|injection K as <- _; eapply U5; eauto]. injection K as <- _. cbn [sinks].
        assert (ND : NoDup ids).
        { eapply Permutation_NoDup; [apply Permutation_sym; exact Hp|].
          constructor; [simpl; intros [?|[?|[]]]; congruence|constructor; [simpl; intros [?|[]]; congruence|constructor; [simpl; tauto|constructor]]]. }
        assert (Hall : forall i, In i ids -> V s i).
        { intros i Hi. apply (Permutation_in _ Hp) in Hi. destruct Hi as [<-|[<-|[<-|[]]]]; auto. }
        clear - ND Hall Bd. induction ids as [|i ids IH]; simpl; constructor.
        -- intros K. apply in_map_iff in K as (j & E' & Hj). apply NoDup_cons_iff in ND as [ND _].
           apply (Bd j i); auto; [apply Hall; right; auto|apply Hall; left; auto|congruence].
        -- apply NoDup_cons_iff in ND as [_ ND]. apply IH; auto. intros; apply Hall; right; auto.
    + split; cbn [lo_slav lo_out].
      * intros i Hi Vi. apply (m_V Hm) in Vi as [->|(Vi & Na & Nb)]; [exfalso; lia|]. destruct (m_body Hm Vi Na Nb) as (_ & _ & ->). auto.
      * intros i Hi. destruct (U2 i Hi) as [Vi|(a & A1 & A2)]; [|right; exists a; split; auto; apply in_or_app; auto].
        destruct (Nat.eq_dec i va) as [->|Na]; [|destruct (Nat.eq_dec i vb) as [->|Nb]].
        -- right. eexists. split; [apply in_or_app; right; left; reflexivity|]. cbn [sinks]. rewrite <- (U1 va Hi Vi). simpl; auto.
        -- right. eexists. split; [apply in_or_app; right; left; reflexivity|]. cbn [sinks]. rewrite <- (U1 vb Hi Vi). simpl; auto.
        -- left. apply (m_V Hm). auto.
      * intros K. destruct out; discriminate.
      * lia.
      * intros a t0 K. destruct out as [|b out']; [|injection K as <- _; eapply U5; eauto]. injection K as <- _. cbn [sinks].
        constructor; [simpl; intros [K|[]]|constructor; [simpl; tauto|constructor]]. apply (Bd vb va); auto.
Qed.

Lemma used_reach st0 st pend : skeleton_start [c] = Ok st0 -> reach st0 st pend -> used st.
Proof.
  intros H Hr. pose proof (separated_order Hc tan_separated H) as Hord.
  induction Hr as [|st b q' Hr IH Hq Ha Hg|st e t s' arcs new Hr IH Hh].
  - apply used_start; auto.
  - destruct IH. split; auto.
  - eapply used_event; eauto. exact (reach_ginv Hc (start_ginv Hc H) Hord Hr).
Qed.

Lemma raw_pyramid fuel : length c + 2 * (length c - 2) < fuel ->
  exists a t, raw_skeleton fuel [c] = Ok (a :: t) /\ NoDup (sinks a) /\
    (forall b, In b (a :: t) -> source b = x /\ height b = r) /\
    (forall b p, In b (a :: t) -> In p (sinks b) -> p = x \/ exists i, i < n /\ p = pnt c i) /\
    forall i, i < n -> exists b, In b (a :: t) /\ In (pnt c i) (sinks b).
Proof.
  intros Hf. destruct (convex_starts Hc) as (st0 & H). pose proof (separated_order Hc tan_separated H) as Hord.
  destruct (convex_done Hc H Hord Hf) as (out & Hout & Hlen & Hall). pose proof Hout as Hout0.
  unfold raw_skeleton in Hout. rewrite H in Hout. cbn [bind] in Hout.
  destruct (event_loop fuel st0) as [st|y] eqn:El; [|discriminate]. cbn [bind] in Hout. apply Ok_inj in Hout. subst out.
  pose proof (event_loop_reach fuel (reach_start st0)) as Hr. rewrite El in Hr. destruct Hr as [Hr Hstop].
  pose proof (reach_ginv Hc (start_ginv Hc H) Hord Hr) as (G & Hrays & Hin & Hs).
  destruct (used_reach H Hr) as [U1 U2 U3 U4 U5].
  assert (Ha : s_act (lo_slav st) = []).
  { destruct Hs as [Hs|(Ha & T & T0 & Hgeo & He & Hw)]; auto. exfalso. destruct Hstop as [Hq|Hq]; [|congruence].
    destruct G as (_ & _ & R' & sp & W & _). destruct (first_event Hc W Ha Hgeo Hw) as (u & _ & (d & p & Hi) & _). rewrite Hq in Hi. destruct Hi. }
  assert (NV : forall i, ~ V (lo_slav st) i).
  { intros i Vi. destruct G as (_ & _ & R' & sp & W & _). destruct W as [(_ & _ & W3) _]. destruct (W3 i (V_rng Vi) Vi) as (l & Hl & _).
    rewrite Ha in Hl. destruct Hl. }
  destruct (lo_out st) as [|a t] eqn:Eo; [exfalso; simpl in Hlen; fold n in Hlen; lia|].
  assert (Hsrc : forall b, In b (a :: t) -> source b = x /\ height b = r) by (intros b Hb; apply tan_unique, Hall; auto).
  exists a, t. split; auto. split; [eapply U5; eauto|]. split; auto. split.
  - intros b p Hb Hp. destruct (raw_closed Hout0 Hb Hp) as [K|(b' & Hb' & <-)].
    + right. apply in_map_iff in K as (e & <- & He). simpl in He. rewrite app_nil_r in He. apply In_nth_error in He as (i & Hi).
      assert (Li : i < n) by (apply nth_error_Some; congruence). exists i. split; auto. unfold pnt, edge_at. rewrite Nat.mod_small, Hi by auto. auto.
    + left. apply Hsrc. auto.
  - intros i Hi. destruct (U2 i Hi) as [Vi|K]; auto. destruct (NV i Vi).
Qed.

(** ** merging leaves one node *)
Lemma union_sinks (l acc : list pt) : NoDup acc ->
  NoDup (fold_left (fun l z => if py_in veq z l then l else l ++ [z]) l acc) /\
  forall p, In p (fold_left (fun l z => if py_in veq z l then l else l ++ [z]) l acc) <-> In p acc \/ In p l.
Proof.
  revert acc. induction l as [|y l IH]; intros acc Hnd; cbn [fold_left]; [split; auto; simpl; tauto|].
  assert (K : py_in veq y acc = true <-> In y acc).
  { unfold py_in. rewrite existsb_exists. split; [intros (z & Hz & E'); apply veq_R in E'; congruence|intros Hy; exists y; split; auto; apply veq_R; auto]. }
  destruct (py_in veq y acc).
  - destruct (IH acc Hnd) as [I1 I2]. split; auto. intros p. rewrite I2. simpl. split; [tauto|intros [?|[<-|?]]; auto]. left. apply K. auto.
  - destruct (IH (acc ++ [y])) as [I1 I2].
    + eapply Permutation_NoDup; [apply Permutation_cons_append|]. constructor; auto. intros Hy. apply K in Hy. discriminate.
    + split; auto. intros p. rewrite I2, in_app_iff. simpl. tauto.
Qed.

Lemma merge_one (t : list (@subtree RA)) : forall a, NoDup (sinks a) -> (forall b, In b (a :: t) -> source b = x /\ height b = r) ->
  exists l, fold_left add_node t [a] = [Subtree (A := RA) x r l] /\ NoDup l /\
    forall p, In p l <-> exists b, In b (a :: t) /\ In p (sinks b).
Proof.
  induction t as [|b t IH]; intros a Hnd Hall; cbn [fold_left].
  - exists (sinks a). destruct (Hall a (or_introl eq_refl)) as [E1 E2]. destruct a as [s h l]. cbn [source height sinks] in *. subst.
    split; auto. split; auto. intros p. split; [intros K; eexists; split; [left; reflexivity|]; auto|intros (b & [<-|[]] & K); auto].
  - assert (Es : same_coords (source a) (source b) = true).
    { destruct (Hall a (or_introl eq_refl)) as [-> _]. destruct (Hall b (or_intror (or_introl eq_refl))) as [-> _].
      unfold same_coords. cbn [RA neqb]. apply andb_true_iff. split; apply Reqb_eq; auto. }
    cbn [add_node]. rewrite Es. destruct (union_sinks (sinks b) Hnd) as [N1 N2].
    set (l0 := fold_left _ (sinks b) (sinks a)) in *.
    destruct (IH (with_sinks l0 a)) as (l & L1 & L2 & L3).
    + exact N1.
    + intros d [<-|Hd]; [cbn [with_sinks source height]; apply Hall; left; auto|apply Hall; right; right; auto].
    + exists l. split; auto. split; auto. intros p. rewrite L3. split.
      * intros (d & [<-|Hd] & K); [|exists d; simpl; auto]. cbn [with_sinks sinks] in K. apply N2 in K as [K|K]; [exists a|exists b]; simpl; auto.
      * intros (d & [<-|[<-|Hd]] & K); [exists (with_sinks l0 a)|exists (with_sinks l0 a)|exists d]; (split; [simpl; auto|]); auto; cbn [with_sinks sinks]; apply N2; auto.
Qed.

Lemma base_nodup : NoDup (map (pnt c) (seq 0 n)).
Proof.
  apply NoDup_nth_error. intros i j Hi Ej. rewrite map_length, seq_length in Hi. rewrite !nth_error_map in Ej.
  rewrite (nth_error_nth' (seq 0 n) 0), seq_nth in Ej by (rewrite ?seq_length; auto).
  destruct (nth_error (seq 0 n) j) as [m|] eqn:Em; [|discriminate]. assert (Lj : j < n) by (rewrite <- (seq_length n 0); apply nth_error_Some; congruence).
  rewrite (nth_error_nth' (seq 0 n) 0), seq_nth in Em by (rewrite ?seq_length; auto). injection Em as <-.
  cbn [option_map] in Ej. injection Ej as Ej. apply (pnt_distinct Hc) in Ej; auto.
Qed.

Lemma ghost_alone l pr : (forall p, In p [fst pr; snd pr] -> p <> x) ->
  exists b, ghost_pair [Subtree (A := RA) x r l] 0 false pr = Ok b /\
    (b = PairNext [Subtree (A := RA) x r l] false \/ b = PairBreak [Subtree (A := RA) x r l] false).
Proof.
  intros Hp. unfold ghost_pair. cbn [get_arc nth source]. set (u := vsub (fst pr) x). set (w := vsub (snd pr) x). rewrite !ntruth_R.
  destruct (Reqb_spec (vlen u) 0) as [E1|E1]; cbn [negb andb]; eauto. destruct (Reqb_spec (vlen w) 0) as [F|F]; cbn [negb andb]; eauto.
  rewrite pdiv_R. cbn [RA nmul]. destruct (Reqb_spec (vlen u * vlen w)%R 0) as [G|G].
  { apply Rmult_integral in G as [G|G]; contradiction. }
  cbn [bind]. destruct (nltb _ PARALLEL); eauto.
  assert (K : forall q, q <> x -> find_pos (fun node => veq (source node) q) [Subtree (A := RA) x r l] = None).
  { intros q Hq. cbn [find_pos source]. destruct (veq x q) eqn:Eq; auto. apply veq_R in Eq. congruence. }
  destruct (nltb (vlen u) (vlen w)); rewrite K by (apply Hp; simpl; auto); eauto.
Qed.

Lemma skeleton_pyramid fuel : length c + 2 * (length c - 2) < fuel ->
  exists l, skeletonize fuel [c] = Ok [Subtree (A := RA) x r l] /\ Permutation l (map (pnt c) (seq 0 n)).
Proof.
  intros Hf. destruct (raw_pyramid Hf) as (a & t & Hraw & Hnd & Hall & Hcl & Hcov).
  destruct (merge_one Hnd Hall) as (l & Hl & Hln & Hli).
  unfold skeletonize. rewrite Hraw. cbn [bind]. unfold mergeNodeClusters, merge_same_sources. cbn [fold_left add_node]. rewrite Hl.
  cbn [merge_loop length seq]. unfold findClusters. change (py_get [c] 0) with (Ok c). cbn [bind]. destruct (convex_apses Hc) as (ap & ->). cbn [bind].
  rewrite cluster_loop_none.
  2: { constructor; [simpl; tauto|constructor]. }
  2: { intros i j [<-|[]] [<-|[]] K. congruence. }
  cbn [bind]. unfold removeGhosts. cbn [map length seq].
  assert (R1 : exists l1, remove_loop (Subtree (A := RA) x r l) = Subtree (A := RA) x r l1 /\ NoDup l1 /\ forall p, In p l1 <-> In p l /\ p <> x).
  { unfold remove_loop. cbn [source sinks]. destruct (py_in veq x l) eqn:Ex.
    - unfold py_in in Ex. apply existsb_exists in Ex as (z & Hz & Ez). apply veq_R in Ez. subst z.
      assert (G : forall l, NoDup l -> In x l -> exists l1, py_remove veq x l = Ok l1 /\ NoDup l1 /\ forall p, In p l1 <-> In p l /\ p <> x).
      { clear. induction l as [|y l IH]; intros Hn Hx; [destruct Hx|]. apply NoDup_cons_iff in Hn as [Hy Hn]. cbn [py_remove].
        destruct (veq y x) eqn:E.
        - apply veq_R in E. subst y. exists l. split; auto. split; auto. intros p. split; [intros K; split; [right; auto|congruence]|].
          intros [[<-|K] K2]; [congruence|auto].
        - destruct Hx as [<-|Hx]; [exfalso; rewrite (proj2 (veq_R _ _) eq_refl) in E; discriminate|].
          destruct (IH Hn Hx) as (l1 & -> & N1 & N2). cbn [bind]. exists (y :: l1). split; auto. split.
          + constructor; auto. intros K. apply N2 in K. tauto.
          + intros p. simpl. rewrite N2. split; [|tauto]. intros [<-|K]; [|tauto]. split; auto. intros <-. rewrite (proj2 (veq_R _ _) eq_refl) in E. discriminate. }
      destruct (G l Hln Hz) as (l1 & -> & N1 & N2). exists l1. auto.
    - exists l. split; auto. split; auto. intros p. split; [|tauto]. intros K. split; auto. intros ->.
      assert (py_in veq x l = true); [|congruence]. unfold py_in. apply existsb_exists. exists x. split; auto. apply veq_R. auto. }
  destruct R1 as (l1 & -> & N1 & N2). exists l1.
  assert (Hbase : forall p, In p l1 -> p <> x) by (intros p K; apply N2 in K; tauto).
  split.
  - cbn [ghost_arcs ghost_while get_arc nth sinks].
    assert (Gp : forall ps, (forall pr, In pr ps -> In (fst pr) l1 /\ In (snd pr) l1) ->
      ghost_pairs [Subtree (A := RA) x r l1] 0 false ps = Ok ([Subtree (A := RA) x r l1], false)).
    { induction ps as [|pr ps IH]; intros Hps; auto. cbn [ghost_pairs]. destruct (Hps pr (or_introl eq_refl)) as [P1 P2].
      destruct (@ghost_alone l1 pr) as (b & -> & [-> | ->]); [intros p [<-|[<-|[]]]; auto| |]; cbn [bind]; auto.
      apply IH. intros; apply Hps; right; auto. }
    rewrite Gp; [cbn [bind]; auto|]. clear. induction l1 as [|y l IH]; intros pr K; [destruct K|]. cbn [combinations2] in K.
    apply in_app_iff in K as [K|K]; [apply in_map_iff in K as (z & <- & Hz); simpl; auto|]. destruct (IH pr K). simpl; auto.
  - apply NoDup_Permutation; auto using base_nodup. intros p. rewrite N2, Hli, in_map_iff. split.
    + intros ((b & Hb & Hp) & Hpx). destruct (Hcl b p Hb Hp) as [->|(i & Hi & ->)]; [congruence|]. exists i. split; auto. apply in_seq. lia.
    + intros (i & <- & Hi). apply in_seq in Hi. split; [apply Hcov; lia|apply pnt_not_x].
Qed.
End Pyr.
