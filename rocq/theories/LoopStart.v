(** * LoopStart: the state at the start of the event loop (bpypolyskel.py:836-852) *)

From Coq Require Import Permutation.
From Verif Require Import Py PyFacts Arith Euclid Heapq Lav Cluster LavSpec LavWalk LavWf LavInit LavNext LavGrow LoopSpec
  LavLoop HeapProofs.
Set Implicit Arguments.
Unset Strict Implicit.
Local Open Scope nat_scope.

Section Start.
Context {A : arith}.
Implicit Type s : @slav A.
Notation event := (@event A).
Notation subtree := (@subtree A).
Notation edge2 := (@edge2 A).
Variable contours : list (list edge2).
Let E := concat contours.
Let pts := map (@ep1 A) (concat contours).

Lemma wavefront_rng s : wavefront_of contours s -> (forall c, In c contours -> c <> []) -> rng s.
Proof.
  intros W Hne. pose proof W as (W1 & W2 & W3 & W4).
  assert (G : forall k, k < length contours -> lav_ok (concat contours) (s_vs s) (s_ls s) k (contour_ids contours k)).
  { intros k Hk. apply wavefront_lav_ok; auto. apply contours_nonempty_nth; auto. }
  split; [|split].
  - intros i Hi. rewrite W1 in Hi. destruct (offset_find Hi) as (k & Hk & Hin).
    destruct (G k Hk) as ((K1 & K2 & K3 & K5) & _).
    destruct (K5 i Hin) as (V1 & V2 & _). split; [|split].
    + apply (K5 (nxt_of (s_vs s) i)). apply (ring_next_in K1); auto.
    + apply (K5 (prv_of (s_vs s) i)). apply (ring_prev_in K1); auto.
    + intros l Hl. rewrite V2 in Hl. injection Hl as <-. auto.
  - intros l Hl. rewrite W2 in Hl. destruct (G l Hl) as ((K1 & K2 & K3 & K5) & _). apply (K5 _ K3).
  - intros l Hl. rewrite W3 in Hl. apply in_seq in Hl. lia.
Qed.

Lemma wavefront_body s i : wavefront_of contours s -> (forall c, In c contours -> c <> []) -> i < length (s_vs s) ->
  In (v_eprev (getv (s_vs s) i)) E /\ In (v_enext (getv (s_vs s) i)) E /\ In (v_point (getv (s_vs s) i)) pts.
Proof.
  intros W Hne Hi. pose proof W as (W1 & W2 & W3 & W4). rewrite W1 in Hi.
  destruct (offset_find Hi) as (k & Hk & Hin).
  pose proof (nth_error_nth' contours [] Hk) as Hc.
  assert (Hok : lav_ok (concat contours) (s_vs s) (s_ls s) k (contour_ids contours k)).
  { apply wavefront_lav_ok; auto. apply contours_nonempty_nth; auto. }
  destruct Hok as ((K1 & K2 & K3 & K5) & _). destruct (K5 i Hin) as (V1 & V2 & V3 & V4 & V5 & V6).
  split; auto. split; auto.
  destruct (W4 k _ Hc) as (G & pns & Hp & Hb). unfold contour_ids in Hin. apply in_seq in Hin.
  pose proof (circ_prev_next_length _ Hp) as Hpl.
  set (j := i - offset contours k).
  destruct (nth_error pns j) as [p|] eqn:Ej.
  2: { apply nth_error_None in Ej. unfold j in Ej. lia. }
  destruct (Hb j p Ej) as (_ & _ & (S1 & S2 & S3 & _)). replace (offset contours k + j) with i in * by (unfold j; lia).
  rewrite S1. simpl. simpl in S3. rewrite <- S3. apply in_map. exact V5.
Qed.

Lemma init_inv s : init_slav contours = Ok s -> st_inv E pts s [].
Proof.
  intros H. destruct (in_dec (list_eq_dec Nat.eq_dec) [] (map (fun c => map (fun _ => 0) c) contours)) as [Hin|Hin].
  { apply in_map_iff in Hin as (c & Hc & Hin). assert (Hx : c = []) by (destruct c; [auto|discriminate]).
    rewrite init_slav_err in H; [discriminate|]. eauto. }
  assert (Hne : forall c, In c contours -> c <> []).
  { intros c Hc ->. apply Hin. apply in_map_iff. exists []. auto. }
  destruct (init_slav_ok Hne) as (s' & H1 & H2 & H3). rewrite H in H1. apply Ok_inj in H1. subst s'.
  split; [apply wavefront_rng; auto|]. split; [|split].
  - rewrite H3. intros oe Ho. apply in_map_iff in Ho as (i & <- & Hi). simpl.
    apply in_seq in Hi. apply wavefront_body; auto. destruct H2 as (-> & _). lia.
  - intros i Hi. destruct (wavefront_body H2 Hne Hi) as (B1 & B2 & B3). split; auto. split; auto. left; auto.
  - intros a [].
Qed.

Lemma chain_list_range s L ids : rng s -> (forall l, In l L -> l < length (s_ls s)) -> chain_list s L = Ok ids ->
  forall i, In i ids -> i < length (s_vs s).
Proof.
  intros Hr. revert ids. induction L as [|l L IH]; simpl; intros ids Hl H.
  - apply Ok_inj in H. subst. intros i [].
  - destruct (lav_list s l) as [a|x] eqn:Ea; [|discriminate]. simpl in H.
    destruct (chain_list s L) as [b|x] eqn:Eb; [|discriminate]. simpl in H. apply Ok_inj in H. subst ids.
    intros i Hi. apply in_app_iff in Hi as [Hi|Hi].
    + eapply lav_list_range; eauto.
    + eapply IH; eauto.
Qed.

Lemma mapM_in X Y (f : X -> res Y) l r : mapM f l = Ok r -> forall y, In y r -> exists x, In x l /\ f x = Ok y.
Proof.
  revert r. induction l as [|a l IH]; simpl; intros r H.
  - apply Ok_inj in H. subst. intros y [].
  - destruct (f a) as [b|] eqn:Ef; [|discriminate]. simpl in H.
    destruct (mapM f l) as [t|] eqn:Em; [|discriminate]. simpl in H. apply Ok_inj in H. subst r.
    intros y [<-|Hy]; eauto. destruct (IH t eq_refl y Hy) as (x & Hx & Hf). eauto.
Qed.

Lemma enumerate_in X (l : list X) ie : In ie (enumerate l) -> In (snd ie) l.
Proof. destruct ie as [i x]. intros H. apply in_combine_r in H. auto. Qed.

Lemma initial_events_inv s evs : st_inv E pts s [] -> initial_events s = Ok evs ->
  forall e, In (Some e) evs -> ev_inv E s e.
Proof.
  intros (I1 & I2 & I3 & I4) H e He. unfold initial_events in H.
  destruct (chain_list s (s_act s)) as [ids|x] eqn:Ec; [|discriminate]. simpl in H.
  destruct (mapM_in H He) as (id & Hid & Hn). apply next_event_cand in Hn.
  eapply candidate_inv; eauto.
  - intros i Hi. destruct (I3 i Hi) as (J1 & J2 & _). auto.
  - eapply chain_list_range; eauto. apply I1.
Qed.

Lemma dormer_event_inv s evs dm o : (forall e, In (Some e) evs -> ev_inv E s e) -> dormer_event s evs dm = Ok o ->
  forall e, o = Some e -> ev_inv E s e.
Proof.
  intros Hi. unfold dormer_event. cbv zeta.
  set (sel := map snd _).
  assert (Hsel : forall i e, nth_error sel i = Some (Some e) -> ev_inv E s e).
  { intros i e He. apply Hi. apply nth_error_In in He. unfold sel in He. apply in_map_iff in He as (ie & H1 & H2).
    rewrite <- H1. apply filter_In in H2 as [H2 _]. apply enumerate_in in H2. auto. }
  destruct (forallb _ sel); [|intros H; apply Ok_inj in H; congruence].
  destruct (nth_error sel 0) as [e0|] eqn:E0; [|discriminate]. cbn [of_option bind].
  destruct e0 as [[d0 ip0 a0 b0|dp ipp vp op|d0 dp0 vp0 dn0 vn0 de0 ipe0 va0 vb0]|]; try (intros H; apply Ok_inj in H; congruence).
  destruct (nth_error sel 1) as [e1|] eqn:E1; [|discriminate]. cbn [of_option bind].
  destruct e1 as [[de ipe va vb|d1 ip1 v1 o1|d0 dp0 vp0 dn0 vn0 de0 ipe0 va0 vb0]|]; try (intros H; apply Ok_inj in H; congruence).
  destruct (nth_error sel 3) as [e3|] eqn:E3; [|discriminate]. cbn [of_option bind].
  destruct e3 as [[d1 ip1 a1 b1|dn ipn vn on|d0 dp0 vp0 dn0 vn0 de0 ipe0 va0 vb0]|]; try (intros H; apply Ok_inj in H; congruence).
  intros H. apply Ok_inj in H. subst o. intros e [= <-].
  apply Hsel in E0 as [A1 (A2 & _)]. apply Hsel in E1 as [B1 B2]. apply Hsel in E3 as [C1 (C2 & _)].
  split; [simpl in *; tauto|]. split; auto. split; eauto.
Qed.

Lemma processDormers_inv s dms evs evs' : (forall e, In (Some e) evs -> ev_inv E s e) ->
  processDormers s dms evs = Ok evs' -> forall e, In (Some e) evs' -> ev_inv E s e.
Proof.
  intros Hi. unfold processDormers.
  destruct (mapM _ dms) as [des|x] eqn:Em; [|discriminate]. cbn [bind]. intros H. apply Ok_inj in H. subst evs'.
  intros e He. apply in_app_iff in He as [He|He].
  - apply Hi. apply in_map_iff in He as (ie & H1 & H2). rewrite <- H1. apply filter_In in H2 as [H2 _].
    apply enumerate_in in H2. auto.
  - apply in_map_iff in He as (p & H1 & H2). apply filter_In in H2 as [H2 _].
    destruct (mapM_in Em H2) as (dm & Hdm & Hf). destruct (dormer_event s evs dm) as [o|x] eqn:Ed; [|discriminate].
    cbn [bind] in Hf. apply Ok_inj in Hf. subst p. simpl in H1. eapply dormer_event_inv; eauto.
Qed.

Lemma put_fold_in (evs : list (option event)) q e : In e (fold_left put evs q) -> In e q \/ In (Some e) evs.
Proof.
  revert q. induction evs as [|o evs IH]; intros q; simpl; auto.
  intros H. apply IH in H as [H|H]; auto. destruct o as [e'|]; simpl in H; auto.
  apply (Permutation_in _ (heappush_perm (@ev_lt A) q e')) in H. destruct H as [<-|H]; auto.
Qed.

Theorem start_inv st : skeleton_start contours = Ok st ->
  init_slav contours = Ok (lo_slav st) /\ lo_out st = [] /\
  st_inv E pts (lo_slav st) (lo_out st) /\ (forall e, In e (lo_queue st) -> ev_inv E (lo_slav st) e).
Proof.
  unfold skeleton_start. destruct (init_slav contours) as [s|x] eqn:Ei; [|discriminate]. cbn [bind].
  destruct (detectDormers contours) as [dms|x]; [|discriminate]. cbn [bind].
  destruct (initial_events s) as [evs|x] eqn:Ee; [|discriminate]. cbn [bind].
  pose proof (init_inv Ei) as Hs. pose proof (initial_events_inv Hs Ee) as He.
  assert (G : forall r, r = match dms with [] => Ok evs | _ :: _ => processDormers s dms evs end ->
    forall evs', r = Ok evs' -> forall e, In (Some e) evs' -> ev_inv E s e).
  { intros r -> evs' H. destruct dms; [apply Ok_inj in H; subst; auto|]. eapply processDormers_inv; eauto. }
  specialize (G _ eq_refl). destruct (match dms with [] => _ | _ :: _ => _ end) as [evs'|x]; [|discriminate]. cbn [bind].
  intros H. apply Ok_inj in H. subst st. cbn [lo_slav lo_out lo_queue]. split; auto. split; auto. split; auto.
  intros e Hq. apply put_fold_in in Hq as [[]|Hq]. eapply G; eauto.
Qed.

(** every point of the loop of skeletonize *)
Theorem skeleton_reach st0 st pend : skeleton_start contours = Ok st0 -> reach st0 st pend ->
  st_inv E pts (lo_slav st) (lo_out st) /\ (forall e, In e (pend ++ lo_queue st) -> ev_inv E (lo_slav st) e).
Proof.
  intros H Hr. destruct (start_inv H) as (_ & _ & H1 & H2). eapply reach_inv; eauto.
Qed.

Theorem raw_skeleton_inv fuel out : raw_skeleton fuel contours = Ok out ->
  forall a, In a out -> node_height E a /\ forall p, In p (sinks a) -> known pts out p.
Proof.
  unfold raw_skeleton. destruct (skeleton_start contours) as [st0|x] eqn:Es; [|discriminate]. cbn [bind].
  pose proof (event_loop_reach fuel (reach_start st0)) as Hr. destruct (event_loop fuel st0) as [st|x]; [|discriminate].
  cbn [bind]. intros H. apply Ok_inj in H. subst out. destruct Hr as [Hr _].
  destruct (skeleton_reach Es Hr) as ((_ & _ & _ & H4) & _). auto.
Qed.

End Start.
