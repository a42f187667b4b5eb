(** * LavWave: the wavefront during the event loop (C40) *)

From Coq Require Import Permutation.
From Verif Require Import Py PyFacts Arith Euclid Heapq Lav Cluster LavSpec LavWalk LavWf LavRing LavInit LavNext LavGrow LavStep LavSplit
  LoopSpec LavLoop LoopStart QueueProofs HeapProofs WaveSpec.
Set Implicit Arguments.
Unset Strict Implicit.
Local Open Scope nat_scope.

Section Wave.
Context {A : arith}.
Implicit Type s : @slav A.
Implicit Type st : @loop_state A.
Notation event := (@event A).
Notation edge2 := (@edge2 A).
Variable contours : list (list edge2).
Let E := concat contours.
Let pts := map (@ep1 A) (concat contours).
Hypothesis distinct : distinct_starts E.

Lemma wf_intact s R : wf E s R -> intact s R.
Proof.
  intros [(H1 & H2 & H3) H4]. split; auto. split; auto.
  intros l Hl. destruct (H2 l Hl) as [(K1 & K2 & K3 & K5) K4]. split; auto. split; auto. split; auto. split; auto.
  intros i Hi. destruct (K5 i Hi) as (V1 & V2 & V3 & V4 & V5 & V6). split; auto.
Qed.

Lemma joined_gone s s' : joined s s' -> forall l, (forall k, gone s s' k -> k = l) -> False.
Proof.
  intros (a & b & Hab & A1 & B1 & A2 & B2) l Hl. apply Hab. rewrite (Hl a), (Hl b); auto; split; auto.
Qed.

(** one event *)
Lemma event_ok s R e : wf E s R -> ev_inv E s e -> no_dormer e -> current s e ->
  exists s' arcs new R', handle_event s e = Ok (s', arcs, new) /\ wf E s' R' /\ length new <= 2 * length arcs /\
    ((~ joined s s' /\ length arcs + phi s' R' = phi s R) \/
     (joined s s' /\ length arcs + phi s' R' = phi s R + 4)).
Proof.
  intros W [Hr He] Hd Hc.
  assert (Hskip : exists s' arcs new R', Ok (s, @nil (@subtree A), @nil event) = Ok (s', arcs, new) /\ wf E s' R' /\
    length new <= 2 * length arcs /\
    ((~ joined s s' /\ length arcs + phi s' R' = phi s R) \/ (joined s s' /\ length arcs + phi s' R' = phi s R + 4))).
  { exists s, [], [], R. split; auto. split; auto. split; auto. left. split; auto. intros J.
    apply (joined_gone J (l := 0)). intros k [K1 K2]. tauto. }
  destruct e as [d ip va vb|d ip v opp|d dp vp dn vn de ipe va vb]; [| |destruct Hd]; cbn [handle_event].
  - destruct (is_valid s va) eqn:Va; [|exact Hskip]. destruct (is_valid s vb) eqn:Vb; [|exact Hskip]. cbn [negb orb].
    destruct (edge_event_ok d ip W Va Vb (Hc Va Vb)) as (s' & a & new & R' & l & H1 & H2 & H3 & H4 & H5 & _).
    exists s', [a], new, R'. split; auto. split; auto. split; [simpl; lia|]. left. split; [|simpl; lia].
    intros J. apply (joined_gone J H5).
  - destruct (is_valid s v) eqn:Va; [|exact Hskip]. cbn [negb].
    destruct He as (_ & Ho & E1 & E2).
    assert (Hs : forall e', same_edge opp e' = false -> opp <> e').
    { intros e' H ->. unfold same_edge in H. rewrite Nat.eqb_refl in H. discriminate. }
    destruct (split_event_ok distinct d ip W Va Ho (Hs _ E1) (Hs _ E2)) as (s' & arcs & new & R' & H1 & H2 & H3 & H4 & _).
    exists s', arcs, new, R'. split; auto. split; auto. split; auto.
    destruct H4 as [(-> & -> & ->)|[(a & l & -> & P & G)|(a & l & l' & -> & N & G1 & G2 & P)]].
    + left. split; auto. intros J. apply (joined_gone J (l := 0)). intros k [K1 K2]. tauto.
    + left. split; [intros J; apply (joined_gone J G)|simpl; lia].
    + right. split; [|simpl; lia]. exists l, l'. destruct G1, G2. auto.
Qed.

Lemma candidate_no_dormer s id e : candidate s id e -> no_dormer e.
Proof.
  intros H. destruct H as [p v Hp|p v Hp|oe e' Hr Hoe He']; simpl; auto.
  destruct (split_candidate_shape He') as (b & -> & _). simpl. auto.
Qed.

Lemma scheduled_no_dormer s e : scheduled s e -> no_dormer e.
Proof. intros H. destruct (scheduled_candidate H) as (s0 & id & _ & _ & _ & _ & _ & H6 & _). eapply candidate_no_dormer; eauto. Qed.

(** the invariant of the loop *)
Definition good st (pend : list event) (k : nat) : Prop :=
  st_inv E pts (lo_slav st) (lo_out st) /\
  (forall e, In e (pend ++ lo_queue st) -> ev_inv E (lo_slav st) e /\ no_dormer e) /\
  exists R, wf E (lo_slav st) R /\
    length (lo_out st) + phi (lo_slav st) R = list_sum (map (fun c => length c - 2) contours) + 4 * k.

Lemma good_event st e t k s' arcs new : good st (e :: t) k -> current (lo_slav st) e ->
  handle_event (lo_slav st) e = Ok (s', arcs, new) ->
  (~ joined (lo_slav st) s' -> good (Loop s' (put_all (lo_queue st) new) (lo_out st ++ arcs)) t k) /\
  (joined (lo_slav st) s' -> good (Loop s' (put_all (lo_queue st) new) (lo_out st ++ arcs)) t (S k)).
Proof.
  intros (G1 & G2 & R & G3 & G4) Hc Hh. destruct (G2 e (or_introl eq_refl)) as [He Hd].
  destruct (event_ok G3 He Hd Hc) as (s1 & arcs1 & new1 & R' & H1 & H2 & _ & H4). rewrite Hh in H1.
  apply Ok_inj, triple_inj in H1. destruct H1 as (<- & <- & <-).
  destruct (step_inv G1 He Hh) as (S1 & S2 & S3).
  assert (Hnd : forall e', In e' new -> no_dormer e').
  { intros e' He'. destruct He as [He0 _]. destruct (handle_event_grow (proj1 G1) He0 Hh) as (_ & _ & Hs).
    apply scheduled_no_dormer with (s := s'). auto. }
  assert (Hev : forall e', In e' (t ++ put_all (lo_queue st) new) -> ev_inv E s' e' /\ no_dormer e').
  { intros e' He'. apply in_app_iff in He' as [He'|He'].
    - destruct (G2 e') as [K1 K2]; [right; apply in_app_iff; auto|]. auto.
    - apply (Permutation_in _ (put_all_perm (lo_queue st) new)) in He'. apply in_app_iff in He' as [He'|He'].
      + destruct (G2 e') as [K1 K2]; [right; apply in_app_iff; auto|]. auto.
      + auto. }
  split; intros J; (split; [exact S1|]); (split; [exact Hev|]); exists R'; (split; [exact H2|]); cbn [lo_out lo_slav];
    rewrite app_length; destruct H4 as [[N P]|[N P]]; try contradiction; lia.
Qed.

Lemma history_good st0 : good st0 [] 0 -> forall st pend k, history st0 st pend k -> good st pend k.
Proof.
  intros G0 st pend k H. induction H as [|st k b q' H IH _ _ Hg|st k e t s' arcs new H IH Hc He Hj|st k e t s' arcs new H IH Hc He Hj].
  - auto.
  - destruct IH as (I1 & I2 & I3). split; auto. split; auto. intros e He. apply I2. simpl in *.
    apply getAllEqualDistance_perm in Hg. eapply Permutation_in; [apply Permutation_sym; exact Hg|exact He].
  - apply (good_event IH Hc He); auto.
  - apply (good_event IH Hc He); auto.
Qed.

Lemma contour_ids_sum : list_sum (map (fun l => length (contour_ids contours l) - 2) (seq 0 (length contours))) =
  list_sum (map (fun c => length c - 2) contours).
Proof.
  rewrite (map_ext (fun l => length (contour_ids contours l) - 2) (fun l => length (nth l contours []) - 2)).
  2: { intros l. unfold contour_ids. rewrite seq_length. auto. }
  f_equal. clear. induction contours as [|c cs IH]; auto. simpl. f_equal. rewrite <- seq_shift, map_map. exact IH.
Qed.

Hypothesis three : forall c, In c contours -> 3 <= length c.
Hypothesis nodorm : detectDormers contours = Ok [].

Lemma start_good st0 : skeleton_start contours = Ok st0 -> good st0 [] 0 /\ length (lo_queue st0) <= length (concat contours).
Proof.
  intros H. destruct (start_inv H) as (Hi & Ho & Hs & Hq).
  assert (Hne : forall c, In c contours -> c <> []) by (intros c Hc ->; apply three in Hc; simpl in Hc; lia).
  destruct (init_slav_ok Hne) as (s & H1 & H2 & H3). rewrite Hi in H1. apply Ok_inj in H1. subst s.
  assert (Hact : s_act (lo_slav st0) = seq 0 (length contours)) by apply H2.
  unfold skeleton_start in H. rewrite Hi, nodorm in H. cbn [bind] in H.
  destruct (initial_events (lo_slav st0)) as [evs|x] eqn:Ee; [|discriminate]. cbn [bind] in H. apply Ok_inj in H.
  assert (Hqe : lo_queue st0 = fold_left put evs []) by (rewrite <- H; auto).
  assert (Hevs : forall e, In (Some e) evs -> no_dormer e).
  { intros e He. unfold initial_events in Ee. destruct (chain_list _ _) as [ids|x]; [|discriminate]. cbn [bind] in Ee.
    destruct (mapM_in Ee He) as (id & _ & Hn). apply next_event_cand in Hn. eapply candidate_no_dormer; eauto. }
  assert (Hlen : length evs = length (concat contours)).
  { unfold initial_events in Ee. rewrite (chain_wavefront H2 Hne) in Ee. cbn [bind] in Ee.
    apply mapM_length in Ee. rewrite seq_length in Ee. auto. }
  split.
  - split; auto. split.
    + simpl. intros e He. split; auto. apply Hevs. rewrite Hqe in He. apply put_fold_in in He as [[]|He]; auto.
    + exists (contour_ids contours). split.
      * split; [apply wavefront_wfL; auto|]. intros l Hl. rewrite Hact in Hl. apply in_seq in Hl.
        unfold contour_ids. rewrite seq_length. apply three. apply nth_In. lia.
      * rewrite Ho. unfold phi. rewrite Hact, contour_ids_sum. simpl. lia.
  - rewrite Hqe, <- Hlen. clear. 
    assert (G : forall q, length (fold_left put evs q) <= length evs + length q).
    { induction evs as [|o evs IH]; intros q; simpl; auto. eapply Nat.le_trans; [apply IH|]. destruct o as [e|]; simpl; [|lia].
      rewrite (Permutation_length (heappush_perm (@ev_lt A) q e)). simpl. lia. }
    specialize (G []). simpl in G. lia.
Qed.

Theorem wavefront_intact st0 st pend k : skeleton_start contours = Ok st0 -> history st0 st pend k ->
  exists R, intact (lo_slav st) R /\
    length (lo_out st) + capacity (lo_slav st) R = list_sum (map (fun c => length c - 2) contours) + 4 * k.
Proof.
  intros H Hh. destruct (history_good (proj1 (start_good H)) Hh) as (_ & _ & R & W & P). exists R. split; auto. apply wf_intact; auto.
Qed.

Theorem history_no_exception st0 st e t k : skeleton_start contours = Ok st0 -> history st0 st (e :: t) k ->
  current (lo_slav st) e -> exists r, handle_event (lo_slav st) e = Ok r.
Proof.
  intros H Hh Hc. destruct (history_good (proj1 (start_good H)) Hh) as (_ & G2 & R & W & _).
  destruct (G2 e (or_introl eq_refl)) as [He Hd]. destruct (event_ok W He Hd Hc) as (s' & arcs & new & R' & H1 & _). eauto.
Qed.

(** ** the loop ends *)
Lemma put_all_length (q es : list event) : length (put_all q es) = length q + length es.
Proof. rewrite (Permutation_length (put_all_perm q es)), app_length. auto. Qed.

Section End.
Variable st0 : @loop_state A.
Variable K : nat.
Hypothesis Hstart : skeleton_start contours = Ok st0.
Hypothesis Hcur : forall st e t k, history st0 st (e :: t) k -> current (lo_slav st) e.
Hypothesis Hjoin : forall st pend k, history st0 st pend k -> k <= K.

Definition weight st : nat :=
  length (lo_queue st) + 2 * (list_sum (map (fun c => length c - 2) contours) + 4 * K - length (lo_out st)).

Lemma joined_dec s s' : joined s s' \/ ~ joined s s'.
Proof.
  set (g := filter (fun l => negb (existsb (Nat.eqb l) (s_act s'))) (s_act s)).
  assert (Hg : forall l, In l g <-> In l (s_act s) /\ ~ In l (s_act s')).
  { intros l. unfold g. rewrite filter_In. split; intros [H1 H2]; split; auto.
    - intros Hi. apply negb_true_iff in H2. apply Bool.not_true_iff_false in H2. apply H2.
      apply existsb_exists. exists l. split; auto. apply Nat.eqb_refl.
    - apply negb_true_iff, Bool.not_true_iff_false. intros Hx. apply existsb_exists in Hx as (x & X1 & X2).
      apply Nat.eqb_eq in X2. subst x. auto. }
  clearbody g. destruct g as [|a g].
  - right. intros (l & l' & _ & H1 & _ & H2 & _). apply (Hg l). auto.
  - destruct (forallb (Nat.eqb a) g) eqn:Ef.
    + right. intros (l & l' & Hn & H1 & H2 & H3 & H4). rewrite forallb_forall in Ef.
      assert (G : forall x, In x (a :: g) -> x = a).
      { intros x [<-|Hx]; auto. apply Ef in Hx. apply Nat.eqb_eq in Hx. auto. }
      apply Hn. rewrite (G l), (G l'); auto; apply Hg; auto.
    + left. assert (Hx : exists b, In b g /\ a <> b).
      { clear Hg. induction g as [|b g IH]; [discriminate|]. simpl in Ef. destruct (Nat.eqb_spec a b) as [->|Hb].
        - destruct IH as (c & C1 & C2); auto. exists c. split; auto. right; auto.
        - exists b. split; auto. left; auto. }
      destruct Hx as (b & Hb & Hab). exists a, b. split; auto.
      destruct (proj1 (Hg a) (or_introl eq_refl)). destruct (proj1 (Hg b) (or_intror Hb)). auto.
Qed.

Lemma batch_ends evs : forall st k, history st0 st evs k ->
  exists st' k', handle_batch st evs = Ok st' /\ history st0 st' [] k' /\ weight st' <= weight st.
Proof.
  induction evs as [|e t IH]; intros st k Hh; cbn [handle_batch]; [eauto|].
  pose proof (history_good (proj1 (start_good Hstart)) Hh) as Hg. pose proof Hg as (_ & G2 & R & W & P).
  destruct (G2 e (or_introl eq_refl)) as [He Hd]. pose proof (Hcur Hh) as Hc.
  destruct (event_ok W He Hd Hc) as (s' & arcs & new & R' & H1 & H2 & H3 & H4). rewrite H1. cbn [bind].
  assert (Hh' : exists k', history st0 (Loop s' (put_all (lo_queue st) new) (lo_out st ++ arcs)) t k').
  { destruct (joined_dec (lo_slav st) s') as [J|J]; [exists (S k); eapply history_join; eauto|exists k; eapply history_event; eauto]. }
  destruct Hh' as (k1 & Hh').
  destruct (IH _ _ Hh') as (st' & k' & I1 & I2 & I3). exists st', k'. split; auto. split; auto.
  eapply Nat.le_trans; [exact I3|]. unfold weight. cbn [lo_queue lo_out]. rewrite put_all_length, app_length.
  destruct (history_good (proj1 (start_good Hstart)) Hh') as (_ & _ & R2 & _ & P2). cbn [lo_out lo_slav] in P2.
  pose proof (Hjoin Hh'). rewrite app_length in P2. lia.
Qed.

Lemma loop_ends fuel : forall st k, history st0 st [] k -> weight st < fuel ->
  exists st' k', event_loop fuel st = Ok st' /\ history st0 st' [] k'.
Proof.
  induction fuel as [|f IH]; intros st k Hh Hw; [lia|]. cbn [event_loop].
  destruct (lo_queue st) as [|e0 q0] eqn:Eq; [eauto|].
  destruct (s_act (lo_slav st)) as [|l0 a0] eqn:Ea; [eauto|].
  destruct (getAllEqualDistance (e0 :: q0)) as [[b q']|] eqn:Eg.
  2: { apply getAllEqualDistance_none in Eg. discriminate. }
  assert (Hb : history st0 (Loop (lo_slav st) q' (lo_out st)) b k).
  { apply history_batch; auto; try congruence. }
  destruct (batch_ends Hb) as (st' & k' & H1 & H2 & H3). rewrite H1. cbn [bind]. apply (IH st' k'); auto.
  assert (Hl : length q' < length (e0 :: q0)).
  { pose proof (Permutation_length (getAllEqualDistance_perm _ Eg)) as Hp. rewrite app_length in Hp.
    unfold getAllEqualDistance in Eg. destruct (heappop (@ev_lt A) (e0 :: q0)) as [[item q1]|]; [|discriminate].
    destruct (pop_equal _ item q1) as [l q2]. injection Eg as <- <-. simpl in Hp. simpl. lia. }
  unfold weight in *. cbn [lo_queue lo_out] in H3. rewrite Eq in Hw. lia.
Qed.

Theorem wavefront_ends fuel :
  length (concat contours) + 2 * (list_sum (map (fun c => length c - 2) contours) + 4 * K) < fuel ->
  exists st k, event_loop fuel st0 = Ok st /\ history st0 st [] k.
Proof.
  intros Hf. destruct (start_good Hstart) as [_ Hq]. apply (@loop_ends fuel st0 0); [constructor|].
  unfold weight. destruct (start_inv Hstart) as (_ & -> & _). simpl. lia.
Qed.

End End.

End Wave.
