(** * ConvexSep: with separated distances the events are handled in order (C48) *)

From Coq Require Import Permutation Reals Lra.
From Verif Require Import Py PyFacts Arith ArithR Euclid Heapq Lav Cluster LavSpec LavWalk LavWf LavRing LavInit LavNext LavGrow LavStep LavSplit
  LoopSpec LavLoop LoopStart HeapSpec QueueProofs HeapProofs WaveSpec LavWave ClusterSpec GeoSpec GeoR GeoLines BisSpec BisProofs BisStart UnitProofs PatSpec TriSkel
  PolyProofs ConvexSpec ConvexGeo ConvexLoop ConvexWave ConvexMerge ConvexOrder ConvexEnd ConvexStart.
Set Implicit Arguments.
Unset Strict Implicit.
Local Open Scope nat_scope.

Lemma put_fold_run (A : arith) (evs : list (option (@event A))) q ops : heap_run (@ev_lt A) [] ops q ->
  exists ops', heap_run (@ev_lt A) [] ops' (fold_left put evs q).
Proof.
  revert q ops. induction evs as [|o evs IH]; intros q ops H; simpl; eauto. destruct o as [e|]; simpl; [|eapply IH; eauto].
  destruct (proj1 (reachable_queues H) [e]) as (ops' & H'). eapply IH. exact H'.
Qed.

Lemma reach_queue (A : arith) contours (st0 st : @loop_state A) pend : detectDormers contours = Ok [] ->
  skeleton_start contours = Ok st0 -> reach st0 st pend -> exists ops, heap_run (@ev_lt A) [] ops (lo_queue st).
Proof.
  intros Hd H Hr. induction Hr as [|st b q' Hr (ops & IH) Hq Ha Hg|st e t s' arcs new Hr (ops & IH) Hh].
  - unfold skeleton_start in H. rewrite Hd in H. destruct (init_slav contours) as [s|x]; [|discriminate]. cbn [bind] in H.
    destruct (initial_events s) as [evs|x]; [|discriminate]. cbn [bind] in H. apply Ok_inj in H. subst st0. cbn [lo_queue].
    apply (@put_fold_run A evs [] []). constructor.
  - cbn [lo_queue]. apply (proj2 (reachable_queues IH) _ _ Hg).
  - cbn [lo_queue]. apply (proj1 (reachable_queues IH) new).
Qed.

Section Sep.
Variable c : list (@edge2 RA).
Hypothesis Hc : convex_contour c.
Hypothesis Hsep : separated c.
Implicit Type st : @loop_state RA.
Notation event := (@event RA).

Definition level st (pend : list event) : Prop := pend = [] \/
  exists d, (forall e, In e pend -> ev_distance e = d) /\ forall e, In e (lo_queue st) -> live (lo_slav st) e -> (d <= ev_distance e)%R.

Lemma live_kept (s s' : @slav RA) e : grows (s_vs s) (s_vs s') -> ev_rng s e -> live s' e -> live s e.
Proof.
  intros [_ Hg] Hr. assert (K : forall i, i < length (s_vs s) -> is_valid s' i = true -> is_valid s i = true).
  { intros i Hi. destruct (Hg i Hi) as [_ Hv]. unfold is_valid. auto. }
  destruct e as [d p va vb|d p v opp|]; cbn [live ev_rng] in *; [|auto|auto].
  intros [H1 H2]. split; apply K; tauto.
Qed.

Theorem separated_order st0 : skeleton_start [c] = Ok st0 -> in_order st0.
Proof.
  intros H. assert (G : forall st pend, reach st0 st pend -> ginv c st pend /\ level st pend).
  { intros st pend Hr. induction Hr as [|st b q' Hr [IH1 IH2] Hq Ha Hg|st e t s' arcs new Hr [IH1 IH2] Hh].
    - split; [apply start_ginv; auto|left; auto].
    - destruct (reach_queue (contour_dormers Hc) H Hr) as (ops & Hops).
      destruct (batch_R Hops Hg) as (e & t & -> & Hp & Hmin & _ & Hnear & Hrest).
      pose proof (reach_batch Hr Hq Ha Hg) as Hr'. 
      destruct st as [s q out]. cbn [lo_slav lo_queue lo_out] in *. split; [eapply ginv_batch; eauto|]. right. exists (ev_distance e). split.
      + intros x Hx. assert (Hev : forall y, In y (e :: t) -> exists p, equidistant c p (ev_distance y)).
        { intros y Hy. destruct (convex_reach Hc H Hr') as (_ & K & _).
          assert (Hy' : In y ((e :: t) ++ q')) by (apply in_app_iff; auto).
          destruct (K y Hy') as (d & p & va & vb & ->). exists p. cbn [ev_distance]. eapply (convex_events Hc H Hr'). exact Hy'. }
        destruct (Hev x Hx) as (p & Hpx). destruct (Hev e (or_introl eq_refl)) as (p' & Hpe).
        destruct (Hsep Hpx Hpe) as [K|K]; auto. exfalso. specialize (Hnear x Hx).
        assert (Hge : (dist_R e <= dist_R x)%R).
        { apply Hmin. eapply Permutation_in; [apply Permutation_sym; exact Hp|]. apply in_app_iff; auto. }
        unfold dist_R in *. change (num RA) with R in *. rewrite Rabs_right in K by lra. lra.
      + intros x Hx _. cbn [lo_queue] in Hx. specialize (Hrest x Hx). unfold dist_R in *. change (num RA) with R in *. lra.
    - destruct IH2 as [IH2|(d & D1 & D2)]; [discriminate|].
      assert (He : ev_distance e = d) by (apply D1; left; auto).
      assert (Hord : live (lo_slav st) e -> forall e', In e' (t ++ lo_queue st) -> live (lo_slav st) e' -> (ev_distance e <= ev_distance e')%R).
      { intros _ e' Hin Hl. apply in_app_iff in Hin as [Hin|Hin]; [rewrite (D1 e'), He by (right; auto); change (num RA) with R in *; lra|].
        rewrite He. apply D2; auto. }
      destruct (ginv_event Hc IH1 Hord Hh) as [G1 G2]. split; auto. right. exists d. split; [intros x Hx; apply D1; right; auto|].
      cbn [lo_queue lo_slav]. intros x Hx Hl. apply (Permutation_in _ (put_all_perm (lo_queue st) new)) in Hx.
      apply in_app_iff in Hx as [Hx|Hx]; [|rewrite <- He; apply G2; auto]. apply D2; auto.
      destruct IH1 as ((I1 & I2 & _) & _). destruct (I2 x) as ((Hrx & _) & _); [right; apply in_app_iff; auto|].
      destruct (I2 e (or_introl eq_refl)) as ((Hre & _) & _).
      destruct (handle_event_grow (proj1 I1) Hre Hh) as ((Hgr & _) & _ & _). eapply live_kept; eauto. }
  intros st e t Hr Hl e' Hin Hl'. destruct (G _ _ Hr) as [_ [K|(d & D1 & D2)]]; [discriminate|].
  rewrite (D1 e) by (left; auto). apply in_app_iff in Hin as [Hin|Hin]; [rewrite (D1 e') by (right; auto); change (num RA) with R in *; lra|]. auto.
Qed.

Theorem convex_roof fuel : length c + 2 * (length c - 2) < fuel ->
  exists out, raw_skeleton fuel [c] = Ok out /\ length out = length c - 2 /\
    forall a, In a out -> equidistant c (source a) (height a) /\ forall e, In e c -> (height a <= edge_dist e (source a))%R.
Proof.
  intros Hf. destruct (convex_starts Hc) as (st0 & H). apply (convex_done Hc H (separated_order H) Hf).
Qed.

End Sep.
