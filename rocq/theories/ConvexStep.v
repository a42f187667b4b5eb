(** * ConvexStep: what one event does to the wavefront of a convex contour (C49) *)

From Coq Require Import Permutation Reals Lra.
From Verif Require Import Py PyFacts Arith ArithR Euclid Heapq Lav Cluster LavSpec LavWalk LavWf LavRing LavInit LavNext LavGrow LavStep LavSplit
  LoopSpec LavLoop LoopStart QueueProofs HeapProofs WaveSpec LavWave ClusterSpec GeoSpec GeoR GeoLines BisSpec BisProofs BisStart UnitProofs PatSpec TriSkel
  ConvexSpec ConvexGeo ConvexLoop ConvexWave ConvexMerge ConvexOrder ConvexEnd.
Set Implicit Arguments.
Unset Strict Implicit.
Local Open Scope nat_scope.

Lemma edge_sinks (A : arith) (s : @slav A) d ip va vb s' arcs new : handle_edge_event s d ip va vb = Ok (s', arcs, new) ->
  (prv_of (s_vs s) va = nxt_of (s_vs s) vb /\ exists l L ids, v_lav (getv (s_vs s) va) = Some l /\ lav_list (with_act L s) l = Ok ids /\
     arcs = [Subtree ip d (map (fun i => v_point (getv (s_vs s) i)) ids)] /\ length (s_vs s') = length (s_vs s)) \/
  (prv_of (s_vs s) va <> nxt_of (s_vs s) vb /\
     arcs = [Subtree ip d [v_point (getv (s_vs s') va); v_point (getv (s_vs s') vb)]] /\ length (s_vs s') = S (length (s_vs s))).
Proof.
  unfold handle_edge_event, prv_of, nxt_of. destruct (Nat.eqb_spec (v_prev (getv (s_vs s) va)) (v_next (getv (s_vs s) vb))) as [Hp|Hp].
  - destruct (v_lav (getv (s_vs s) va)) as [l|] eqn:El; [|intros H; discriminate].
    unfold remove_lav. destruct (py_remove _ _ _) as [L|x]; [|intros H; discriminate]. cbn [bind of_option].
    destruct (lav_list (with_act L s) l) as [ids|x] eqn:Ei; [|intros H; discriminate]. cbn [bind]. intros H. apply Ok_inj, triple_inj in H.
    destruct H as (<- & <- & _). left. split; auto. exists l, L, ids.
    destruct (invalidate_all_spec [] (with_act L s) ids) as (-> & _). auto.
  - destruct (of_option _ _) as [l|x]; [|intros H; discriminate]. cbn [bind]. destruct (unify s l va vb ip) as [s1 nv] eqn:Eu.
    assert (Hl : length (s_vs s1) = S (length (s_vs s))).
    { unfold unify in Eu. injection Eu as <- _. unfold invalidate, with_ls. repeat (destruct (v_lav _)); cbn [s_vs with_vs]; rewrite !modv_length, app_length; simpl; lia. }
    set (s2 := if _ || _ then _ else s1). destruct (next_event s2 nv) as [ev|x]; [|intros H; discriminate]. cbn [bind].
    intros H. apply Ok_inj, triple_inj in H. destruct H as (<- & <- & _). right. split; auto. split; auto. unfold s2. destruct (_ || _); auto.
Qed.

Section Step.
Variable c : list (@edge2 RA).
Hypothesis Hc : convex_contour c.
Implicit Type s : @slav RA.
Implicit Type st : @loop_state RA.
Notation event := (@event RA).
Let n := length c.
Let E := concat [c].

(** the situation before an edge event *)
Record before s (va vb : nat) (X : pt) (d : R) : Prop := {
  b_wf : exists Rg, wf E s Rg;
  b_act : s_act s = [0];
  b_rays : rays s;
  b_geo : exists T, (0 <= T)%R /\ geo c s T;
  b_va : V s va;
  b_vb : V s vb;
  b_nx : nx s va = vb;
  b_hit : Hit s va X d;
  b_min : forall v q d', V s v -> Hit s v q d' -> (d <= d')%R }.

Definition after s s' va vb X d (arcs : list (@subtree RA)) : Prop :=
  (nx s (nx s vb) = va /\ s_act s' = [] /\ exists ids, Permutation ids [va; vb; nx s vb] /\
     arcs = [Subtree (A := RA) X d (map (Bs s) ids)]) \/
  (s_act s' = [0] /\ merged s s' va vb X /\ geo c s' d /\ length (s_vs s') = S (length (s_vs s)) /\ grows (s_vs s) (s_vs s') /\
     arcs = [Subtree (A := RA) X d [Bs s va; Bs s vb]]).

Lemma step_cases st e t s' arcs new : ginv c st (e :: t) ->
  (live (lo_slav st) e -> forall e', In e' (t ++ lo_queue st) -> live (lo_slav st) e' -> (ev_distance e <= ev_distance e')%R) ->
  handle_event (lo_slav st) e = Ok (s', arcs, new) ->
  (s' = lo_slav st /\ arcs = [] /\ new = []) \/
  exists d X va vb, e = EdgeEv d X va vb /\ before (lo_slav st) va vb X d /\ after (lo_slav st) s' va vb X d arcs.
Proof.
  intros (G & Hr & Hout & Hst) Hord Hh. pose proof Hh as Hh0.
  destruct st as [s q out]. cbn [lo_slav lo_queue lo_out] in *.
  pose proof G as (G1 & G2 & Rg & sp & W & _). cbn [lo_slav lo_queue lo_out] in *. destruct (G2 e (or_introl eq_refl)) as (He & Hedge & Hcur).
  destruct Hedge as (d & ip & va & vb & ->). cbn [handle_event] in Hh.
  destruct (is_valid s va) eqn:Va; [|left; apply Ok_inj, triple_inj in Hh; destruct Hh as (<- & <- & <-); auto].
  destruct (is_valid s vb) eqn:Vb; [|left; apply Ok_inj, triple_inj in Hh; destruct Hh as (<- & <- & <-); auto]. cbn [negb orb] in Hh.
  right. exists d, ip, va, vb. split; auto.
  change (V s va) in Va. change (V s vb) in Vb.
  assert (Hn : nx s va = vb) by exact (Hcur Va Vb).
  destruct Hst as [Hst|(Ha & T & T0 & Hg & Hev & Hw)].
  { exfalso. destruct W as [(_ & _ & W3) _]. destruct (W3 va (V_rng Va) Va) as (l & Hl & _). rewrite Hst in Hl. destruct Hl. }
  assert (Hhit : Hit s va ip d) by (apply (Hev d ip va vb); auto; left; auto).
  destruct (ring_facts W Ha) as (HV & Hne & chain & big & inj & prevs).
  assert (Hmin : forall v q0 d', V s v -> Hit s v q0 d' -> (d <= d')%R).
  { destruct (first_event Hc W Ha Hg Hw) as (u & Vu & (du & pu & Hin) & Hs). intros v q0 d' Hv Hh'.
    destruct (chain u Vu) as [Vn _]. pose proof (Hev _ _ _ _ Hin Vu Vn) as Hu.
    apply Rle_trans with du; [|apply (Hs v Hv _ _ _ _ Hu Hh')]. destruct Hin as [Hin|Hin]; [injection Hin as -> _ _ _; lra|].
    apply (Hord (conj Va Vb) _ Hin). split; auto. }
  split; [split; eauto|].
  destruct (edge_event_ok d ip W Va Vb Hn) as (s1 & a & new1 & R' & l & H1 & W' & _ & Hphi & _ & Hstep).
  rewrite Hh in H1. apply Ok_inj, triple_inj in H1. destruct H1 as (<- & -> & <-).
  assert (Hgr : grows (s_vs s) (s_vs s')) by (apply (handle_event_grow (proj1 G1) (proj1 He) Hh0)).
  assert (Hpt : forall i, i < length (s_vs s) -> v_point (getv (s_vs s') i) = Bs s i).
  { intros i Hi. destruct (getv_body Hgr Hi) as (B0 & _). destruct (Hr i Hi) as (_ & B1 & _). unfold Bs. congruence. }
  destruct (edge_sinks Hh) as [(Hpk & l1 & L & ids & Hl1 & Hll & Harcs & Hlen)|(Hpk & Harcs & Hlong)].
  - left. destruct (prevs va Va) as [Vp Hp]. assert (Hcyc : nx s (nx s vb) = va) by (unfold nx in *; rewrite <- Hpk; exact Hp).
    split; auto. split.
    + destruct Hstep as [(_ & _ & HR & Hact' & _)|(l0 & nv & rest & Hl & Hact' & U & _)].
      * destruct (s_act s') as [|k ks] eqn:Ea; auto. exfalso.
        assert (Hall : forall x, In x (s_act s') -> x = 0).
        { intros x Hx. rewrite Ea in Hx. apply Hact' in Hx. rewrite Ha in Hx. destruct Hx as [<-|[]]; auto. }
        assert (Hnd : NoDup (s_act s')) by apply W'. rewrite Ea in Hnd, Hall.
        assert (k = 0) by (apply Hall; left; auto). subst k.
        assert (ks = []). { destruct ks as [|k2 ks]; auto. exfalso. apply NoDup_cons_iff in Hnd as [Hnd _]. apply Hnd. left. apply Hall. right; left; auto. }
        subst ks. unfold phi in Hphi. rewrite Ea, Ha, HR in Hphi. lia.
      * exfalso. destruct U as (U1 & U2 & _). lia.
    + exists ids.
      assert (Hids : Permutation (Rg 0) ids).
      { destruct W as [(_ & W2 & W3) _]. rewrite Ha in W2, W3. destruct (W2 0 (or_introl eq_refl)) as [Hok _].
        assert (Hl0 : v_lav (getv (s_vs s) va) = Some 0).
        { pose proof Hok as (_ & _ & _ & K4). apply HV in Va. destruct (K4 va Va) as (_ & K & _). exact K. }
        assert (l1 = 0) by congruence. subst l1.
        destruct (ring_ok_iter (s := with_act L s) (l := 0) (ids := Rg 0) Hok) as (t0 & _ & Hll2 & _ & Hp').
        rewrite Hll in Hll2. apply Ok_inj in Hll2. subst ids. exact Hp'. }
      split.
      * eapply Permutation_trans; [apply Permutation_sym; exact Hids|]. destruct W as [(_ & W2 & _) W4]. rewrite Ha in W2, W4.
        destruct (W2 0 (or_introl eq_refl)) as [Hok _].
        destruct (ring_pair Hok (W4 0 (or_introl eq_refl)) (proj1 (HV va) Va) Hn) as (rest & Hrest & Hr2 & Hp2 & P1 & P2 & _).
        pose proof (ring_NoDup Hr2) as Hnd. apply NoDup_cons_iff in Hnd as [Na Hnd1]. apply NoDup_cons_iff in Hnd1 as [Nb Hnd2].
        pose proof Hpk as Hpk'. rewrite P1, P2 in Hpk'. destruct (hd_last Hnd2 Hrest Hpk') as (x & ->).
        unfold nx. rewrite P2. exact Hp2.
      * rewrite Harcs. f_equal. f_equal. apply map_ext_in. intros i Hi.
        assert (Vi : V s i) by (apply HV; eapply Permutation_in; [apply Permutation_sym; exact Hids|auto]).
        destruct (Hr i (V_rng Vi)) as (_ & B1 & _). unfold Bs. congruence.
  - right.
    destruct Hstep as [(L0 & _)|(l0 & nv & rest & Hl & Hact' & U & Hrest & HR' & _)]; [lia|].
    rewrite Ha in Hact'. pose proof (unified_merged W Ha Va Hn Hgr W' Hl ltac:(congruence) U HR') as Hm.
    split; auto. split; auto. split; [exact (proj1 (geo_step Hc W Ha Hg Va Hn Hhit Hmin W' Hact' Hm))|]. split; auto. split; auto.
    rewrite Harcs. f_equal. f_equal. rewrite !Hpt by (apply V_rng; auto). auto.
Qed.
End Step.
