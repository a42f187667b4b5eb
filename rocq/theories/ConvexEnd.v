(** * ConvexEnd: the event loop on a convex contour whose events are handled in order (C48) *)

From Coq Require Import Permutation Reals Lra.
From Verif Require Import Py PyFacts Arith ArithR Euclid Heapq Lav Cluster LavSpec LavWalk LavWf LavRing LavInit LavNext LavGrow LavStep LavSplit
  LoopSpec LavLoop LoopStart QueueProofs HeapProofs WaveSpec LavWave ClusterSpec GeoSpec GeoR GeoLines BisSpec BisProofs BisStart UnitProofs PatSpec TriSkel
  ConvexSpec ConvexGeo ConvexLoop ConvexWave ConvexMerge ConvexOrder.
Set Implicit Arguments.
Unset Strict Implicit.
Local Open Scope nat_scope.

(** the node and the events of an edge event *)
Lemma edge_shape (A : arith) (s : @slav A) d ip va vb s' arcs new : handle_edge_event s d ip va vb = Ok (s', arcs, new) ->
  (exists snks, arcs = [Subtree ip d snks]) /\
  (length (s_vs s') = length (s_vs s) /\ new = [] \/
   exists ev, next_event s' (length (s_vs s)) = Ok ev /\ new = opt_list ev).
Proof.
  unfold handle_edge_event. destruct (Nat.eqb _ _).
  - destruct (remove_lav s _) as [s1|x] eqn:Er; [|discriminate]. cbn [bind]. destruct (of_option _ _) as [l|x]; [|discriminate]. cbn [bind].
    destruct (lav_list s1 l) as [ids|x]; [|discriminate]. cbn [bind]. intros H. apply Ok_inj, triple_inj in H. destruct H as (<- & <- & <-).
    split; eauto. left. split; auto. destruct (invalidate_all_spec [] s1 ids) as (-> & _).
    unfold remove_lav in Er. destruct (v_lav _) as [l'|]; [|discriminate]. destruct (py_remove _ _ _) as [a|x]; [|discriminate].
    cbn [bind] in Er. apply Ok_inj in Er. subst s1. auto.
  - destruct (of_option _ _) as [l|x]; [|discriminate]. cbn [bind]. destruct (unify s l va vb ip) as [s1 nv] eqn:Eu.
    assert (Hnv : nv = length (s_vs s)) by (unfold unify in Eu; injection Eu; auto).
    set (s2 := if _ || _ then _ else s1). destruct (next_event s2 nv) as [ev|x] eqn:En; [|discriminate]. cbn [bind].
    intros H. apply Ok_inj, triple_inj in H. destruct H as (<- & <- & <-). split; eauto. right. exists ev. split; auto. congruence.
Qed.

Section End.
Variable c : list (@edge2 RA).
Hypothesis Hc : convex_contour c.
Implicit Type s : @slav RA.
Implicit Type st : @loop_state RA.
Notation event := (@event RA).
Let n := length c.
Let E := concat [c].

Definition evs_ok s (l : list event) := forall d p u w, In (EdgeEv d p u w) l -> V s u -> V s w -> Hit s u p d.

Definition ginv st (pend : list event) : Prop :=
  cinv c st pend /\ rays (lo_slav st) /\
  (forall a, In a (lo_out st) -> forall e, In e c -> (height a <= edge_dist e (source a))%R) /\
  (s_act (lo_slav st) = [] \/
   s_act (lo_slav st) = [0] /\ exists T, (0 <= T)%R /\ geo c (lo_slav st) T /\ evs_ok (lo_slav st) (pend ++ lo_queue st) /\
     forall u, V (lo_slav st) u -> waiting (lo_slav st) (pend ++ lo_queue st) u).

(** ** two vertices are unified *)
Record merged s s' (va vb : nat) (X : pt) : Prop := {
  m_nv : ~ V s (length (s_vs s));
  m_V : forall i, V s' i <-> i = length (s_vs s) \/ V s i /\ i <> va /\ i <> vb;
  m_nx1 : nx s' (length (s_vs s)) = nx s vb;
  m_nx2 : forall i, V s i -> i <> va -> i <> vb -> nx s' i = if Nat.eqb (nx s i) va then length (s_vs s) else nx s i;
  m_body : forall i, V s i -> i <> va -> i <> vb -> eps s' i = eps s i /\ ens s' i = ens s i /\ Bs s' i = Bs s i;
  m_ep : eps s' (length (s_vs s)) = eps s va;
  m_en : ens s' (length (s_vs s)) = ens s vb;
  m_B : Bs s' (length (s_vs s)) = X;
  m_ray : l_is_ray (v_bis (getv (s_vs s') (length (s_vs s)))) = true;
  m_pt : v_point (getv (s_vs s') (length (s_vs s))) = X }.

Lemma mk_vertex_ray id p e1 e2 dirs fc : l_is_ray (v_bis (mk_vertex (A := RA) id p e1 e2 dirs fc)) = true /\
  lp (v_bis (mk_vertex (A := RA) id p e1 e2 dirs fc)) = p.
Proof. destruct (@mk_vertex_R id p e1 e2 dirs fc) as (sg & _ & Hb & _). cbv zeta in Hb. rewrite Hb. auto. Qed.

Lemma unified_merged s R s' R' l va vb ip nv rest : wf E s R -> s_act s = [0] -> V s va -> nx s va = vb ->
  grows (s_vs s) (s_vs s') -> wf E s' R' -> In l (s_act s) -> s_act s' = s_act s -> unified s s' R l va vb ip nv rest ->
  R' = (fun k => if Nat.eqb k l then nv :: rest else R k) -> merged s s' va vb ip.
Proof.
  intros W Hact Hva Hn Hg W' Hl Hact' U HR'.
  assert (l = 0) by (rewrite Hact in Hl; destruct Hl as [|[]]; auto). subst l.
  destruct U as (-> & Lv & Hp & Ia & Ib & Hnx & Epa & Enb & Hm). cbv zeta in Hm. destruct Hm as (_ & Hbis & Hpt).
  set (nv := length (s_vs s)) in *. rewrite Hact in Hact'.
  destruct (ring_facts W Hact) as (HV & _ & chain & big & inj & prevs).
  destruct (ring_facts W' Hact') as (HV' & _ & chain' & big' & inj' & prevs').
  assert (HR0 : R' 0 = nv :: rest) by (rewrite HR'; auto).
  assert (Nnv : ~ V s nv) by (intros K; apply V_rng in K; unfold nv in K; lia).
  assert (Hnd : NoDup (va :: vb :: rest)).
  { eapply Permutation_NoDup; [exact Hp|]. destruct W as [(_ & W2 & _) _]. rewrite Hact in W2.
    destruct (W2 0 (or_introl eq_refl)) as [(K & _) _]. apply (ring_NoDup K). }
  apply NoDup_cons_iff in Hnd as [Na Hnd]. apply NoDup_cons_iff in Hnd as [Nb _].
  assert (HVs : forall i, V s' i <-> i = nv \/ V s i /\ i <> va /\ i <> vb).
  { intros i. rewrite HV', HR0, HV. split.
    - intros [<-|Hi]; auto. right. split; [eapply Permutation_in; [apply Permutation_sym; exact Hp|right; right; auto]|].
      split; intros ->; auto. apply Na. right; auto.
    - intros [->|(Hi & Ha & Hb)]; [left; auto|]. apply (Permutation_in _ Hp) in Hi as [<-|[<-|Hi]]; [congruence|congruence|right; auto]. }
  assert (Hnx2 : forall i, V s i -> i <> va -> i <> vb -> nx s' i = if Nat.eqb (nx s i) va then nv else nx s i).
  { intros i Hi Ha Hb. unfold nx. rewrite Hnx by (apply V_rng; auto). fold (nx s i). destruct (prevs va Hva) as [P1 P2].
    destruct (Nat.eqb_spec i (prv_of (s_vs s) va)) as [->|Hne].
    - rewrite P2, Nat.eqb_refl. auto.
    - destruct (Nat.eqb_spec (nx s i) va) as [K|K]; auto. exfalso. apply Hne, inj; auto. congruence. }
  split; auto.
  - (* the new vertex has the successor of vb *)
    fold nv.
    assert (Vn : V s' nv) by (apply HVs; auto). destruct (chain' nv Vn) as [Vx _].
    destruct (big' nv Vn) as (Bx & _). apply HVs in Vx as [Hx|(Vx & Xa & Xb)]; [congruence|].
    destruct (prevs _ Vx) as [Vy Hy]. set (y := prv_of (s_vs s) (nx s' nv)) in *. clearbody y.
    destruct (Nat.eq_dec y va) as [Ya|Ya]; [exfalso; apply Xb; congruence|].
    destruct (Nat.eq_dec y vb) as [Yb|Yb]; [congruence|]. exfalso.
    assert (Vy' : V s' y) by (apply HVs; auto). 
    assert (Hy' : nx s' y = nx s y). { rewrite Hnx2 by auto. destruct (Nat.eqb_spec (nx s y) va) as [K|K]; auto. exfalso. congruence. }
    assert (y = nv) by (apply inj'; auto; congruence). apply Nnv. congruence.
  - intros i Hi _ _. destruct (getv_body Hg (V_rng Hi)) as (_ & B1 & B2 & _ & B4). unfold eps, ens, Bs. rewrite B1, B2, B4. auto.
  - unfold Bs. fold nv. rewrite Hbis. apply mk_vertex_ray.
  - fold nv. rewrite Hbis. apply mk_vertex_ray.
Qed.

Section Step.
Variables (s s' : @slav RA) (Rg Rg' : nat -> list nat) (T : R) (va vb : nat) (X : pt) (d : R).
Hypothesis W : wf E s Rg.
Hypothesis Hact : s_act s = [0].
Hypothesis Hrays : rays s.
Hypothesis Hgeo : geo c s T.
Hypothesis Hva : V s va.
Hypothesis Hvb : nx s va = vb.
Hypothesis Hhit : Hit s va X d.
Hypothesis Hmin : forall v q d', V s v -> Hit s v q d' -> (d <= d')%R.

Let chain := proj1 (proj2 (proj2 (ring_facts W Hact))).
Let big := proj1 (proj2 (proj2 (proj2 (ring_facts W Hact)))).
Let inj := proj1 (proj2 (proj2 (proj2 (proj2 (ring_facts W Hact))))).

Lemma time_now : exists own, cover c (V s) (nx s) (eps s) (ens s) own /\
  ((exists P, sync c (V s) (nx s) (eps s) (ens s) (Bs s) own P d /\ P va = X /\ P vb = X) \/ point c (V s) (eps s) (ens s) (Bs s) X d).
Proof.
  pose proof (Hit_ge Hc W Hact Hgeo Hva Hhit) as HTd.
  destruct Hgeo as (own & Hcov & [(P & Hs)|(Y & Hp)]); exists own; split; auto.
  - left. destruct (advance Hc chain big Hcov Hs HTd Hmin) as (P' & Hs'). exists P'. split; auto.
    destruct (hit_now Hc chain big Hcov Hs' Hva Hhit) as [P1 P2]. rewrite Hvb in P2. auto.
  - right. destruct (Hit_unique Hc W Hact Hgeo Hva Hhit (point_hit chain Hp Hva)) as [-> ->]. auto.
Qed.

Lemma node_inside k e : edge_at c k = Some e -> (d <= ndist e X)%R.
Proof.
  intros He. destruct time_now as (own & Hcov & [(P & Hs & P1 & _)|(_ & Hp)]); [|eauto].
  rewrite <- P1. apply (hull Hc Hcov Hs Hva He).
Qed.

Hypothesis W' : wf E s' Rg'.
Hypothesis Hact' : s_act s' = [0].
Hypothesis Hm : merged s s' va vb X.

Let chain' := proj1 (proj2 (proj2 (ring_facts W' Hact'))).
Let big' := proj1 (proj2 (proj2 (proj2 (ring_facts W' Hact')))).

Lemma geo_step : geo c s' d /\
  (forall v q d1 q' d2, V s v -> v <> va -> v <> vb -> nx s v = va -> Hit s v q d1 -> Hit s' v q' d2 -> (d2 <= d1)%R) /\
  (forall q d1 q' d2, Hit s vb q d1 -> Hit s' (length (s_vs s)) q' d2 -> (d2 <= d1)%R).
Proof.
  destruct Hm as [M1 M2 M3 M4 M5 M6 M7 M8 _ _].
  assert (Vvb : V s vb) by (rewrite <- Hvb; apply chain; auto).
  destruct time_now as (own & Hcov & Hnow).
  pose proof (merge_cover Hc chain big inj Hva Hvb M1 M2 M3 M4 M5 M6 M7 Hcov) as Hcov'.
  assert (Gp : forall Y, point c (V s') (eps s') (ens s') (Bs s') Y d -> geo c s' d /\
    (forall v q d1 q' d2, V s v -> v <> va -> v <> vb -> nx s v = va -> Hit s v q d1 -> Hit s' v q' d2 -> (d2 <= d1)%R) /\
    (forall q d1 q' d2, Hit s vb q d1 -> Hit s' (length (s_vs s)) q' d2 -> (d2 <= d1)%R)).
  { intros Y HY. assert (Hg' : geo c s' d) by (eexists; split; [exact Hcov'|right; eauto]). split; auto.
    assert (Heq : forall v q d2, V s' v -> Hit s' v q d2 -> d2 = d).
    { intros v q d2 Hv Hh. destruct (Hit_unique Hc W' Hact' Hg' Hv Hh (point_hit chain' HY Hv)). auto. }
    split.
    - intros v q d1 q' d2 Hv Ha Hb Hn H1 H2. rewrite (Heq v q' d2); auto; [apply (Hmin Hv H1)|apply M2; auto].
    - intros q d1 q' d2 H1 H2. rewrite (Heq (length (s_vs s)) q' d2); auto; [apply (Hmin Vvb H1)|apply M2; auto]. }
  destruct Hnow as [(P & Hs & P1 & P2)|Hp].
  - destruct (Rlt_dec 0 (ncross (enorm (eps s va)) (enorm (ens s vb)))) as [Hx|Hx].
    + split; [|split].
      * eexists. split; [exact Hcov'|]. left. eexists. 
        exact (merge_sync chain Hva Hvb M1 M2 M3 M4 M5 M6 M7 M8 Hcov Hs P1 P2 Hx).
      * intros v q d1 q' d2 Hv Ha Hb Hn H1 H2.
        exact (merge_prev Hc chain big inj chain' big' Hva Hvb M1 M2 M3 M4 M5 M6 M7 M8 Hcov Hs P1 P2 Hx Hv Ha Hb Hn H1 H2).
      * intros q d1 q' d2 H1 H2.
        exact (merge_next Hc chain big inj chain' big' Hva Hvb M1 M2 M3 M4 M5 M6 M7 M8 Hcov Hs P1 P2 Hx H1 H2).
    + destruct (merge_collapse Hc chain big inj Hva Hvb M2 M3 M5 M6 M7 M8 Hcov Hs P1 P2) as (Y & HY); [lra|]. eauto.
  - apply (Gp X). exact (merge_point chain Hva Hvb M2 M5 M6 M7 M8 Hp).
Qed.

End Step.

Lemma in_put (t q new : list event) x : In x (t ++ put_all q new) <-> In x (t ++ q) \/ In x new.
Proof.
  rewrite !in_app_iff. pose proof (put_all_perm q new) as Hp. split.
  - intros [H|H]; auto. apply (Permutation_in _ Hp) in H. apply in_app_iff in H. tauto.
  - intros [[H|H]|H]; auto; right; (eapply Permutation_in; [apply Permutation_sym; exact Hp|]); apply in_app_iff; auto.
Qed.

Lemma waiting_mono s (l l' : list event) u : (forall v, V s v -> V s (nx s v)) -> (forall v, V s v -> hasev s l v -> hasev s l' v) -> V s u ->
  waiting s l u -> waiting s l' u.
Proof.
  intros Hn Hm Hu [H|[(H1 & H2 & H3)|(t & H1 & H2 & H3 & H4 & H5)]].
  - left. auto.
  - right. left. split; auto. split; auto. destruct H3; auto.
  - right. right. exists t. split; auto. split; auto. split; auto. split; auto. destruct H5; auto.
Qed.

Lemma hit_kept s s' va vb X u : merged s s' va vb X -> V s u -> u <> va -> u <> vb -> V s (nx s u) -> nx s u <> va -> nx s u <> vb ->
  nx s' u = nx s u /\ forall p d, Hit s u p d <-> Hit s' u p d.
Proof.
  intros M Hu Ua Ub Hn Na Nb. pose proof (m_nx2 M Hu Ua Ub) as Hx.
  destruct (Nat.eqb_spec (nx s u) va) as [K|_]; [contradiction|]. split; auto.
  destruct (m_body M Hu Ua Ub) as (E1 & E2 & E3). destruct (m_body M Hn Na Nb) as (F1 & F2 & F3).
  intros p d. unfold Hit, hit, onray. rewrite Hx, E1, E2, E3, F1, F2, F3. tauto.
Qed.

Lemma ginv_event st e t s' arcs new : ginv st (e :: t) ->
  (live (lo_slav st) e -> forall e', In e' (t ++ lo_queue st) -> live (lo_slav st) e' -> (ev_distance e <= ev_distance e')%R) ->
  handle_event (lo_slav st) e = Ok (s', arcs, new) ->
  ginv (Loop s' (put_all (lo_queue st) new) (lo_out st ++ arcs)) t /\
  forall e', In e' new -> (ev_distance e <= ev_distance e')%R.
Proof.
  intros (G & Hr & Hout & Hst) Hord Hh. destruct (cinv_event Hc G Hh) as [G' _]. pose proof Hh as Hh0.
  destruct st as [s q out]. cbn [lo_slav lo_queue lo_out] in *.
  pose proof G as (G1 & G2 & Rg & sp & W & _). cbn [lo_slav lo_queue lo_out] in *. destruct (G2 e (or_introl eq_refl)) as (He & Hedge & Hcur).
  destruct Hedge as (d & ip & va & vb & ->). cbn [handle_event] in Hh.
  assert (Dead : ~ (V s va /\ V s vb) -> Ok (s, @nil (@subtree RA), @nil event) = Ok (s', arcs, new) ->
    ginv (Loop s' (put_all q new) (out ++ arcs)) t /\ forall e', In e' new -> (d <= ev_distance e')%R).
  { intros Hd X. apply Ok_inj, triple_inj in X. destruct X as (<- & <- & <-). split; [|intros e' []].
    split; [exact G'|]. split; [exact Hr|]. rewrite app_nil_r. split; [exact Hout|].
    destruct Hst as [Hst|(Ha & T & T0 & Hg & Hev & Hw)]; [left; auto|right]. split; auto. exists T. split; auto. split; auto.
    change (put_all q []) with q. cbn [lo_slav lo_queue].
    destruct (ring_facts W Ha) as (_ & _ & chain & _). split.
    - intros d0 p u w Hin. apply Hev. right. auto.
    - intros u Hu. specialize (Hw u Hu). eapply waiting_mono; [intros v Hv; apply chain; auto| |exact Hu|exact Hw].
      intros v Hv (d0 & p & [Hin|Hin]).
      + injection Hin as -> -> -> ->. exfalso. apply Hd. split; auto. apply chain; auto.
      + exists d0, p. auto. }
  destruct (is_valid s va) eqn:Va; [|apply Dead; [intros [K _]; unfold V in K; congruence|exact Hh]].
  destruct (is_valid s vb) eqn:Vb; [|apply Dead; [intros [_ K]; unfold V in K; congruence|exact Hh]]. clear Dead. cbn [negb orb] in Hh.
  (* a live event *)
  change (V s va) in Va. change (V s vb) in Vb.
  assert (Hn : nx s va = vb) by exact (Hcur Va Vb).
  destruct Hst as [Hst|(Ha & T & T0 & Hg & Hev & Hw)].
  { exfalso. destruct W as [(_ & _ & W3) _]. destruct (W3 va (V_rng Va) Va) as (l & Hl & _). rewrite Hst in Hl. destruct Hl. }
  assert (Hhit : Hit s va ip d) by (apply (Hev d ip va vb); auto; left; auto).
  pose proof (Hit_ge Hc W Ha Hg Va Hhit) as HTd.
  destruct (ring_facts W Ha) as (HV & _ & chain & big & inj & prevs).
  assert (Hmin : forall v q0 d', V s v -> Hit s v q0 d' -> (d <= d')%R).
  { destruct (first_event Hc W Ha Hg Hw) as (u & Vu & (du & pu & Hin) & Hs). intros v q0 d' Hv Hh'.
    destruct (chain u Vu) as [Vn _]. pose proof (Hev _ _ _ _ Hin Vu Vn) as Hu.
    apply Rle_trans with du; [|apply (Hs v Hv _ _ _ _ Hu Hh')]. destruct Hin as [Hin|Hin]; [injection Hin as -> _ _ _; lra|].
    apply (Hord (conj Va Vb) _ Hin). split; auto. }
  destruct (edge_event_ok d ip W Va Vb Hn) as (s1 & a & new1 & R' & l & H1 & W' & _ & Hphi & _ & Hstep).
  rewrite Hh in H1. apply Ok_inj, triple_inj in H1. destruct H1 as (<- & -> & <-).
  destruct (edge_shape Hh) as [(snks & Harcs) Hnext].
  assert (Hgr : grows (s_vs s) (s_vs s')) by (apply (handle_event_grow (proj1 G1) (proj1 He) Hh0)).
  assert (Hout' : forall a0, In a0 (out ++ [a]) -> forall e, In e c -> (height a0 <= edge_dist e (source a0))%R).
  { intros a0 Hin e Hin2. apply in_app_iff in Hin as [Hin|[<-|[]]]; auto. injection Harcs as ->. cbn [height source].
    apply In_nth_error in Hin2 as (k & Hk). assert (Lk : k < length c) by (apply nth_error_Some; congruence).
    assert (Hk' : edge_at c k = Some e) by (unfold edge_at; rewrite Nat.mod_small by auto; auto).
    rewrite edge_dist_n by (eapply edge_directed; eauto). exact (node_inside W Ha Hg Va Hn Hhit Hmin Hk'). }
  assert (Hold : forall i, i < length (s_vs s) -> l_is_ray (v_bis (getv (s_vs s') i)) = true /\
    lp (v_bis (getv (s_vs s') i)) = v_point (getv (s_vs s') i)).
  { intros i Hi. destruct (getv_body Hgr Hi) as (B0 & _ & _ & _ & B4). rewrite B0, B4. destruct (Hr i Hi) as (R1 & R2 & _). auto. }
  assert (Hcor : forall i, i < length (s_vs s') -> v_reflex (getv (s_vs s') i) = false /\
    lv (v_bis (getv (s_vs s') i)) = sub (enorm (ens s' i)) (enorm (eps s' i))).
  { destruct G' as (_ & _ & R2 & sp' & _ & Hcor & _). intros i Hi. destruct (Hcor i Hi) as (_ & C1 & C2 & _). auto. }
  destruct Hstep as [(L & -> & -> & Hact' & _)|(l0 & nv & rest & Hl & Hact' & U & Hrest & HR' & _)].
  - (* the end *)
    split; [|intros e' []]. split; [exact G'|]. split.
    { intros i Hi. cbn [lo_slav] in Hi |- *. destruct (Hcor i Hi) as [C1 C2]. rewrite L in Hi. destruct (Hold i Hi) as [O1 O2]. auto. }
    split; [exact Hout'|]. left. cbn [lo_slav].
    destruct (s_act s') as [|k ks] eqn:Ea; auto. exfalso.
    assert (Hall : forall x, In x (s_act s') -> x = 0).
    { intros x Hx. rewrite Ea in Hx. apply Hact' in Hx. rewrite Ha in Hx. destruct Hx as [<-|[]]; auto. }
    assert (Hnd : NoDup (s_act s')) by apply W'. rewrite Ea in Hnd, Hall.
    assert (k = 0) by (apply Hall; left; auto). subst k.
    assert (ks = []). { destruct ks as [|k2 ks]; auto. exfalso. apply NoDup_cons_iff in Hnd as [Hnd _]. apply Hnd. left. apply Hall. right; left; auto. }
    subst ks. unfold phi in Hphi. rewrite Ea, Ha in Hphi. lia.
  - pose proof (unified_merged W Ha Va Hn Hgr W' Hl Hact' U HR') as M.
    assert (Ha' : s_act s' = [0]) by congruence. pose proof U as (Unv & Ulen & _). subst nv. set (nv := length (s_vs s)) in *.
    assert (Hrays' : rays s').
    { intros i Hi. destruct (Hcor i Hi) as [C1 C2]. rewrite Ulen in Hi. destruct (Nat.eq_dec i nv) as [->|Hne].
      - pose proof (m_B M) as MB. unfold Bs in MB. fold nv in MB. pose proof (m_ray M) as MR. pose proof (m_pt M) as MP. fold nv in MR, MP.
        split; auto. split; [congruence|auto].
      - destruct (Hold i) as [O1 O2]; [fold nv; lia|]. auto. }
    destruct (geo_step W Ha Hg Va Hn Hhit Hmin W' Ha' M) as (Hg' & Hprev & Hnextd). fold nv in Hnextd.
    destruct (ring_facts W' Ha') as (HV' & _ & chain' & big' & inj' & prevs').
    assert (Vnv : V s' nv) by (apply (m_V M); auto).
    assert (d0 : (0 <= d)%R) by lra.
    destruct (next_choice Hc W' Ha' Hrays' d0 Hg' Vnv) as (e1 & He1 & Hch).
    assert (Hnew : new = [e1]).
    { destruct Hnext as [[K _]|(ev & Hev1 & ->)]; [fold nv in K; lia|]. fold nv in Hev1. rewrite He1 in Hev1. apply Ok_inj in Hev1. subst ev. auto. }
    subst new.
    assert (Hd1 : (d <= ev_distance e1)%R).
    { destruct Hch as [(p & d1 & u & Vu & Hnu & -> & Hh1 & _)|(p & d1 & -> & Hh1 & _)]; cbn [ev_distance].
      - exact (Hit_ge Hc W' Ha' Hg' Vu Hh1).
      - exact (Hit_ge Hc W' Ha' Hg' Vnv Hh1). }
    split; [|intros e' [<-|[]]; auto].
    split; [exact G'|]. split; [exact Hrays'|]. split; [exact Hout'|]. right. split; auto. exists d. split; auto. split; auto.
    cbn [lo_slav lo_queue].
    assert (Hval : forall i, V s' i -> i <> nv -> V s i /\ i <> va /\ i <> vb).
    { intros i Hi Hne. apply (m_V M) in Hi as [Hi|Hi]; auto. fold nv in Hi. congruence. }
    assert (Keep : forall u, V s' u -> u <> nv -> nx s' u <> nv -> nx s' u = nx s u /\ forall p d, Hit s u p d <-> Hit s' u p d).
    { intros u Hu Hne Hne'. destruct (Hval u Hu Hne) as (Vu & Ua & Ub). destruct (chain' u Hu) as [Vn' _].
      destruct (Hval _ Vn' Hne') as (Vn & Na & Nb). pose proof (m_nx2 M Vu Ua Ub) as Hx.
      destruct (Nat.eqb_spec (nx s u) va) as [K|K]; [fold nv in Hx; congruence|].
      rewrite Hx in Vn, Na, Nb. apply (hit_kept M); auto. }
    split.
    + (* the events are those of the edges *)
      intros d2 p u w Hin Hu Hw'. apply in_put in Hin as [Hin|[Hin|[]]].
      * destruct (G2 (EdgeEv (A := RA) d2 p u w)) as (Hi & _ & _); [right; auto|]. destruct Hi as [[Ru Rw] _].
        assert (Nu : u <> nv) by (unfold nv; lia). assert (Nw : w <> nv) by (unfold nv; lia).
        assert (Hnw : nx s' u = w).
        { destruct G' as (_ & G2' & _). destruct (G2' (EdgeEv (A := RA) d2 p u w)) as (_ & _ & Hc'); [apply in_put; auto|]. apply (Hc' Hu Hw'). }
        destruct (Keep u Hu Nu ltac:(congruence)) as [_ K]. apply K. apply (Hev d2 p u w); [right; auto|apply Hval; auto|apply Hval; auto].
      * subst e1. destruct Hch as [(p1 & d1 & u1 & Vu1 & Hnu1 & X & Hh1 & _)|(p1 & d1 & X & Hh1 & _)]; injection X as -> -> -> ->; auto.
    + (* every edge has its event or waits *)
      assert (Has : forall v, V s' v -> v <> nv -> nx s' v <> nv -> hasev s ((EdgeEv d ip va vb :: t) ++ q) v -> hasev s' (t ++ put_all q [e1]) v).
      { intros v Hv Hv1 Hv2 (d2 & p & Hin). destruct (Keep v Hv Hv1 Hv2) as [K _]. exists d2, p. rewrite K. apply in_put. left.
        destruct Hin as [Hin|Hin]; auto. injection Hin as _ _ -> _. exfalso. destruct (Hval _ Hv Hv1) as (_ & K1 & _). auto. }
      assert (Hlt : forall i, V s' i -> i <> nv -> i < nv).
      { intros i Hi Hne. apply (Hval i Hi) in Hne as (K & _). apply V_rng in K. auto. }
      intros u Hu. destruct (Nat.eq_dec u nv) as [->|Hune].
      * (* behind the new vertex *)
        destruct Hch as [(p & d1 & u1 & Vu1 & Hnu1 & -> & Hh1 & Hs1)|(p & d1 & -> & Hh1 & _)].
        -- right. right. exists u1. split; auto. split; auto. split; [|split; auto].
           ++ apply Hlt; [apply chain'; auto|apply (big' nv Vnv)].
           ++ left. exists d1, p. rewrite Hnu1. apply in_put. right. left. auto.
        -- left. exists d1, p. apply in_put. right. left. auto.
      * destruct (Nat.eq_dec (nx s' u) nv) as [Hnu|Hnu].
        -- (* before the new vertex *)
           destruct Hch as [(p & d1 & u1 & Vu1 & Hnu1 & -> & Hh1 & _)|(p & d1 & -> & Hh1 & Hs1)].
           ++ assert (u1 = u) by (apply inj'; auto; congruence). subst u1. left. exists d1, p. rewrite Hnu. apply in_put. right. left. auto.
           ++ right. left. rewrite Hnu. split; [apply Hlt; auto|]. split; [apply Hs1; auto|]. left. exists d1, p. apply in_put. right. left. auto.
        -- (* elsewhere *)
           destruct (Hval u Hu Hune) as (Vu & Ua & Ub). destruct (Keep u Hu Hune Hnu) as [Kn Kh].
           destruct (chain' u Hu) as [Vw' _]. destruct (Hval _ Vw' Hnu) as (Vw & Wa & Wb). rewrite Kn in Vw, Wa, Wb, Vw'.
           destruct (Hw u Vu) as [H|[(H1 & H2 & H3)|(v & Hv & Hnv & H1 & H2 & H3)]].
           ++ left. apply Has; auto.
           ++ right. left. rewrite Kn. split; auto. pose proof (m_nx2 M Vw Wa Wb) as Hx. fold nv in Hx.
              assert (Hwn : nx s u <> nv) by congruence.
              destruct (Nat.eqb_spec (nx s (nx s u)) va) as [K|K].
              ** split.
                 --- intros p1 d1 p2 d2 K1 K2. apply Kh in K2. destruct (Hit_exists Hc W Ha Hg Vw) as (p3 & d3 & K3 & _).
                     apply Rle_trans with d3; [apply (Hprev _ _ _ _ _ Vw Wa Wb K K3 K1)|apply (H2 _ _ _ _ K3 K2)].
                 --- right. rewrite Hx. apply Hlt; auto.
              ** assert (Hwn2 : nx s' (nx s u) <> nv).
                 { rewrite Hx. intros K0. apply (m_nv M). fold nv. rewrite <- K0. apply chain; auto. }
                 destruct (Keep _ Vw' Hwn Hwn2) as [_ Kh2]. split.
                 --- intros p1 d1 p2 d2 K1 K2. apply (H2 p1 d1 p2 d2); [apply Kh2; auto|apply Kh; auto].
                 --- rewrite Hx. destruct H3 as [H3|H3]; auto.
           ++ right. right. rewrite Kn.
              destruct (Nat.eq_dec v va) as [->|Nva]; [exfalso; congruence|].
              destruct (Nat.eq_dec v vb) as [->|Nvb].
              ** exists nv. split; auto. split; [pose proof (m_nx1 M) as K1; fold nv in K1; congruence|]. split; auto. split.
                 --- intros p1 d1 p2 d2 K1 K2. apply Kh in K2. destruct (Hit_exists Hc W Ha Hg Hv) as (p3 & d3 & K3 & _).
                     apply Rle_trans with d3; [apply (Hnextd _ _ _ _ K3 K1)|apply (H2 _ _ _ _ K3 K2)].
                 --- right. apply Hlt; auto.
              ** assert (Vv' : V s' v) by (apply (m_V M); auto). pose proof (m_nx2 M Hv Nva Nvb) as Hx. fold nv in Hx. rewrite Hnv in Hx.
                 destruct (Nat.eqb_spec u va) as [|_]; [contradiction|].
                 assert (Nvn : v <> nv) by (intros ->; apply (m_nv M); auto).
                 destruct (Keep v Vv' Nvn ltac:(congruence)) as [_ Kh2].
                 exists v. split; auto. split; auto. split; auto. split.
                 --- intros p1 d1 p2 d2 K1 K2. apply (H2 p1 d1 p2 d2); [apply Kh2; auto|apply Kh; auto].
                 --- destruct H3 as [H3|H3]; auto. left. apply Has; auto. congruence.
Qed.

End End.
