(** * ConvexOrder: the wavefront of a convex contour shrinks to a point if the events are handled in the
    order of their distances (C48) *)

From Coq Require Import Permutation Reals Lra.
From Verif Require Import Py PyFacts Arith ArithR Euclid Heapq Lav Cluster LavSpec LavWalk LavWf LavRing LavInit LavNext LavGrow LavStep LavSplit
  LoopSpec LavLoop LoopStart QueueProofs HeapProofs WaveSpec LavWave ClusterSpec GeoSpec GeoR GeoLines BisSpec BisProofs BisStart UnitProofs PatSpec TriSkel
  ConvexSpec ConvexGeo ConvexLoop ConvexWave ConvexMerge.
Set Implicit Arguments.
Unset Strict Implicit.
Local Open Scope nat_scope.

Section Order.
Variable c : list (@edge2 RA).
Hypothesis Hc : convex_contour c.
Implicit Type s : @slav RA.
Implicit Type st : @loop_state RA.
Notation event := (@event RA).
Let n := length c.
Let E := concat [c].

Definition V s i := is_valid s i = true.
Definition nx s := nxt_of (s_vs s).
Definition eps s i := v_eprev (getv (s_vs s) i).
Definition ens s i := v_enext (getv (s_vs s) i).
Definition Bs s i := lp (v_bis (getv (s_vs s) i)).
Definition Hit s := hit (nx s) (eps s) (ens s) (Bs s).
Definition Ray s := onray (eps s) (ens s) (Bs s).

Lemma V_rng s i : V s i -> i < length (s_vs s).
Proof. apply is_valid_rng. Qed.

Lemma ring_facts s R : wf E s R -> s_act s = [0] ->
  (forall i, V s i <-> In i (R 0)) /\ R 0 <> [] /\
  (forall v, V s v -> V s (nx s v) /\ eps s (nx s v) = ens s v) /\
  (forall v, V s v -> nx s v <> v /\ nx s (nx s v) <> v /\ nx s (nx s v) <> nx s v) /\
  (forall u v, V s u -> V s v -> nx s u = nx s v -> u = v) /\
  (forall v, V s v -> V s (prv_of (s_vs s) v) /\ nx s (prv_of (s_vs s) v) = v).
Proof.
  intros [(W1 & W2 & W3) W4] Ha. rewrite Ha in *. destruct (W2 0 (or_introl eq_refl)) as [Hok _]. pose proof (W4 0 (or_introl eq_refl)) as L3.
  pose proof Hok as (K & _ & _ & K4).
  assert (HV : forall i, V s i <-> In i (R 0)).
  { intros i. split; [intros Hi|intros Hi; apply (K4 i Hi)]. pose proof (V_rng Hi) as Li. destruct (W3 i Li Hi) as (l & [<-|[]] & Hin). auto. }
  split; auto. split; [intros E0; rewrite E0 in L3; simpl in L3; lia|].
  split; [|split; [|split]].
  - intros v Hv. apply HV in Hv. split; [apply HV; apply (ring_next_in K Hv)|]. destruct (K4 v Hv) as (_ & _ & _ & Hsh & _). symmetry. exact Hsh.
  - intros v Hv. apply HV in Hv. destruct (ring_pair Hok L3 Hv eq_refl) as (rest & Hne & Hr2 & Hp & _ & P2 & _).
    pose proof (ring_NoDup Hr2) as Hnd. apply NoDup_cons_iff in Hnd as [Na Hnd1]. apply NoDup_cons_iff in Hnd1 as [Nb _].
    assert (Hin : In (nx s (nx s v)) rest) by (unfold nx; rewrite P2; apply hd_in; auto).
    split; [intros K0; apply Na; left; auto|]. split; intros K0; rewrite K0 in Hin; auto. apply Na; right; auto.
  - intros u v Hu Hv Huv. apply HV in Hu, Hv. rewrite <- (ring_next_prev K Hu), <- (ring_next_prev K Hv). fold (nx s). congruence.
  - intros v Hv. apply HV in Hv. split; [apply HV, (ring_prev_in K Hv)|apply (ring_prev_next K Hv)].
Qed.

(** ** bisectors *)
Definition rays s : Prop := forall i, i < length (s_vs s) ->
  l_is_ray (v_bis (getv (s_vs s) i)) = true /\ lp (v_bis (getv (s_vs s) i)) = v_point (getv (s_vs s) i) /\
  v_reflex (getv (s_vs s) i) = false /\
  lv (v_bis (getv (s_vs s) i)) = sub (enorm (ens s i)) (enorm (eps s i)).

Lemma on_ray s i q : rays s -> i < length (s_vs s) -> (on_lin (v_bis (getv (s_vs s) i)) q <-> Ray s i q).
Proof.
  intros Hr Hi. destruct (Hr i Hi) as (R1 & _ & _ & R4). unfold on_lin, Ray, onray, Bs. rewrite R1, R4. split.
  - intros (t & T1 & T2 & T3). exists t. split; auto. apply vec_ext; auto.
  - intros (t & T1 & ->). exists t. auto.
Qed.

(** ** the wavefront at time T *)
Definition geo s T : Prop := exists own, cover c (V s) (nx s) (eps s) (ens s) own /\
  ((exists P, sync c (V s) (nx s) (eps s) (ens s) (Bs s) own P T) \/ exists Y, point c (V s) (eps s) (ens s) (Bs s) Y T).

Section State.
Variables (s : @slav RA) (Rg : nat -> list nat) (T : R).
Hypothesis W : wf E s Rg.
Hypothesis Hact : s_act s = [0].
Hypothesis Hrays : rays s.
Hypothesis HT : (0 <= T)%R.
Hypothesis Hgeo : geo s T.

Let chain := proj1 (proj2 (proj2 (ring_facts W Hact))).
Let big := proj1 (proj2 (proj2 (proj2 (ring_facts W Hact)))).
Let inj := proj1 (proj2 (proj2 (proj2 (proj2 (ring_facts W Hact))))).
Let prevs := proj2 (proj2 (proj2 (proj2 (proj2 (ring_facts W Hact))))).

Lemma Hit_exists v : V s v -> exists q d, Hit s v q d /\ (T <= d)%R.
Proof.
  intros Hv. destruct Hgeo as (own & Hcov & [(P & Hs)|(Y & Hp)]).
  - exact (hit_exists Hc chain big Hcov Hs Hv).
  - exists Y, T. split; [|lra]. exact (point_hit chain Hp Hv).
Qed.

Lemma Hit_unique v q q' d d' : V s v -> Hit s v q d -> Hit s v q' d' -> q = q' /\ d = d'.
Proof. intros Hv. destruct Hgeo as (own & Hcov & _). apply (hit_unique Hc chain big Hcov Hv). Qed.

Lemma Hit_ge v q d : V s v -> Hit s v q d -> (T <= d)%R.
Proof. intros Hv H. destruct (Hit_exists Hv) as (q' & d' & H' & Hd). destruct (Hit_unique Hv H H') as [_ ->]. auto. Qed.

Lemma V_edges v : V s v -> directed (eps s v) /\ directed (ens s v).
Proof.
  intros Hv. destruct Hgeo as (own & (_ & _ & C3) & _). destruct (C3 v Hv) as (x & m & (_ & S2 & S3 & _) & _).
  split; eapply edge_directed; eauto.
Qed.

(** the distances along a bisector *)
Lemma ray_eq v q : V s v -> Ray s v q -> ndist (eps s v) q = ndist (ens s v) q.
Proof.
  intros Hv (t & _ & ->). rewrite !ndist_move, ncross_sub_l, ncross_sub_r. f_equal.
  destruct Hgeo as (own & Hcov & [(P & Hs & _)|(Y & Hs & _)]).
  - destruct (Hs v Hv) as (_ & D1 & D2 & (t' & _ & D3) & _). rewrite D3 in D1, D2.
    rewrite ndist_move, ncross_sub_l in D1. rewrite ndist_move, ncross_sub_r in D2. lra.
  - destruct (Hs v Hv) as ((t' & _ & D3) & D1 & D2). rewrite D3 in D1, D2.
    rewrite ndist_move, ncross_sub_l in D1. rewrite ndist_move, ncross_sub_r in D2. lra.
Qed.

Lemma intersect_hit v q d : V s v -> Hit s v q d ->
  line_intersect (v_bis (getv (s_vs s) v)) (v_bis (getv (s_vs s) (nx s v))) = Some q /\
  line_intersect (v_bis (getv (s_vs s) (nx s v))) (v_bis (getv (s_vs s) v)) = Some q /\
  line_distance (Line2_edge (ens s v)) q = d.
Proof.
  intros Hv Hh. pose proof Hh as (H1 & H2 & H3). destruct (chain Hv) as [Hn He].
  destruct (Hrays (V_rng Hv)) as (_ & _ & _ & L1). destruct (Hrays (V_rng Hn)) as (_ & _ & _ & L2). rewrite He in L2.
  destruct (@meet (v_bis (getv (s_vs s) v)) (v_bis (getv (s_vs s) (nx s v))) q _ _ L1 L2) as [M1 M2].
  - rewrite cross_dirs. destruct Hgeo as (own & Hcov & _). pose proof (tri_big Hc chain big Hcov Hv) as Ht. lra.
  - apply on_ray; auto. apply V_rng; auto.
  - apply on_ray; auto. apply V_rng; auto.
  - split; auto. split; auto. destruct (V_edges Hv) as [_ D]. rewrite line_distance_abs, edge_dist_n by auto. rewrite H3.
    apply Rabs_pos_eq. pose proof (Hit_ge Hv Hh). lra.
Qed.

Lemma hit_intersect v q : V s v ->
  (line_intersect (v_bis (getv (s_vs s) v)) (v_bis (getv (s_vs s) (nx s v))) = Some q \/
   line_intersect (v_bis (getv (s_vs s) (nx s v))) (v_bis (getv (s_vs s) v)) = Some q) ->
  Hit s v q (line_distance (Line2_edge (ens s v)) q).
Proof.
  intros Hv Hq. destruct (Hit_exists Hv) as (q' & d & Hh & _). destruct (intersect_hit Hv Hh) as (I1 & I2 & I3).
  assert (q = q') by (destruct Hq; congruence). subst q'. rewrite I3. auto.
Qed.

Definition sooner w u := forall q d q' d', Hit s w q d -> Hit s u q' d' -> (d <= d')%R.

(** the event of a vertex: the edge before it or the edge behind it, whichever vanishes first *)
Lemma next_choice v : V s v -> exists e, next_event s v = Ok (Some e) /\
  ((exists p d u, V s u /\ nx s u = v /\ e = EdgeEv d p u v /\ Hit s u p d /\ sooner u v) \/
   (exists p d, e = EdgeEv d p v (nx s v) /\ Hit s v p d /\ forall u, V s u -> nx s u = v -> sooner v u)).
Proof.
  intros Hv. destruct (prevs Hv) as [Hu Hnu]. set (u := prv_of (s_vs s) v) in *.
  destruct (Hit_exists Hv) as (q2 & d2 & H2 & _). destruct (Hit_exists Hu) as (q1 & d1 & H1 & _).
  destruct (intersect_hit Hv H2) as (I2 & _ & D2). destruct (intersect_hit Hu H1) as (_ & I1 & D1). rewrite Hnu in I1.
  destruct (chain Hu) as [_ He]. rewrite Hnu in He.
  destruct (Hrays (V_rng Hv)) as (_ & Hpt & Hrf & _).
  assert (Hcand : candidates s v = Ok [EdgeEv (A := RA) d1 q1 u v; EdgeEv (A := RA) d2 q2 v (nx s v)]).
  { unfold candidates. rewrite Hrf. cbn [bind app]. unfold edge_candidates. fold (prv_of (s_vs s) v). fold u. fold (nxt_of (s_vs s) v). fold (nx s).
    rewrite I1, I2. fold (eps s v) (ens s v). rewrite He, D1, D2. auto. }
  unfold next_event. rewrite Hcand. cbn [bind nearest first_best]. eexists. split; [reflexivity|]. cbn [ev_ip].
  assert (Hk : forall x, vlen (vsub (v_point (getv (s_vs s) v)) x) = euclid_dist (Bs s v) x).
  { intros x. unfold Bs. rewrite Hpt. rewrite vlen_R. reflexivity. }
  rewrite !Hk. cbn [RA nltb]. 
  destruct (Rltb_spec (euclid_dist (Bs s v) q2) (euclid_dist (Bs s v) q1)) as [Hlt|Hge].
  - right. exists q2, d2. split; auto. split; auto. intros u' Hu' Hnu' x dx y dy Hx Hy.
    assert (u' = u) by (apply inj; auto; congruence). subst u'.
    destruct (Hit_unique Hv Hx H2) as [_ ->]. destruct (Hit_unique Hu Hy H1) as [_ ->].
    destruct Hgeo as (own & Hcov & [(P & Hs & _)|(Y & Hp)]).
    + destruct (Hs v Hv) as (Hx' & _). destruct H2 as (R2 & _ & <-). destruct H1 as (_ & R1 & <-). rewrite Hnu in R1.
      rewrite <- He. rewrite (ray_eq Hv R1). apply (nearer Hx' R2 R1). lra.
    + destruct (Hit_unique Hv H2 (point_hit chain Hp Hv)) as [_ ->]. destruct (Hit_unique Hu H1 (point_hit chain Hp Hu)) as [_ ->]. lra.
  - left. exists q1, d1, u. split; auto. split; auto. split; auto. split; auto. intros x dx y dy Hx Hy.
    destruct (Hit_unique Hv Hy H2) as [_ ->]. destruct (Hit_unique Hu Hx H1) as [_ ->].
    destruct Hgeo as (own & Hcov & [(P & Hs & _)|(Y & Hp)]).
    + destruct (Hs v Hv) as (Hx' & _). destruct H2 as (R2 & _ & <-). destruct H1 as (_ & R1 & <-). rewrite Hnu in R1.
      rewrite <- He. rewrite (ray_eq Hv R1). apply (nearer Hx' R1 R2). lra.
    + destruct (Hit_unique Hv H2 (point_hit chain Hp Hv)) as [_ ->]. destruct (Hit_unique Hu H1 (point_hit chain Hp Hu)) as [_ ->]. lra.
Qed.

(** ** the queue holds the event of an edge that vanishes first *)
Definition hasev (l : list event) u := exists d p, In (EdgeEv d p u (nx s u)) l.
Definition waiting (l : list event) u : Prop :=
  hasev l u \/
  (u < nx s u /\ sooner (nx s u) u /\ (hasev l (nx s u) \/ nx s u < nx s (nx s u))) \/
  (exists t, V s t /\ nx s t = u /\ nx s u < u /\ sooner t u /\ (hasev l t \/ u < t)).

Lemma first_edge : exists u, V s u /\ forall w, V s w -> sooner u w.
Proof.
  pose proof (proj1 (ring_facts W Hact)) as HV. pose proof (proj1 (proj2 (ring_facts W Hact))) as Hne.
  assert (G : forall ids, ids <> [] -> (forall i, In i ids -> V s i) -> exists u, In u ids /\ forall w, In w ids -> sooner u w).
  { induction ids as [|i ids IH]; intros Hn0 Hids; [congruence|].
    assert (Hself : sooner i i). { intros q d q' d' H1 H2. destruct (Hit_unique (Hids i (or_introl eq_refl)) H1 H2) as [_ ->]. lra. }
    destruct ids as [|j ids]; [exists i; split; [left; auto|]; intros w [<-|[]]; auto|].
    destruct IH as (u & U1 & U2); [discriminate|intros k Hk; apply Hids; right; auto|].
    pose proof (Hids i (or_introl eq_refl)) as Vi. pose proof (Hids u (or_intror U1)) as Vu.
    destruct (Hit_exists Vi) as (qi & di & Hi & _). destruct (Hit_exists Vu) as (qu & du & Hu & _).
    destruct (Rle_dec du di) as [Hle|Hgt].
    - exists u. split; [right; auto|]. intros w [<-|Hw]; auto. intros q d q' d' H1 H2.
      destruct (Hit_unique Vu H1 Hu) as [_ ->]. destruct (Hit_unique Vi H2 Hi) as [_ ->]. auto.
    - exists i. split; [left; auto|]. intros w [<-|Hw]; auto. intros q d q' d' H1 H2.
      destruct (Hit_unique Vi H1 Hi) as [_ ->]. pose proof (U2 w Hw _ _ _ _ Hu H2). lra. }
  destruct (G (Rg 0) Hne) as (u & U1 & U2); [intros i Hi; apply HV; auto|].
  exists u. split; [apply HV; auto|]. intros w Hw. apply U2, HV. auto.
Qed.

Lemma first_event l : (forall u, V s u -> waiting l u) -> exists u, V s u /\ hasev l u /\ forall w, V s w -> sooner u w.
Proof.
  intros Hw.
  assert (G : forall k u, length (s_vs s) - Nat.max u (nx s u) <= k -> V s u -> (forall w, V s w -> sooner u w) ->
    exists u, V s u /\ hasev l u /\ forall w, V s w -> sooner u w).
  { induction k as [|k IH]; intros u Hk Hu Hmin; pose proof (V_rng Hu); pose proof (V_rng (proj1 (chain Hu))); [lia|].
    assert (Htr : forall t, V s t -> sooner t u -> forall w, V s w -> sooner t w).
    { intros t Ht H1 w Hw' q d q' d' Hq Hq'. destruct (Hit_exists Hu) as (qu & du & Hqu & _).
      apply Rle_trans with du; [apply (H1 _ _ _ _ Hq Hqu)|apply (Hmin w Hw' _ _ _ _ Hqu Hq')]. }
    destruct (Hw u Hu) as [He|[(L & Hs & He)|(t & Ht & Hnt & L & Hs & He)]].
    - exists u. auto.
    - destruct (chain Hu) as [Hn _]. destruct He as [He|He]; [exists (nx s u); split; auto|].
      apply (IH (nx s u)); auto. lia.
    - destruct He as [He|He]; [exists t; split; auto|]. apply (IH t); auto. rewrite Hnt. lia. }
  destruct first_edge as (u & U1 & U2). apply (G _ u (le_n _) U1 U2).
Qed.

End State.
End Order.
