(** * SplitCases: concrete cases for PropsSplit *)

From Coq Require Import Reals Lra Psatz ZArith.
From Verif Require Import Py PyFacts Arith ArithR ArithF RSpec Euclid Lav LavSpec LavInit LavNext LavGrow Cluster ClusterSpec LoopSpec GeoSpec GeoR GeoLines
  UnitProofs BisSpec BisProofs BisLoop BisStart SplitSpec SplitProofs PropsLav.
Set Implicit Arguments.
Unset Strict Implicit.
Local Open Scope R_scope.

(** ** a rectangle with a notch, over the real numbers *)
Definition notched : list (@edge2 RA) :=
  [Edge 0 (rvec (-8) 0) (rvec 8 0) (rvec 1 0) 0 0; Edge 1 (rvec 8 0) (rvec 8 10) (rvec 0 1) 0 0;
   Edge 2 (rvec 8 10) (rvec 0 4) (rvec (-4 / 5) (-3 / 5)) 0 0; Edge 3 (rvec 0 4) (rvec (-8) 10) (rvec (-4 / 5) (3 / 5)) 0 0;
   Edge 4 (rvec (-8) 10) (rvec (-8) 0) (rvec 0 (-1)) 0 0].
Definition side (k : nat) : @edge2 RA := nth k notched (Edge 0 (rvec 0 0) (rvec 0 0) (rvec 0 0) 0 0).

Lemma notched_consecutive e1 e2 : consecutive notched e1 e2 -> exists j, (j < 5)%nat /\ e1 = side ((j + 4) mod 5) /\ e2 = side j.
Proof.
  intros (j & Hj & N1 & N2). exists j. simpl in Hj. split; auto.
  destruct j as [|[|[|[|[|j]]]]]; simpl in N1, N2; try (injection N1 as <-; injection N2 as <-; auto); lia.
Qed.

Lemma notched_directed e : In e notched -> directed e.
Proof.
  assert (S16 : sqrt (16 * 16) = 16) by (apply sqrt_square; lra). assert (S10 : sqrt (10 * 10) = 10) by (apply sqrt_square; lra).
  intros [<-|[<-|[<-|[<-|[<-|[]]]]]]; unfold directed, euclid_dist, Rsqr; cbn [ep1 ep2 enorm rvec vx vy]; simpl;
    (split; [intros K; pose proof (f_equal (@vx RA) K) as K1; pose proof (f_equal (@vy RA) K) as K2; simpl in K1, K2; lra|]);
    match goal with |- context [sqrt ?x] => first [replace x with (16 * 16) by (simpl; field); rewrite S16 | replace x with (10 * 10) by (simpl; field); rewrite S10] end;
    split; simpl; field.
Qed.

Lemma notched_closed : closed_contour notched.
Proof.
  split; [discriminate|]. split; [apply notched_directed|].
  intros e1 e2 H. destruct (notched_consecutive H) as (j & Hj & -> & ->). destruct j as [|[|[|[|[|j]]]]]; try reflexivity; lia.
Qed.

Lemma side_directed k : (k < 5)%nat -> directed (side k).
Proof. intros H. apply notched_directed. apply nth_In. auto. Qed.

Lemma notched_sine j : (j < 5)%nat -> turn_sine (side ((j + 4) mod 5)) (side j) = ncross (enorm (side ((j + 4) mod 5))) (enorm (side j)).
Proof.
  intros Hj. apply turn_sine_n; [apply side_directed; apply Nat.mod_upper_bound; lia|apply side_directed; auto|].
  destruct j as [|[|[|[|[|j]]]]]; try reflexivity; lia.
Qed.

Lemma notched_reflex e1 e2 : consecutive notched e1 e2 -> turn_sine e1 e2 < 0 -> e1 = side 2 /\ e2 = side 3.
Proof.
  intros H. destruct (notched_consecutive H) as (j & Hj & -> & ->). rewrite notched_sine by auto.
  destruct j as [|[|[|[|[|j]]]]]; simpl; unfold ncross; simpl; intros K; try (exfalso; lra); auto; lia.
Qed.

Lemma notched_sine_3 : turn_sine (side 2) (side 3) = - (24 / 25).
Proof. assert (L : (3 < 5)%nat) by lia. etransitivity; [exact (notched_sine L)|]. unfold ncross; simpl. lra. Qed.

(** where the lines of the walls cross those at the notch *)
Lemma notched_cross f q : In f notched -> cross_in (side 2) f q \/ cross_in (side 3) f q -> q = rvec 0 4 \/ 1 <= (vx q - 0) * (vx q - 0) + (vy q - 4) * (vy q - 4).
Proof.
  destruct q as [x y]. intros Hf H. cbn [vx vy].
  assert (G : (x = 0 /\ y = 4) \/ 1 <= (x - 0) * (x - 0) + (y - 4) * (y - 4)); [|destruct G as [[-> ->]|G]; [left|right]; auto].
  destruct H as [(N & (t & T1 & T2) & (u & U1 & U2))|(N & (t & T1 & T2) & (u & U1 & U2))];
    destruct Hf as [<-|[<-|[<-|[<-|[<-|[]]]]]]; simpl in *; try (exfalso; apply N; lra);
    first [left; split; lra|right; subst; nra].
Qed.

Lemma notched_plain c e1 e2 : In c [notched] -> consecutive c e1 e2 -> plain_corner (concat [notched]) e1 e2.
Proof.
  intros [<-|[]] H K. destruct (notched_reflex H K) as [-> ->]. rewrite notched_sine_3. split; [lra|].
  intros f q Hf Hq. unfold concat in Hf. rewrite app_nil_r in Hf. destruct (notched_cross Hf Hq) as [G|G]; [left; exact G|right].
  cbn [side nth notched ep1 rvec vx vy]. eapply Rlt_le_trans; [|exact G]. rewrite <- Rinv_1. apply Rinv_lt_contravar; [|apply Rlt_pow_R1; [lra|lia]].
  rewrite Rmult_1_l. apply pow_lt. lra.
Qed.

Lemma notched_dist k q : (k < 5)%nat -> edge_dist (side k) q = ndist (side k) q.
Proof. intros H. apply edge_dist_n. apply side_directed; auto. Qed.

Lemma notched_meet : meet_at (side 2) (side 3) (side 0) (rvec 0 (16 / 9)) (16 / 9).
Proof. unfold meet_at. rewrite !notched_dist by lia. unfold ndist; simpl. repeat split; lra. Qed.

Lemma notched_swept : swept 0 0 (side 4) (side 0) (side 1) (rvec 0 (16 / 9)).
Proof.
  assert (T1 : turn_sine (side 4) (side 0) = 1) by (etransitivity; [exact (@notched_sine 0 ltac:(lia))|unfold ncross; simpl; lra]).
  assert (T2 : turn_sine (side 0) (side 1) = 1) by (etransitivity; [exact (@notched_sine 1 ltac:(lia))|unfold ncross; simpl; lra]).
  unfold swept, after_corner, before_corner. rewrite T1, T2, !notched_dist by lia. unfold ndist; simpl. repeat split; intros; lra.
Qed.

Lemma dist_le_sqr (p q : vec RA) r : 0 <= r -> r * r < (vx p - vx q) * (vx p - vx q) + (vy p - vy q) * (vy p - vy q) -> r < euclid_dist p q.
Proof.
  intros Hr H. unfold euclid_dist, Rsqr. rewrite <- (sqrt_square r) by auto. apply sqrt_lt_1_alt. split; [nra|exact H].
Qed.
Lemma dist_ge_sqr (p q : vec RA) r : 0 <= r -> (vx p - vx q) * (vx p - vx q) + (vy p - vy q) * (vy p - vy q) <= r * r -> euclid_dist p q <= r.
Proof.
  intros Hr H. unfold euclid_dist, Rsqr. rewrite <- (sqrt_square r) by auto. apply sqrt_le_1_alt. exact H.
Qed.

Lemma notched_clear : clear_of (side 2) (side 3) (side 0).
Proof.
  intros q Hq.
  assert (G : (vx q = 16 / 3 \/ vx q = - (16 / 3)) /\ vy q = 0).
  { destruct q as [x y]; destruct Hq as [(_ & (t & T1 & T2) & (u & U1 & U2))|(_ & (t & T1 & T2) & (u & U1 & U2))]; simpl in *; split; [right| |left|]; lra. }
  destruct G as [Gx Gy].
  assert (D : 6 < euclid_dist q (ep1 (side 3))).
  { apply dist_le_sqr; [lra|]. simpl. rewrite Gy. destruct Gx as [Gx|Gx]; rewrite Gx; lra. }
  split.
  - assert (euclid_dist q (rvec 0 0) <= 6) by (apply dist_ge_sqr; [lra|]; simpl; rewrite Gy; destruct Gx as [Gx|Gx]; rewrite Gx; lra).
    assert (euclid_dist (ep1 (side 3)) (rvec 0 0) <= 6) by (apply dist_ge_sqr; [lra|]; simpl; lra).
    assert (Rmax (euclid_dist q (rvec 0 0)) (euclid_dist (ep1 (side 3)) (rvec 0 0)) <= 6) by (apply Rmax_lub; auto). lra.
  - apply Rlt_trans with (6 * 6).
    + apply Rlt_trans with 1; [|lra]. rewrite <- Rinv_1. apply Rinv_lt_contravar; [|apply Rlt_pow_R1; [lra|lia]]. rewrite Rmult_1_l. apply pow_lt. lra.
    + unfold Rsqr. apply Rmult_le_0_lt_compat; lra.
Qed.

(** the corner in the notch is the fourth vertex; what it schedules is a split event *)
Lemma notched_split : exists s d b e, init_slav [notched] = Ok s /\ (3 < length (s_vs s))%nat /\ v_point (getv (s_vs s) 3) = rvec 0 4 /\
  next_event s 3 = Ok (Some (SplitEv d b 3 e)).
Proof.
  assert (Hcl : forall c, In c [notched] -> closed_contour c) by (intros c [<-|[]]; apply notched_closed).
  assert (Hne : forall c, In c [notched] -> c <> []) by (intros c Hc; apply (Hcl c Hc)).
  destruct (init_slav_spec Hne) as (s & Hs & L). exists s. pose proof L as (L1 & _ & _ & L4 & _).
  assert (Hn : length (s_vs s) = 5%nat) by (rewrite L1; reflexivity).
  destruct (L4 0%nat notched eq_refl) as (_ & _ & _ & HV). cbn [firstn concat length plus] in HV.
  assert (V : forall j, (j < 5)%nat -> v_eprev (getv (s_vs s) j) = side ((j + 4) mod 5) /\ v_enext (getv (s_vs s) j) = side j /\ v_point (getv (s_vs s) j) = ep1 (side j) /\
    v_next (getv (s_vs s) j) = ((j + 1) mod 5)%nat /\ v_prev (getv (s_vs s) j) = ((j + 4) mod 5)%nat /\ equi (getv (s_vs s) j)).
  { intros j Hj. destruct (HV j Hj) as (e1 & e2 & N1 & N2 & P & E1 & E2 & X1 & X2 & _).
    assert (C : consecutive notched e1 e2) by (exists j; auto). destruct (notched_consecutive C) as (j' & Hj' & -> & ->).
    assert (j' = j) as ->.
    { destruct j as [|[|[|[|[|j]]]]], j' as [|[|[|[|[|j']]]]]; try lia; simpl in N2; injection N2; intros; subst; auto; exfalso; discriminate. }
    rewrite E1, E2, P. cbn [plus] in X1, X2. rewrite X1, X2. split; auto. split; auto. split; auto. split; auto.
    split; [f_equal; simpl; lia|].
    pose proof (@vertex_corner _ Hcl _ Hs j ltac:(rewrite Hn; auto)) as B. rewrite E1, E2 in B.
    eapply equi_kept; [exact B|]. apply corner_equi; [apply side_directed; apply Nat.mod_upper_bound; lia|apply side_directed; auto|].
    destruct j as [|[|[|[|[|j]]]]]; try reflexivity; lia. }
  destruct (@no_split_missed _ Hcl _ Hs 3 ltac:(lia)) as (c & e1 & e2 & [<-|[]] & Hcon & Hp & Hev).
  destruct (V 3%nat ltac:(lia)) as (V1 & V2 & V3 & V4 & V5 & V6). rewrite V3 in Hp.
  destruct (notched_consecutive Hcon) as (j & Hj & -> & ->).
  assert (j = 3%nat) as ->.
  { destruct j as [|[|[|[|[|j]]]]]; auto; try lia; exfalso; pose proof (f_equal (@vy RA) Hp) as K1; pose proof (f_equal (@vx RA) Hp) as K2; simpl in K1, K2; lra. }
  change (side ((3 + 4) mod 5)) with (side 2) in *. rewrite notched_sine_3 in Hev.
  destruct (Hev ltac:(lra) notched (side 4) (side 0) (side 1) (rvec 0 (16 / 9)) (16 / 9)) as (ev & p & Hn3 & Hpt & Hle).
  - left; auto.
  - exists 4%nat. simpl. auto.
  - discriminate.
  - discriminate.
  - left. lra.
  - intros K. pose proof (f_equal (@vx RA) K) as K1. simpl in K1. lra.
  - apply notched_clear.
  - apply notched_meet.
  - apply notched_swept.
  - assert (Hle' : euclid_dist (ep1 (side 3)) p <= 3).
    { eapply Rle_trans; [exact Hle|]. apply dist_ge_sqr; [lra|]. simpl. lra. }
    destruct (@next_event_candidate _ s 3 (fun _ => @in_a_lav _ Hcl _ Hs 3%nat ltac:(lia))) as (o & Ho & _ & Hc). rewrite Hn3 in Ho. apply Ok_inj in Ho.
    destruct (Hc _ (eq_sym Ho)) as [K _]. destruct K as [q v K|q v K|oe ev Hr Hoe K].
    + exfalso. unfold v in *. clear v. cbn [event_point] in Hpt. injection Hpt as ->. apply line_intersect_R in K as (_ & O1 & O2).
      rewrite V5 in O2. change ((3 + 4) mod 5)%nat with 2%nat in O2. destruct (V 2%nat ltac:(lia)) as (W1 & W2 & _ & _ & _ & W6).
      apply equi_on in O1; auto. apply equi_on in O2; auto. rewrite V1, V2 in O1. rewrite W1, W2 in O2.
      change ((2 + 4) mod 5)%nat with 1%nat in O2. change ((3 + 4) mod 5)%nat with 2%nat in O1. unfold ndist in *. simpl in O1, O2.
      assert (X : vx p = 0) by (simpl in *; lra). assert (Y : vy p = -6) by (rewrite X in *; simpl in *; lra).
      apply Rle_not_lt in Hle'. apply Hle'. apply dist_le_sqr; [lra|]. simpl. rewrite X, Y. lra.
    + exfalso. unfold v in *. clear v. cbn [event_point] in Hpt. injection Hpt as ->. apply line_intersect_R in K as (_ & O1 & O2).
      rewrite V4 in O2. change ((3 + 1) mod 5)%nat with 4%nat in O2. destruct (V 4%nat ltac:(lia)) as (W1 & W2 & _ & _ & _ & W6).
      apply equi_on in O1; auto. apply equi_on in O2; auto. rewrite V1, V2 in O1. rewrite W1, W2 in O2.
      change ((4 + 4) mod 5)%nat with 3%nat in O2. change ((3 + 4) mod 5)%nat with 2%nat in O1. unfold ndist in *. simpl in O1, O2.
      assert (X : vx p = 0) by (simpl in *; lra). assert (Y : vy p = -6) by (rewrite X in *; simpl in *; lra).
      apply Rle_not_lt in Hle'. apply Hle'. apply dist_le_sqr; [lra|]. simpl. rewrite X, Y. lra.
    + destruct (split_candidate_shape K) as (b & -> & _). exists (line_distance (Line2_edge (oe_edge oe)) b), b, (oe_edge oe).
      split; auto. split; [lia|]. split; [rewrite V3; reflexivity|exact Hn3].
Qed.

(** no dormers, although there is a reflex corner *)
Lemma notched_dormers : detectDormers [notched] = Ok [].
Proof.
  apply no_sharp_right; [discriminate|]. intros e1 e2 H. destruct (notched_consecutive H) as (j & Hj & -> & ->).
  destruct j as [|[|[|[|[|j]]]]]; try lia; unfold ncross; simpl; lra.
Qed.

(** ** IEEE arithmetic: a corner just above the opposite edge, far from the origin *)
Definition neck := polygon 0 [Pt (-8000) (-6000); Pt 8000 (-6000); Pt 8000 3; Pt 0 (-5997); Pt (-8000) 3].
Definition neck_point : vec F64 := V2 (A := F64) (lit (a := F64) 0 1) (nsub (lit (a := F64) 4 3) (lit (a := F64) 6000 1)).

Definition within (eps x y : num F64) : bool := nltb (nabs (nsub x y)) eps.
Definition neckb (c : list (@edge2 F64)) (q : vec F64) : bool :=
  match init_slav [c], nth_error c 2, nth_error c 3, nth_error c 0 with
  | Ok s, Some e1, Some e2, Some e =>
    v_reflex (getv (s_vs s) 3) && veq (v_point (getv (s_vs s) 3)) (ep1 e2) &&
    forallb (fun f : @edge2 F64 => within (lit (a := F64) 1 1000) (line_distance (Line2_edge f) q) (lit (a := F64) 4 3)) [e1; e2; e] &&
    match next_event s 3 with
    | Ok (Some ev) => match event_point ev with
      | Some p => nltb (nmul (lit (a := F64) 1000 1) (vlen (vsub q (ep1 e2)))) (vlen (vsub p (ep1 e2)))
      | None => false end
    | _ => false end
  | _, _, _, _ => false
  end.

Lemma neck_spec (c : list (@edge2 F64)) (q : vec F64) : neckb c q = true ->
  exists s e1 e2 e ev p, init_slav [c] = Ok s /\ nth_error c 2 = Some e1 /\ nth_error c 3 = Some e2 /\ nth_error c 0 = Some e /\
    v_reflex (getv (s_vs s) 3) = true /\ veq (v_point (getv (s_vs s) 3)) (ep1 e2) = true /\
    (forall f, In f [e1; e2; e] -> within (lit (a := F64) 1 1000) (line_distance (Line2_edge f) q) (lit (a := F64) 4 3) = true) /\
    next_event s 3 = Ok (Some ev) /\ event_point ev = Some p /\
    nltb (nmul (lit (a := F64) 1000 1) (vlen (vsub q (ep1 e2)))) (vlen (vsub p (ep1 e2))) = true.
Proof.
  unfold neckb. destruct (init_slav [c]) as [s|]; [|discriminate]. destruct (nth_error c 2) as [e1|]; [|discriminate].
  destruct (nth_error c 3) as [e2|]; [|discriminate]. destruct (nth_error c 0) as [e|]; [|discriminate].
  destruct (next_event s 3) as [[ev|]|] eqn:En; try (rewrite andb_false_r; discriminate).
  destruct (event_point ev) as [p|] eqn:Ep; [|rewrite andb_false_r; discriminate].
  intros H. apply andb_true_iff in H as [H H4]. apply andb_true_iff in H as [H H3]. apply andb_true_iff in H as [H1 H2].
  exists s, e1, e2, e, ev, p. repeat (split; [first [reflexivity|assumption]|]). split; [|auto]. apply forallb_forall. exact H3.
Qed.

Lemma neck_true : neckb neck neck_point = true.
Proof. vm_compute. reflexivity. Qed.

Lemma neck_missed : exists s e1 e2 e ev p, init_slav [neck] = Ok s /\ nth_error neck 2 = Some e1 /\ nth_error neck 3 = Some e2 /\ nth_error neck 0 = Some e /\
    v_reflex (getv (s_vs s) 3) = true /\ veq (v_point (getv (s_vs s) 3)) (ep1 e2) = true /\
    (forall f, In f [e1; e2; e] -> within (lit (a := F64) 1 1000) (line_distance (Line2_edge f) neck_point) (lit (a := F64) 4 3) = true) /\
    next_event s 3 = Ok (Some ev) /\ event_point ev = Some p /\
    nltb (nmul (lit (a := F64) 1000 1) (vlen (vsub neck_point (ep1 e2)))) (vlen (vsub p (ep1 e2))) = true.
Proof. exact (neck_spec neck_true). Qed.

Lemma notched_meets : (-1 + 1 / 100000 <= turn_sine (side 2) (side 3) < 0) /\ successive notched (side 4) (side 0) (side 1) /\
  clear_of (side 2) (side 3) (side 0) /\ meet_at (side 2) (side 3) (side 0) (rvec 0 (16 / 9)) (16 / 9) /\
  swept 0 0 (side 4) (side 0) (side 1) (rvec 0 (16 / 9)).
Proof.
  split; [rewrite notched_sine_3; lra|]. split; [exists 4%nat; simpl; auto|].
  exact (conj notched_clear (conj notched_meet notched_swept)).
Qed.

Lemma notched_meets_all :
  closed_contour notched /\ (forall c e1 e2, In c [notched] -> consecutive c e1 e2 -> plain_corner (concat [notched]) e1 e2) /\
  detectDormers [notched] = Ok [] /\ consecutive notched (side 2) (side 3) /\ turn_sine (side 2) (side 3) = - (24 / 25).
Proof.
  split; [exact notched_closed|]. split; [exact notched_plain|]. split; [exact notched_dormers|]. split; [exists 3%nat; simpl; auto|exact notched_sine_3].
Qed.

(** ** an L over the real numbers: a right-angled reflex corner *)
Definition ell : list (@edge2 RA) :=
  [Edge 0 (rvec 0 0) (rvec 4 0) (rvec 1 0) 0 0; Edge 1 (rvec 4 0) (rvec 4 2) (rvec 0 1) 0 0;
   Edge 2 (rvec 4 2) (rvec 2 2) (rvec (-1) 0) 0 0; Edge 3 (rvec 2 2) (rvec 2 4) (rvec 0 1) 0 0;
   Edge 4 (rvec 2 4) (rvec 0 4) (rvec (-1) 0) 0 0; Edge 5 (rvec 0 4) (rvec 0 0) (rvec 0 (-1)) 0 0].
Definition wall (k : nat) : @edge2 RA := nth k ell (Edge 0 (rvec 0 0) (rvec 0 0) (rvec 0 0) 0 0).

Lemma ell_consecutive e1 e2 : consecutive ell e1 e2 -> exists j, (j < 6)%nat /\ e1 = wall ((j + 5) mod 6) /\ e2 = wall j.
Proof.
  intros (j & Hj & N1 & N2). exists j. simpl in Hj. split; auto.
  destruct j as [|[|[|[|[|[|j]]]]]]; simpl in N1, N2; try (injection N1 as <-; injection N2 as <-; auto); lia.
Qed.

Lemma ell_directed e : In e ell -> directed e.
Proof.
  assert (S4 : sqrt (4 * 4) = 4) by (apply sqrt_square; lra). assert (S2 : sqrt (2 * 2) = 2) by (apply sqrt_square; lra).
  intros [<-|[<-|[<-|[<-|[<-|[<-|[]]]]]]]; unfold directed, euclid_dist, Rsqr; cbn [ep1 ep2 enorm rvec vx vy]; simpl;
    (split; [intros K; pose proof (f_equal (@vx RA) K) as K1; pose proof (f_equal (@vy RA) K) as K2; simpl in K1, K2; lra|]);
    match goal with |- context [sqrt ?x] => first [replace x with (4 * 4) by (simpl; field); rewrite S4 | replace x with (2 * 2) by (simpl; field); rewrite S2] end;
    split; simpl; field.
Qed.

Lemma ell_closed : closed_contour ell.
Proof.
  split; [discriminate|]. split; [apply ell_directed|].
  intros e1 e2 H. destruct (ell_consecutive H) as (j & Hj & -> & ->). destruct j as [|[|[|[|[|[|j]]]]]]; try reflexivity; lia.
Qed.

Lemma wall_directed k : (k < 6)%nat -> directed (wall k).
Proof. intros H. apply ell_directed. apply nth_In. auto. Qed.

Lemma ell_sine j : (j < 6)%nat -> turn_sine (wall ((j + 5) mod 6)) (wall j) = ncross (enorm (wall ((j + 5) mod 6))) (enorm (wall j)).
Proof.
  intros Hj. apply turn_sine_n; [apply wall_directed; apply Nat.mod_upper_bound; lia|apply wall_directed; auto|].
  destruct j as [|[|[|[|[|[|j]]]]]]; try reflexivity; lia.
Qed.

Lemma ell_sine_3 : turn_sine (wall 2) (wall 3) = -1.
Proof. assert (L : (3 < 6)%nat) by lia. etransitivity; [exact (ell_sine L)|]. unfold ncross; simpl. lra. Qed.

Lemma ell_reflex e1 e2 : consecutive ell e1 e2 -> turn_sine e1 e2 < 0 -> e1 = wall 2 /\ e2 = wall 3.
Proof.
  intros H. destruct (ell_consecutive H) as (j & Hj & -> & ->). rewrite ell_sine by auto.
  destruct j as [|[|[|[|[|[|j]]]]]]; simpl; unfold ncross; simpl; intros K; try (exfalso; lra); auto; lia.
Qed.

Lemma ell_apart c e1 e2 : In c [ell] -> consecutive c e1 e2 -> turn_sine e1 e2 < 0 -> apart 1 (concat [ell]) e1 e2.
Proof.
  intros [<-|[]] H K. destruct (ell_reflex H K) as [-> ->]. intros f q Hf Hq. unfold concat in Hf. rewrite app_nil_r in Hf. destruct q as [x y].
  assert (G : (x = 2 /\ y = 2) \/ 1 * 1 < (x - 2) * (x - 2) + (y - 2) * (y - 2)).
  { destruct Hq as [(N & (t & T1 & T2) & (u & U1 & U2))|(N & (t & T1 & T2) & (u & U1 & U2))];
      destruct Hf as [<-|[<-|[<-|[<-|[<-|[<-|[]]]]]]]; simpl in *; try (exfalso; apply N; lra);
      first [left; split; lra|right; subst; nra]. }
  destruct G as [[-> ->]|G]; [left; reflexivity|right]. left. apply dist_le_sqr; [lra|]. cbn [vx vy]. exact G.
Qed.

Lemma ell_dist k q : (k < 6)%nat -> edge_dist (wall k) q = ndist (wall k) q.
Proof. intros H. apply edge_dist_n. apply wall_directed; auto. Qed.

Lemma ell_meet : meet_at (wall 2) (wall 3) (wall 0) (rvec 1 1) 1.
Proof. unfold meet_at. rewrite !ell_dist by lia. unfold ndist; simpl. repeat split; lra. Qed.

Lemma ell_swept : swept 0 0 (wall 5) (wall 0) (wall 1) (rvec 1 1).
Proof.
  assert (T1 : turn_sine (wall 5) (wall 0) = 1) by (etransitivity; [exact (@ell_sine 0 ltac:(lia))|unfold ncross; simpl; lra]).
  assert (T2 : turn_sine (wall 0) (wall 1) = 1) by (etransitivity; [exact (@ell_sine 1 ltac:(lia))|unfold ncross; simpl; lra]).
  unfold swept, after_corner, before_corner. rewrite T1, T2, !ell_dist by lia. unfold ndist; simpl. repeat split; intros; lra.
Qed.

Lemma ell_clear : clear_of (wall 2) (wall 3) (wall 0).
Proof.
  intros q Hq.
  assert (G : vx q = 2 /\ vy q = 0).
  { destruct q as [x y]; destruct Hq as [(N & (t & T1 & T2) & (u & U1 & U2))|(N & (t & T1 & T2) & (u & U1 & U2))]; simpl in *; [exfalso; apply N; lra|split; lra]. }
  destruct G as [Gx Gy].
  assert (D : 1 < euclid_dist q (ep1 (wall 3))) by (apply dist_le_sqr; [lra|]; simpl; rewrite Gx, Gy; lra).
  split.
  - assert (euclid_dist q (rvec 0 0) <= 6) by (apply dist_ge_sqr; [lra|]; simpl; rewrite Gx, Gy; lra).
    assert (euclid_dist (ep1 (wall 3)) (rvec 0 0) <= 6) by (apply dist_ge_sqr; [lra|]; simpl; lra).
    assert (Rmax (euclid_dist q (rvec 0 0)) (euclid_dist (ep1 (wall 3)) (rvec 0 0)) <= 6) by (apply Rmax_lub; auto). lra.
  - apply Rlt_trans with (1 * 1).
    + rewrite Rmult_1_r. rewrite <- Rinv_1. apply Rinv_lt_contravar; [|apply Rlt_pow_R1; [lra|lia]]. rewrite Rmult_1_l. apply pow_lt. lra.
    + unfold Rsqr. apply Rmult_le_0_lt_compat; lra.
Qed.

Lemma ell_behind : behind (wall 2) (wall 3) (wall 0).
Proof.
  intros f q Hf (N & (t & T1 & T2) & (u & U1 & U2)). destruct q as [x y]. destruct Hf as [-> | ->]; simpl in *; [exfalso; apply N; lra|nra].
Qed.

Lemma ell_split : exists s d b e, init_slav [ell] = Ok s /\ (3 < length (s_vs s))%nat /\ v_point (getv (s_vs s) 3) = rvec 2 2 /\
  next_event s 3 = Ok (Some (SplitEv d b 3 e)).
Proof.
  assert (Hcl : forall c, In c [ell] -> closed_contour c) by (intros c [<-|[]]; apply ell_closed).
  assert (Hne : forall c, In c [ell] -> c <> []) by (intros c Hc; apply (Hcl c Hc)).
  destruct (init_slav_spec Hne) as (s & Hs & L). exists s. pose proof L as (L1 & _ & _ & L4 & _).
  assert (Hn : length (s_vs s) = 6%nat) by (rewrite L1; reflexivity).
  destruct (L4 0%nat ell eq_refl) as (_ & _ & _ & HV). cbn [firstn concat length plus] in HV.
  assert (V : forall j, (j < 6)%nat -> v_eprev (getv (s_vs s) j) = wall ((j + 5) mod 6) /\ v_enext (getv (s_vs s) j) = wall j /\ v_point (getv (s_vs s) j) = ep1 (wall j) /\
    v_next (getv (s_vs s) j) = ((j + 1) mod 6)%nat /\ v_prev (getv (s_vs s) j) = ((j + 5) mod 6)%nat /\ equi (getv (s_vs s) j)).
  { intros j Hj. destruct (HV j Hj) as (e1 & e2 & N1 & N2 & P & E1 & E2 & X1 & X2 & _).
    assert (C : consecutive ell e1 e2) by (exists j; auto). destruct (ell_consecutive C) as (j' & Hj' & -> & ->).
    assert (j' = j) as ->.
    { destruct j as [|[|[|[|[|[|j]]]]]], j' as [|[|[|[|[|[|j']]]]]]; try lia; simpl in N2; injection N2; intros; subst; auto; exfalso; discriminate. }
    rewrite E1, E2, P. cbn [plus] in X1, X2. rewrite X1, X2. split; auto. split; auto. split; auto. split; auto.
    split; [f_equal; simpl; lia|].
    pose proof (@vertex_corner _ Hcl _ Hs j ltac:(rewrite Hn; auto)) as B. rewrite E1, E2 in B.
    eapply equi_kept; [exact B|]. apply corner_equi; [apply wall_directed; apply Nat.mod_upper_bound; lia|apply wall_directed; auto|].
    destruct j as [|[|[|[|[|[|j]]]]]]; try reflexivity; lia. }
  destruct (@no_split_missed _ Hcl _ Hs 3 ltac:(lia)) as (c & e1 & e2 & [<-|[]] & Hcon & Hp & Hev).
  destruct (V 3%nat ltac:(lia)) as (V1 & V2 & V3 & V4 & V5 & V6). rewrite V3 in Hp.
  destruct (ell_consecutive Hcon) as (j & Hj & -> & ->).
  assert (j = 3%nat) as ->.
  { destruct j as [|[|[|[|[|[|j]]]]]]; auto; try lia; exfalso; pose proof (f_equal (@vy RA) Hp) as K1; pose proof (f_equal (@vx RA) Hp) as K2; simpl in K1, K2; lra. }
  change (wall ((3 + 5) mod 6)) with (wall 2) in *. rewrite ell_sine_3 in Hev.
  destruct (Hev ltac:(lra) ell (wall 5) (wall 0) (wall 1) (rvec 1 1) 1) as (ev & p & Hn3 & Hpt & Hle).
  - left; auto.
  - exists 5%nat. simpl. auto.
  - discriminate.
  - discriminate.
  - right. apply ell_behind.
  - intros K. pose proof (f_equal (@vx RA) K) as K1. simpl in K1. lra.
  - apply ell_clear.
  - apply ell_meet.
  - apply ell_swept.
  - destruct (@next_event_candidate _ s 3 (fun _ => @in_a_lav _ Hcl _ Hs 3%nat ltac:(lia))) as (o & Ho & _ & Hc). rewrite Hn3 in Ho. apply Ok_inj in Ho.
    destruct V6 as (_ & _ & _ & _ & s3 & _ & _ & Hl3). rewrite V1, V2 in Hl3.
    destruct (Hc _ (eq_sym Ho)) as [K _]. destruct K as [q v K|q v K|oe ev Hr Hoe K].
    + exfalso. unfold v in *. clear v. apply line_intersect_R in K as (N & _). apply N.
      rewrite V5. change ((3 + 5) mod 6)%nat with 2%nat. destruct (V 2%nat ltac:(lia)) as (W1 & W2 & _ & _ & _ & (_ & _ & _ & _ & s2 & _ & _ & Hl2)).
      rewrite W1, W2 in Hl2. rewrite Hl2, Hl3. unfold rvec. cbn [vx vy]. simpl. ring.
    + exfalso. unfold v in *. clear v. apply line_intersect_R in K as (N & _). apply N.
      rewrite V4. change ((3 + 1) mod 6)%nat with 4%nat. destruct (V 4%nat ltac:(lia)) as (W1 & W2 & _ & _ & _ & (_ & _ & _ & _ & s4 & _ & _ & Hl4)).
      rewrite W1, W2 in Hl4. rewrite Hl4, Hl3. unfold rvec. cbn [vx vy]. simpl. ring.
    + destruct (split_candidate_shape K) as (b & -> & _). exists (line_distance (Line2_edge (oe_edge oe)) b), b, (oe_edge oe).
      split; auto. split; [lia|]. split; [rewrite V3; reflexivity|exact Hn3].
Qed.

(** ** IEEE arithmetic: the point of a right-angled corner is off *)
Definition corridor := polygon 0 [Pt 0 0; Pt 40 0; Pt 40 20; Pt 2 20; Pt 2 40; Pt 0 40].
Definition offb (c : list (@edge2 F64)) : bool :=
  match init_slav [c], nth_error c 2 with
  | Ok s, Some e1 => match next_event s 3 with
    | Ok (Some (SplitEv d b _ e)) => Nat.eqb (eid e) 5 && nltb (nadd d (lit (a := F64) 4 1000)) (line_distance (Line2_edge e1) b)
    | _ => false end
  | _, _ => false end.
Lemma off_spec (c : list (@edge2 F64)) : offb c = true -> exists s e1 d b id e, init_slav [c] = Ok s /\ nth_error c 2 = Some e1 /\
  next_event s 3 = Ok (Some (SplitEv d b id e)) /\ eid e = 5%nat /\ nltb (nadd d (lit (a := F64) 4 1000)) (line_distance (Line2_edge e1) b) = true.
Proof.
  unfold offb. destruct (init_slav [c]) as [s|]; [|discriminate]. destruct (nth_error c 2) as [e1|]; [|discriminate].
  destruct (next_event s 3) as [[[]|]|] eqn:E; try discriminate. intros H. apply andb_true_iff in H as [H1 H2]. apply Nat.eqb_eq in H1.
  do 6 eexists. split; [reflexivity|]. split; [reflexivity|]. split; [exact E|]. auto.
Qed.
Lemma corridor_off : offb corridor = true.
Proof. vm_compute. reflexivity. Qed.
Lemma corridor_spec : exists s e1 d b id e, init_slav [corridor] = Ok s /\ nth_error corridor 2 = Some e1 /\
  next_event s 3 = Ok (Some (SplitEv d b id e)) /\ eid e = 5%nat /\ nltb (nadd d (lit (a := F64) 4 1000)) (line_distance (Line2_edge e1) b) = true.
Proof. exact (off_spec corridor_off). Qed.
