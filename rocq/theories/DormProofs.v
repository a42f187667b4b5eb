(** * DormProofs: right-angled dormers (C69) *)

From Coq Require Import Permutation Reals Lra.
From Verif Require Import Py PyFacts Arith ArithR Euclid Lav LavSpec LavWalk LavWf LavRing LavInit LavNext LavGrow LavStep LavSplit
  LoopSpec LavLoop LoopStart WaveSpec Cluster LavWave StepSpec StepDormer StepCases PatCases PolyProofs PatSpec RSpec GeoSpec TriSpec BisSpec ClusterSpec DormSpec.
Set Implicit Arguments.
Unset Strict Implicit.
Local Open Scope nat_scope.

Section None.
Context {A : arith}.
Implicit Type s : @slav A.

Lemma dormer_fails s d dp vp dn vn de ipe va vb a b rest G :
  woven s ((vp :: a :: b :: vn :: rest) :: G) -> rest <> [] ->
  line_intersect (v_bis (getv (s_vs s) vp)) (v_bis (getv (s_vs s) vn)) = None ->
  handle_event s (DormerEv d dp vp dn vn de ipe va vb) = Err TypeError.
Proof.
  intros (R & W1 & W2 & W3 & WF) Hne Hp.
  set (ids := vp :: a :: b :: vn :: rest) in *.
  assert (Hl : exists l, In l (s_act s) /\ R l = ids).
  { assert (In ids (map R (s_act s))) by (eapply Permutation_in; [apply Permutation_sym; exact WF|left; auto]).
    apply in_map_iff in H as (l & H1 & H2). eauto. }
  destruct Hl as (l & Hl & Rl).
  destruct (py_remove_nodup W1 Hl) as (L & HL1 & HL2 & HL3 & HL4).
  assert (HG : Permutation (map R L) G).
  { apply Permutation_cons_inv with (a := ids). rewrite <- Rl at 1. change (R l :: map R L) with (map R (l :: L)).
    eapply Permutation_trans; [apply Permutation_sym, Permutation_map; exact HL2|exact WF]. }
  destruct (W2 l Hl) as (Hr & Hll & Hhd & Hlen & Hvs). rewrite Rl in Hr, Hhd, Hlen, Hvs.
  change (ring (nxt_of (s_vs s)) (prv_of (s_vs s)) ids) in Hr.
  pose proof (ring_NoDup Hr) as Hnd.
  assert (Hin : forall i, In i rest -> In i ids) by (intros i Hi; unfold ids; simpl; auto 6).
  set (p0 := last rest 0). set (n0 := hd 0 rest).
  assert (Hp0 : In p0 rest) by (apply last_in; auto). assert (Hn0 : In n0 rest) by (apply hd_in; auto).
  assert (Lp0 : p0 < length (s_vs s)) by (apply Hvs; auto). assert (Ln0 : n0 < length (s_vs s)) by (apply Hvs; auto).
  assert (Ivp : In vp ids) by (unfold ids; simpl; auto). assert (Ivn : In vn ids) by (unfold ids; simpl; auto 6).
  assert (Ia : In a ids) by (unfold ids; simpl; auto). assert (Ib : In b ids) by (unfold ids; simpl; auto).
  (* the links in the ring *)
  pose proof Hr as Hlk. unfold ids in Hlk. apply ring_linked in Hlk as [_ Hlk].
  assert (K : prv_of (s_vs s) vp = p0 /\ nxt_of (s_vs s) vp = a /\ prv_of (s_vs s) vn = b /\ nxt_of (s_vs s) vn = n0).
  { change (vp :: (a :: b :: vn :: rest) ++ [vp]) with ([vp; a; b; vn] ++ rest ++ [vp]) in Hlk.
    assert (Hlk' := Hlk). apply linked_tail in Hlk'. destruct (linked_last_nxt Hlk' Hne) as [_ K1].
    unfold p0, n0. destruct rest as [|n rest']; [congruence|]. simpl in Hlk. simpl hd. tauto. }
  destruct K as (Kp & Ka & Kb & Kn).
  assert (Dsj : ~ In vp rest /\ ~ In a rest /\ ~ In b rest /\ ~ In vn rest /\ vp <> vn).
  { unfold ids in Hnd. apply NoDup_cons_iff in Hnd as [N1 Hnd]. apply NoDup_cons_iff in Hnd as [N2 Hnd].
    apply NoDup_cons_iff in Hnd as [N3 Hnd]. apply NoDup_cons_iff in Hnd as [N4 Hnd]. simpl in N1, N2, N3.
    repeat split; try tauto. intros ->. tauto. }
  destruct Dsj as (Dp & Da & Db & Dn & Dpn).
  cbn [handle_event]. unfold is_valid. destruct (Hvs vp Ivp) as (Lvp & Vvp & Lavp). destruct (Hvs vn Ivn) as (Lvn & Vvn & Lavn).
  rewrite Vvp, Vvn. cbn [negb orb]. unfold handle_dormer_event. rewrite Lavp.
  change (v_prev (getv (s_vs s) vp)) with (prv_of (s_vs s) vp). change (v_next (getv (s_vs s) vp)) with (nxt_of (s_vs s) vp).
  change (v_prev (getv (s_vs s) vn)) with (prv_of (s_vs s) vn). rewrite Kp, Ka, Kb. cbn [s_vs with_ls].
  change (v_prev (getv (s_vs s) vp)) with (prv_of (s_vs s) vp). change (v_next (getv (s_vs s) vn)) with (nxt_of (s_vs s) vn).
  rewrite Kp, Kn. set (vs1 := modv p0 (with_next n0) (s_vs s)).
  assert (Nvp : p0 <> vp) by (intros He; apply Dp; rewrite <- He; auto).
  assert (Nvn : p0 <> vn) by (intros He; apply Dn; rewrite <- He; auto).
  assert (Gvp : getv vs1 vp = getv (s_vs s) vp).
  { unfold vs1. rewrite getv_modv. destruct (Nat.eqb_spec p0 vp); [congruence|auto]. }
  assert (Gvn : getv vs1 vn = getv (s_vs s) vn).
  { unfold vs1. rewrite getv_modv. destruct (Nat.eqb_spec p0 vn); [congruence|auto]. }
  rewrite Gvp, Gvn. change (v_prev (getv (s_vs s) vp)) with (prv_of (s_vs s) vp). change (v_next (getv (s_vs s) vn)) with (nxt_of (s_vs s) vn).
  rewrite Kp, Kn. set (vs2 := modv n0 (with_prev p0) vs1).
  assert (L1 : length vs1 = length (s_vs s)) by (unfold vs1; rewrite !modv_length; auto).
  assert (L2 : length vs2 = length (s_vs s)) by (unfold vs2; rewrite !modv_length; auto).
  assert (N2 : forall i, i < length (s_vs s) -> nxt_of vs2 i = if Nat.eqb p0 i then n0 else nxt_of (s_vs s) i).
  { intros i Li. unfold vs2. rewrite nxt_with_prev. unfold vs1. rewrite nxt_with_next by auto. auto. }
  assert (P2 : forall i, i < length (s_vs s) -> prv_of vs2 i = if Nat.eqb n0 i then p0 else prv_of (s_vs s) i).
  { intros i Li. unfold vs2. rewrite prv_with_prev by (rewrite L1; auto). unfold vs1. rewrite prv_with_next. auto. }
  assert (B2 : forall i, same_body (getv vs2 i) (getv (s_vs s) i)).
  { intros i. unfold vs2, vs1. eapply same_body_trans; [apply same_body_prev|]. eapply same_body_trans; [apply same_body_next|]. apply same_body_refl. }
  assert (G2 : forall i, i <> p0 -> i <> n0 -> getv vs2 i = getv (s_vs s) i).
  { intros i I1 I2. unfold vs2, vs1. rewrite !getv_modv. destruct (Nat.eqb_spec n0 i); [congruence|]. destruct (Nat.eqb_spec p0 i); [congruence|]. auto. }
  clearbody vs2. clear Gvp Gvn L1 vs1.
  assert (Hring : ring (nxt_of vs2) (prv_of vs2) rest).
  { apply (@ring_drop (nxt_of (s_vs s)) (prv_of (s_vs s)) _ _ [vp; a; b; vn] rest); auto.
    - intros j Ij Hj. rewrite N2 by (apply Hvs; auto). destruct (Nat.eqb_spec p0 j); [exfalso; apply Hj; symmetry; assumption|auto].
    - intros j Ij Hj. rewrite P2 by (apply Hvs; auto). destruct (Nat.eqb_spec n0 j); [exfalso; apply Hj; symmetry; assumption|auto].
    - fold p0. rewrite N2 by auto. rewrite Nat.eqb_refl. auto.
    - fold n0. rewrite P2 by auto. rewrite Nat.eqb_refl. auto. }
  set (s1 := with_vs vs2 (with_ls (set_at l (LAV p0 (l_len (getl (s_ls s) l))) (s_ls s)) s)).
  destruct (from_chain_loose (s := s1) (h := p0) (ids := rest)) as (s2 & F1 & F2 & F3 & F4 & F5 & F6 & F7 & F8); auto.
  { intros i Hi. unfold s1. simpl. rewrite L2. apply Hvs. auto. }
  rewrite F1. cbn [bind]. unfold remove_lav. rewrite F3. change (s_act s1) with (s_act s). rewrite HL1. cbn [bind].
  assert (Ls1 : length (s_ls s1) = length (s_ls s)) by (unfold s1; simpl; apply set_at_length).
  rewrite Ls1 in *. set (l2 := length (s_ls s)) in *.
  set (s4 := with_act (L ++ [l2]) s2).
  assert (Es4 : with_act (s_act (with_act L s2) ++ [l2]) (with_act L s2) = s4) by reflexivity.
  rewrite Es4.
  assert (B4 : forall i, body_kept (getv (s_vs s4) i) (getv (s_vs s) i)).
  { intros i. unfold s4. cbn [with_act s_vs]. rewrite F7. change (s_vs s1) with vs2.
    eapply body_kept_trans; [|apply same_body_kept; apply B2]. destruct (in_dec _ _ _); [apply body_with_lav|apply body_kept_refl]. }
  destruct (B4 vp) as (_ & _ & _ & _ & ->). destruct (B4 vn) as (_ & _ & _ & _ & ->). rewrite Hp. reflexivity.
Qed.
(** ** at the start *)
Lemma woven_rot s l1 x l2 G : woven s ((l1 ++ x :: l2) :: G) -> woven s ((x :: l2 ++ l1) :: G).
Proof.
  intros (R & W1 & W2 & W3 & WF). set (ids := l1 ++ x :: l2) in *.
  assert (Hl : exists l, In l (s_act s) /\ R l = ids).
  { assert (In ids (map R (s_act s))) by (eapply Permutation_in; [apply Permutation_sym; exact WF|left; auto]).
    apply in_map_iff in H as (l & H1 & H2). eauto. }
  destruct Hl as (l & Hl & Rl). destruct (in_split _ _ Hl) as (a1 & a2 & Ha).
  exists (fun k => if Nat.eqb k l then x :: l2 ++ l1 else R k).
  assert (Pm : Permutation ids (x :: l2 ++ l1)).
  { unfold ids. apply Permutation_sym. change (x :: l2 ++ l1) with ((x :: l2) ++ l1). apply Permutation_app_comm. }
  split; auto. split; [|split].
  - intros k Hk. destruct (W2 k Hk) as (K1 & K2 & K3 & K4 & K5). destruct (Nat.eqb_spec k l) as [->|_]; [|auto].
    rewrite Rl in *. split; [apply ring_rot; exact K1|]. split; auto. split; [eapply Permutation_in; eauto|].
    split; [rewrite K4; f_equal; apply Permutation_length; auto|].
    intros i Hi. apply K5. eapply Permutation_in; [apply Permutation_sym; exact Pm|auto].
  - intros i Li Vi. destruct (W3 i Li Vi) as (k & Hk & Ik). exists k. split; auto. destruct (Nat.eqb_spec k l) as [->|_]; auto.
    rewrite Rl in Ik. eapply Permutation_in; eauto.
  - assert (E : forall a, ~ In l a -> map (fun k => if Nat.eqb k l then x :: l2 ++ l1 else R k) a = map R a).
    { intros a Hna. apply map_ext_in. intros k Hk. destruct (Nat.eqb_spec k l) as [->|]; [contradiction|auto]. }
    rewrite Ha in W1, WF |- *. assert (N := NoDup_remove_2 _ _ _ W1). rewrite in_app_iff in N.
    rewrite map_app in *. cbn [map] in *. rewrite Nat.eqb_refl, !E by tauto. rewrite Rl in WF.
    eapply Permutation_trans; [apply Permutation_sym, Permutation_middle|]. constructor.
    apply Permutation_cons_inv with (a := ids). eapply Permutation_trans; [apply Permutation_middle|exact WF].
Qed.

Lemma start_ring (c : list (@edge2 A)) rest st i : skeleton_start (c :: rest) = Ok st -> i + 3 < length c -> 4 < length c ->
  exists ids G, ids <> [] /\ woven (lo_slav st) ((i :: i + 1 :: i + 2 :: i + 3 :: ids) :: G) /\ length c <= length (s_vs (lo_slav st)).
Proof.
  intros Hst Hi H4. destruct (start_inv Hst) as (Hin & _).
  assert (Hne : forall c', In c' (c :: rest) -> c' <> []).
  { intros c' Hc' ->. rewrite init_slav_err in Hin; [discriminate Hin|]. exists []. auto. }
  pose proof (start_woven Hne Hst) as W. cbn [length seq map] in W.
  change (contour_ids (c :: rest) 0) with (seq 0 (length c)) in W.
  replace (length c) with (i + (4 + (length c - i - 4))) in W at 1 by lia. rewrite seq_app in W. cbn [seq Nat.add] in W.
  apply woven_rot in W. cbn [app] in W.
  eexists _, _. split; [|split].
  2: { replace (i + 1) with (S i) by lia. replace (i + 2) with (S (S i)) by lia. replace (i + 3) with (S (S (S i))) by lia. exact W. }
  - destruct (length c - i - 4) eqn:E; [|discriminate]. destruct i; [lia|]. discriminate.
  - destruct (init_slav_ok Hne) as (s & K & (W1 & _) & _). rewrite Hin in K. apply Ok_inj in K. subst s.
    rewrite W1. cbn [concat]. rewrite app_length. lia.
Qed.

Lemma start_fails (c : list (@edge2 A)) rest st d dp i dn de ipe va vb : skeleton_start (c :: rest) = Ok st -> i + 3 < length c -> 4 < length c ->
  line_intersect (v_bis (getv (s_vs (lo_slav st)) i)) (v_bis (getv (s_vs (lo_slav st)) (i + 3))) = None ->
  handle_event (lo_slav st) (DormerEv d dp i dn (i + 3) de ipe va vb) = Err TypeError.
Proof. intros Hst Hi H4 Hp. destruct (start_ring Hst Hi H4) as (ids & G & N & W & _). eapply dormer_fails; eauto. Qed.
End None.

(** ** the bisectors of the inner corners *)
Local Open Scope R_scope.

Lemma bisectors_meet (P u : vec RA) w l r : vx u * vx u + vy u * vy u = 1 ->
  line_intersect (A := RA) (Ray2 P (rvec (vx u - vy u) (vy u + vx u))) (Ray2 (moved P u w (r - l)) (rvec (- vx u - vy u) (vx u - vy u))) =
  if Rle_dec (Rabs (l - r)) w then Some (valley P u w l r) else None.
Proof.
  intros Hu. unfold line_intersect, Ray2, intsecttest, ngeb, zeroN, mkvec, valley, moved, rvec. destruct P as [px py], u as [ux uy].
  cbn [lv lp l_is_ray vx vy rnd nmul nsub nadd ndiv nleb neqb lit RA] in *.
  set (d := (ux - uy) * (ux - uy) - (- ux - uy) * (uy + ux)).
  assert (Hd : d = 2) by (unfold d; nra).
  set (ua := ((- ux - uy) * (py - (py + w * uy + (r - l) * ux)) - (ux - uy) * (px - (px + w * ux - (r - l) * uy))) / d).
  set (ub := ((ux - uy) * (py - (py + w * uy + (r - l) * ux)) - (uy + ux) * (px - (px + w * ux - (r - l) * uy))) / d).
  assert (Ha : ua = (w + r - l) / 2).
  { unfold ua. rewrite Hd. transitivity ((w + r - l) * (ux * ux + uy * uy) / 2); [field|rewrite Hu; field]. }
  assert (Hb : ub = (w - r + l) / 2).
  { unfold ub. rewrite Hd. transitivity ((w - r + l) * (ux * ux + uy * uy) / 2); [field|rewrite Hu; field]. }
  rewrite Ha, Hb, Hd.
  replace (Reqb 2 (0 / 1)) with false by (symmetry; apply Reqb_neq; lra).
  destruct (Rle_dec (Rabs (l - r)) w) as [H|H].
  - assert (K : - w <= l - r <= w) by (unfold Rabs in H; destruct (Rcase_abs (l - r)); lra).
    replace (Rleb (0 / 1) ((w + r - l) / 2)) with true by (symmetry; apply Rleb_le; lra).
    replace (Rleb (0 / 1) ((w - r + l) / 2)) with true by (symmetry; apply Rleb_le; lra).
    cbn [negb]. apply f_equal. apply (f_equal2 (V2 (A := RA))); change (num RA) with R; field.
  - assert (K : l - r < - w \/ w < l - r) by (unfold Rabs in H; destruct (Rcase_abs (l - r)); lra).
    destruct (Rleb_spec (0 / 1) ((w + r - l) / 2)); [|reflexivity]. cbn [negb].
    destruct (Rleb_spec (0 / 1) ((w - r + l) / 2)); [exfalso; lra|reflexivity].
Qed.

Lemma start_corner (c : list (@edge2 RA)) rest s0 i e1 e2 : init_slav (c :: rest) = Ok s0 -> (i < length c)%nat ->
  edge_at c (i + length c - 1) = Some e1 -> edge_at c i = Some e2 ->
  (i < length (s_vs s0))%nat /\ body_kept (getv (s_vs s0) i) (mk_vertex 0 (ep1 e2) e1 e2 None false).
Proof.
  intros Hin Hi H1 H2.
  assert (Hne : forall c', In c' (c :: rest) -> c' <> []).
  { intros c' Hc' ->. rewrite init_slav_err in Hin; [discriminate Hin|]. exists []. auto. }
  destruct (init_slav_ok Hne) as (s & K & W & _). rewrite Hin in K. apply Ok_inj in K. subst s.
  destruct W as (W1 & W2 & W3 & W4). destruct (W4 0%nat c eq_refl) as (_ & pns & Hp & Hb).
  split; [rewrite W1; cbn [concat]; rewrite app_length; lia|].
  destruct (circ_prev_next_spec c) as (_ & Hs). destruct (Hs (Hne c (or_introl eq_refl))) as (pn & Hpn & Hlen & Hnth).
  assert (pn = pns) by congruence. subst pn. destruct (Hnth i Hi) as (f1 & f2 & N1 & N2 & N3).
  unfold edge_at in H1, H2. rewrite Nat.mod_small in H2 by auto. rewrite N1 in H1. rewrite N2 in H2.
  injection H1 as <-. injection H2 as <-.
  destruct (Hb _ _ N3) as (_ & _ & Bd). change (offset (c :: rest) 0 + i)%nat with i in Bd.
  destruct Bd as (S1 & S2 & S3 & S4 & S5 & S6 & S7). simpl in S1, S2, S3, S6, S7. repeat split; auto.
Qed.

Section Corners.
Variables (c : list (@edge2 RA)) (rest : list (list (@edge2 RA))) (s0 s : @slav RA).
Hypothesis Hst : init_slav (c :: rest) = Ok s0.
Hypothesis Hk : forall i, (i < length (s_vs s0))%nat -> v_bis (getv (s_vs s) i) = v_bis (getv (s_vs s0) i).
Variables (i : nat) (u : vec RA) (w l r : R).
Hypothesis Hs : (i + 3 < length c)%nat.
Hypothesis Hd : right_dormer c i u w l r.

Lemma dormer_meet side1 : edge_at c i = Some side1 ->
  line_intersect (v_bis (getv (s_vs s) i)) (v_bis (getv (s_vs s) (i + 3))) =
  if Rle_dec (Rabs (l - r)) w then Some (valley (ep1 side1) u w l r) else None.
Proof.
  intros F. destruct Hd as (Hu & Hw & Hl & Hrr & before & side1' & base & side2 & after & E0 & E1 & E2 & E3 & E4 & N0 & N1 & N3 & N4 & P0 & _ & P1 & _ & _ & _ & _ & P4 & _).
  assert (side1' = side1) by congruence. subst side1'.
  destruct (@start_corner c rest s0 i before side1) as (L1 & B1); auto; [lia|].
  destruct (@start_corner c rest s0 (i + 3) side2 after) as (L2 & B2); auto.
  { unfold edge_at in *. replace (i + 3 + length c - 1)%nat with (i + 2 + 1 * length c)%nat by lia. rewrite Nat.mod_add by lia. auto. }
  destruct B1 as (_ & _ & _ & _ & B1). destruct B2 as (_ & _ & _ & _ & B2).
  rewrite (Hk L1), (Hk L2), B1, B2. unfold mk_vertex. cbv zeta. cbn [v_bis]. rewrite N0, N1, N3, N4, P4.
  assert (C1 : ngtb (vcross (vscale u (lit (a := RA) (-1) 1)) (rvec (vy u) (- vx u))) zeroN = true).
  { apply Rltb_lt. unfold vcross, vscale, mkvec, rvec, zeroN. cbn [vx vy rnd nmul nsub lit RA]. lra. }
  assert (C2 : ngtb (vcross (vscale (rvec (- vy u) (vx u)) (lit (a := RA) (-1) 1)) u) zeroN = true).
  { apply Rltb_lt. unfold vcross, vscale, mkvec, rvec, zeroN. cbn [vx vy rnd nmul nsub lit RA]. lra. }
  rewrite C1, C2. rewrite <- (bisectors_meet (ep1 side1) w l r Hu).
  f_equal; f_equal; unfold vadd, vscale, mkvec, rvec; cbn [vx vy rnd nmul nadd lit RA]; f_equal; lra.
Qed.
End Corners.

(** ** how far the valley is from the walls *)
Lemma edge_dist_moved (P u : vec RA) (e : @edge2 RA) a b len ux uy x y :
  vx u * vx u + vy u * vy u = 1 -> ux * ux + uy * uy = 1 -> 0 < len ->
  ep1 e = moved P u a b -> ep2 e = moved P u (a + len * ux) (b + len * uy) ->
  edge_dist e (moved P u x y) = ux * (y - b) - uy * (x - a).
Proof.
  intros Hu Hv Hl E1 E2. unfold edge_dist, signed_dist. rewrite E1, E2.
  assert (D : euclid_dist (moved P u a b) (moved P u (a + len * ux) (b + len * uy)) = len).
  { unfold euclid_dist, moved, rvec, Rsqr. cbn [vx vy]. transitivity (sqrt (len * len)); [|apply sqrt_square; lra]. f_equal.
    transitivity (len * len * (vx u * vx u + vy u * vy u) * (ux * ux + uy * uy)); [ring|rewrite Hu, Hv; ring]. }
  rewrite D. unfold orient, moved, rvec. cbn [vx vy].
  transitivity (len * (ux * (y - b) - uy * (x - a)) * (vx u * vx u + vy u * vy u) / len); [field; lra|rewrite Hu; field; lra].
Qed.

Lemma valley_distances (c : list (@edge2 RA)) i u w l r before side1 side2 after : right_dormer c i u w l r ->
  dormer_walls c i before side1 side2 after ->
  let p := valley (ep1 side1) u w l r in
  edge_dist before p = (w + r - l) / 2 /\ edge_dist side1 p = (w + r - l) / 2 /\
  edge_dist side2 p = (w + l - r) / 2 /\ edge_dist after p = (w + l - r) / 2.
Proof.
  intros (Hu & Hw & Hl & Hrr & b' & s1 & base & s2 & a' & E0 & E1 & E2 & E3 & E4 & N0 & N1 & N3 & N4 & P0 & (k0 & K0 & P0') & P1 & P2 & P3 & P4 & P5 & P6 & (k4 & K4 & P7)) (W0 & W1 & W3 & W4).
  assert (b' = before) by congruence. assert (s1 = side1) by congruence. assert (s2 = side2) by congruence. assert (a' = after) by congruence. subst b' s1 s2 a'.
  assert (M0 : ep1 side1 = moved (ep1 side1) u 0 0) by (unfold moved, rvec; destruct (ep1 side1) as [x y]; cbn [vx vy]; f_equal; change (num RA) with R in *; ring).
  cbv zeta. unfold valley. repeat split.
  - rewrite (@edge_dist_moved (ep1 side1) u before (- k0) 0 k0 1 0); auto; try lra. rewrite P0. rewrite M0 at 1. f_equal; ring.
  - rewrite (@edge_dist_moved (ep1 side1) u side1 0 0 l 0 (-1)); auto; try lra. rewrite P1. f_equal; ring.
  - rewrite (@edge_dist_moved (ep1 side1) u side2 w (- l) r 0 1); auto; try lra. rewrite P5. f_equal; ring.
  - rewrite (@edge_dist_moved (ep1 side1) u after w (r - l) k4 1 0); auto; try lra. rewrite P7. f_equal; ring.
Qed.

(** ** the event *)
Lemma dormer_event_gen (c : list (@edge2 RA)) rest s0 s i u w l r side1 d dp dn de ipe va vb a b ids G :
  init_slav (c :: rest) = Ok s0 ->
  (forall j, (j < length (s_vs s0))%nat -> v_bis (getv (s_vs s) j) = v_bis (getv (s_vs s0) j)) ->
  (i + 3 < length c)%nat -> right_dormer c i u w l r -> edge_at c i = Some side1 ->
  woven s ((i :: a :: b :: (i + 3)%nat :: ids) :: G) -> ids <> [] -> (va < length (s_vs s))%nat -> (vb < length (s_vs s))%nat ->
  let e := DormerEv d dp i dn (i + 3) de ipe va vb in
  let p := valley (ep1 side1) u w l r in
  (w < Rabs (l - r) -> handle_event s e = Err TypeError) /\
  (Rabs (l - r) <= w -> exists s',
     handle_event s e = Ok (s', [Subtree ipe de [spot s va; spot s vb; p]; Subtree p (ndiv (nadd dp dn) twoN) [spot s i; spot s (i + 3)]], []) /\
     woven s' (ids :: G)).
Proof.
  intros Hi Hk Hl Hd H1 W Hne La Lb. pose proof (dormer_meet Hi Hk Hl Hd H1) as M. cbv zeta. split; intros H.
  - eapply dormer_fails; eauto. rewrite M. destruct (Rle_dec (Rabs (l - r)) w); [lra|reflexivity].
  - destruct (Rle_dec (Rabs (l - r)) w) as [K|K]; [|lra].
    destruct (dormer_effect d dp dn de ipe W Hne La Lb M) as (s' & E1 & E2 & _). exists s'. auto.
Qed.

Lemma dormer_event (c : list (@edge2 RA)) rest s0 s i u w l r side1 d dp dn de ipe va vb a b ids G :
  init_slav (c :: rest) = Ok s0 -> keeps s0 s ->
  (i + 3 < length c)%nat -> right_dormer c i u w l r -> edge_at c i = Some side1 ->
  woven s ((i :: a :: b :: (i + 3)%nat :: ids) :: G) -> ids <> [] -> (va < length (s_vs s))%nat -> (vb < length (s_vs s))%nat ->
  let e := DormerEv d dp i dn (i + 3) de ipe va vb in
  let p := valley (ep1 side1) u w l r in
  (w < Rabs (l - r) -> handle_event s e = Err TypeError) /\
  (Rabs (l - r) <= w -> exists s',
     handle_event s e = Ok (s', [Subtree ipe de [spot s va; spot s vb; p]; Subtree p (ndiv (nadd dp dn) twoN) [spot s i; spot s (i + 3)]], []) /\
     woven s' (ids :: G)).
Proof. intros Hi (_ & _ & Hk). apply (dormer_event_gen (s0 := s0) (rest := rest)); auto. intros j Hj. apply Hk, Hj. Qed.

Lemma valley_equal (c : list (@edge2 RA)) i u w l r before side1 side2 after : right_dormer c i u w l r ->
  dormer_walls c i before side1 side2 after ->
  let p := valley (ep1 side1) u w l r in
  (edge_dist before p = (w + r - l) / 2 /\ edge_dist side1 p = (w + r - l) / 2 /\
   edge_dist side2 p = (w + l - r) / 2 /\ edge_dist after p = (w + l - r) / 2) /\
  (edge_dist before p = edge_dist after p <-> l = r).
Proof.
  intros Hd Hw p. destruct (valley_distances Hd Hw) as (D1 & D2 & D3 & D4). fold p in D1, D2, D3, D4. split; auto. rewrite D1, D4. split; lra.
Qed.
