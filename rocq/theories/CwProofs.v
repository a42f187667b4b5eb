(** * CwProofs: the wavefront of a convex footprint listed clockwise does nothing (C61) *)

From Coq Require Import Reals Lra.
From Verif Require Import Py PyFacts Arith ArithR Euclid Heapq Lav LavSpec LavNext LavWf LavInit LavGrow LavWalk PolyProofs Cluster ClusterSpec GeoSpec GeoLines BisSpec BisProofs BisLoop BisStart
  PatSpec PatProofs SplitSpec SplitProofs ConvexSpec ConvexGeo ConvexPost CwSpec CwGeo.
Set Implicit Arguments.
Unset Strict Implicit.
Local Open Scope nat_scope.

Lemma rllr_no_left l pos : (forall t, In t l -> t <> TL) -> rllr_matches pos l = [].
Proof.
  revert pos. induction l as [|t l IH]; intros pos H; cbn [rllr_matches]; auto.
  rewrite IH by (intros x Hx; apply H; right; auto).
  destruct t; auto. destruct l as [|t2 l]; auto. destruct t2; auto. exfalso; apply (H TL); [right; left; auto|auto].
Qed.

Section Cw.
Variable c : list (@edge2 RA).
Hypothesis Hc : clockwise_contour c.
Hypothesis Hfair : forall e1 e2, consecutive c e1 e2 -> fair_corner c e1 e2.
Let n := length c.
Let n3 : 3 <= n := cw_pos Hc.
Let Hcl : forall d, In d [c] -> closed_contour d.
Proof. intros d [<-|[]]. apply Hc. Qed.
Let Hne : c <> [].
Proof. apply (proj1 (proj1 Hc)). Qed.

Lemma cw_consecutive e1 e2 : consecutive c e1 e2 -> exists i, edge_at c i = Some e1 /\ edge_at c (S i) = Some e2.
Proof.
  intros (j & Hj & H1 & H2). fold n in Hj, H1. exists (j + n - 1). unfold edge_at. fold n. split; auto.
  replace (S (j + n - 1)) with (j + 1 * n) by lia. rewrite Nat.mod_add by lia. rewrite Nat.mod_small by lia. auto.
Qed.

(** the other edges, counted from a corner *)
Lemma other_edge i e1 e2 e : edge_at c i = Some e1 -> edge_at c (S i) = Some e2 -> In e c -> e <> e1 -> e <> e2 ->
  exists k, 2 <= k /\ k < n /\ edge_at c (i + k) = Some e.
Proof.
  intros E1 E2 Hin N1 N2. apply In_nth_error in Hin as (j & Hj). assert (Lj : j < n) by (apply nth_error_Some; congruence).
  pose proof (Nat.mod_upper_bound i n ltac:(lia)) as Li. pose proof (Nat.div_mod i n ltac:(lia)) as Di.
  set (k := (j + (n - i mod n)) mod n).
  assert (Ek : edge_at c (i + k) = Some e).
  { unfold edge_at. fold n. unfold k. rewrite Nat.add_mod_idemp_r by lia. replace (i + (j + (n - i mod n))) with (j + (i / n + 1) * n).
    - rewrite Nat.mod_add by lia. rewrite Nat.mod_small; auto.
    - rewrite (Nat.mul_comm n) in Di. rewrite Nat.mul_add_distr_r. lia. }
  assert (Lk : k < n) by (apply Nat.mod_upper_bound; lia). exists k. split; auto.
  destruct k as [|[|k]]; [|rewrite Nat.add_1_r in Ek|]; [rewrite Nat.add_0_r in Ek; congruence|congruence|lia].
Qed.

Lemma cw_dormers : detectDormers [c] = Ok [].
Proof.
  unfold detectDormers. change (py_get [c] 0) with (Ok c). cbn [bind]. unfold turn_sequence.
  destruct (circ_prev_next_spec c) as (_ & Hs). destruct (Hs Hne) as (pn & Hpn & Hlen & Hnth). rewrite Hpn. cbn [bind].
  set (sq := map _ pn).
  assert (Hsq : forall t, In t sq -> t <> TL).
  { intros t Ht. unfold sq in Ht. apply in_map_iff in Ht as ((e1 & e2) & <- & Hin). cbn [fst snd].
    apply In_nth_error in Hin as (j & Hj).
    assert (Hlt : j < length c) by (rewrite <- Hlen; apply nth_error_Some; congruence).
    destruct (Hnth j Hlt) as (e1' & e2' & N1 & N2 & N3). rewrite Hj in N3. injection N3 as <- <-.
    destruct (@cw_consecutive e1 e2) as (i & I1 & I2); [exists j; auto|]. pose proof (cw_right Hc I1 I2) as K.
    unfold coder. match goal with |- context [ngtb ?a ?b] => destruct (ngtb a b) eqn:Eb end.
    - rewrite vcross_R in Eb. unfold ngtb in Eb. cbn [RA nltb lit] in Eb. apply Rltb_lt in Eb. unfold ncross in K. exfalso. simpl in *. lra.
    - destruct (nltb _ _); discriminate. }
  rewrite rllr_no_left by (intros t Ht; apply in_app_iff in Ht as [Ht|Ht]; auto).
  change (filter_overlapping (map (dormer_index (length sq)) (dormer_starts (length sq) 0 []))) with (@nil (list nat)).
  destruct (Nat.eqb _ _); reflexivity.
Qed.

Section Start.
Variable s : @slav RA.
Hypothesis Hinit : init_slav [c] = Ok s.
Let W : wavefront_of [c] s.
Proof. destruct (init_slav_ok (fun d Hd => proj1 (Hcl Hd))) as (s' & Hi' & H & _). rewrite Hinit in Hi'. apply Ok_inj in Hi'. subst s'. exact H. Qed.

Lemma cw_vertex i : i < n -> exists e1 e2, edge_at c (i + n - 1) = Some e1 /\ edge_at c i = Some e2 /\
  body_kept (getv (s_vs s) i) (corner e1 e2) /\ v_next (getv (s_vs s) i) = S i mod n /\ v_prev (getv (s_vs s) i) = (i + n - 1) mod n.
Proof.
  intros Hi. destruct W as (_ & _ & _ & W4). destruct (W4 0 c eq_refl) as (_ & pns & Hp & Hb).
  destruct (circ_prev_next_spec c) as (_ & Hs). destruct (Hs Hne) as (pn & Hpn & Hlen & Hnth).
  assert (pn = pns) by congruence. subst pn. destruct (Hnth i Hi) as (e1 & e2 & N1 & N2 & N3).
  destruct (Hb i _ N3) as (B1 & B2 & B3). unfold offset in B1, B2, B3. cbn [firstn concat length Nat.add fst snd] in B1, B2, B3.
  exists e1, e2. unfold edge_at. fold n in B1, B2, N1 |- *. rewrite (Nat.mod_small i) by auto. split; auto. split; auto. split; [|split].
  - destruct B3 as (S1 & S2 & S3 & S4 & S5 & S6 & S7). cbn [with_lav v_bis v_point v_eprev v_enext v_reflex] in *. unfold corner. repeat split; first [exact S1|exact S2|exact S3|exact S4|exact S5|exact S6|exact S7].
  - change (v_next (getv (s_vs s) i)) with (nxt_of (s_vs s) i). rewrite B1. destruct (Nat.eqb_spec (S i) n) as [->|K]; [rewrite Nat.mod_same; lia|rewrite Nat.mod_small; lia].
  - change (v_prev (getv (s_vs s) i)) with (prv_of (s_vs s) i). rewrite B2. destruct (Nat.eqb_spec i 0) as [->|K]; [rewrite Nat.mod_small; lia|].
    replace (i + n - 1) with (i - 1 + 1 * n) by lia. rewrite Nat.mod_add, Nat.mod_small; lia.
Qed.

Local Open Scope R_scope.

(** on the bisector of a vertex both edges have the same distance, on the outside *)
Lemma cw_bisector i e1 e2 q v : edge_at c i = Some e1 -> edge_at c (S i) = Some e2 -> body_kept v (corner e1 e2) -> on_lin (v_bis v) q ->
  0 <= ndist e1 q /\ ndist e1 q = ndist e2 q.
Proof.
  intros E1 E2 (B1 & B2 & B3 & B4 & B5) Hq. rewrite B5 in Hq. pose proof (cw_directed Hc E1) as D1. pose proof (cw_directed Hc E2) as D2. pose proof (cw_succ Hc E1 E2) as J.
  split; [apply (reflex_front D1 D2 J (cw_right Hc E1 E2) Hq)|]. pose proof (equi_on (corner_equi D1 D2 J) Hq) as K. exact K.
Qed.

Lemma cw_apart i k e1 e2 e q : (2 <= k)%nat -> (k < n)%nat -> edge_at c i = Some e1 -> edge_at c (S i) = Some e2 -> edge_at c (i + k) = Some e ->
  0 <= ndist e1 q -> ndist e1 q = ndist e2 q -> ndist e q < ndist e1 q.
Proof.
  intros H2 Hk E1 E2 E Hh Heq. destruct (cw_farther Hc H2 Hk E1 E2 E Hh eq_refl (eq_sym Heq)) as (K & L & M).
  rewrite K. pose proof (Rmult_le_pos _ _ Hh (Rlt_le _ _ L)). lra.
Qed.

(** neighbouring bisectors do not meet *)
Lemma cw_no_edge i j p : (i < n)%nat -> (j < n)%nat -> j = (S i mod n)%nat -> on_lin (v_bis (getv (s_vs s) i)) p -> on_lin (v_bis (getv (s_vs s) j)) p -> False.
Proof.
  intros Hi Hj Hij P1 P2. destruct (cw_vertex Hi) as (e1 & e2 & E1 & E2 & B & _). destruct (cw_vertex Hj) as (f1 & f2 & F1 & F2 & B' & _).
  assert (E2' : edge_at c (S (i + n - 1)) = Some e2).
  { replace (S (i + n - 1)) with (i + 1 * n)%nat by lia. unfold edge_at in E2 |- *. fold n in E2 |- *. rewrite Nat.mod_add by lia. auto. }
  assert (F2' : edge_at c (i + n - 1 + 2) = Some f2).
  { replace (i + n - 1 + 2)%nat with (S i + 1 * n)%nat by lia. unfold edge_at in F2 |- *. fold n in F2 |- *. rewrite Nat.mod_add by lia. rewrite <- Hij. rewrite Nat.mod_small in F2 by auto. auto. }
  assert (F1' : f1 = e2).
  { assert (Some f1 = Some e2) by (rewrite <- F1, <- E2; unfold edge_at; fold n; f_equal; rewrite Hij; replace (S i) with (i + 1)%nat by lia; apply pred_succ; lia). congruence. }
  subst f1. destruct (cw_bisector E1 E2' B P1) as [Q1 Q2].
  assert (F3 : edge_at c (S i) = Some f2) by (unfold edge_at in F2 |- *; fold n in F2 |- *; rewrite <- Hij; rewrite Nat.mod_small in F2 by auto; auto).
  destruct (cw_bisector E2 F3 B' P2) as [Q3 Q4].
  pose proof (@cw_apart (i + n - 1) 2 e1 e2 f2 p ltac:(lia) ltac:(lia) E1 E2' F2' Q1 Q2). lra.
Qed.

(** no corner meets an edge *)
Lemma cw_no_split i oe ev : (i < n)%nat -> In oe (s_orig s) -> split_candidate i (getv (s_vs s) i) oe = Some ev -> False.
Proof.
  intros Hi Hoe Hs. destruct (cw_vertex Hi) as (e1 & e2 & E1 & E2 & B & _).
  assert (E2' : edge_at c (S (i + n - 1)) = Some e2).
  { replace (S (i + n - 1)) with (i + 1 * n)%nat by lia. unfold edge_at in E2 |- *. fold n in E2 |- *. rewrite Nat.mod_add by lia. auto. }
  pose proof (cw_directed Hc E1) as D1. pose proof (cw_directed Hc E2) as D2. pose proof (cw_succ Hc E1 E2') as J. pose proof (cw_right Hc E1 E2') as X.
  assert (Hcon : consecutive c e1 e2) by (exists i; split; auto; split; auto; unfold edge_at in E2; fold n in E2; rewrite Nat.mod_small in E2; auto).
  destruct (@edge_of_orig _ Hcl _ Hinit _ Hoe) as (c' & e0 & e3 & [<-|[]] & (j & _ & _ & Nj & _) & _ & _). apply nth_error_In in Nj.
  assert (De : directed (oe_edge oe)) by (apply Hc; auto).
  assert (Ev : equi (getv (s_vs s) i)) by (eapply equi_kept; [exact B|apply (corner_equi D1 D2 J)]).
  pose proof B as (B1 & B2 & B3 & B4 & B5). set (v := getv (s_vs s) i) in *. assert (Hv1 : v_eprev v = e1) by (rewrite B2; reflexivity). assert (Hv2 : v_enext v = e2) by (rewrite B3; reflexivity).
  assert (Hp : v_point v = ep1 e2) by (rewrite B1; reflexivity).
  assert (Hr : v_reflex v = true) by (rewrite B4; apply corner_reflex; exact X).
  assert (H0 : ndist (v_eprev v) (v_point v) = 0) by (rewrite Hp, Hv1, <- J, <- edge_dist_n by auto; apply edge_dist_end2).
  assert (Hoth : same_edge (oe_edge oe) e1 = false -> same_edge (oe_edge oe) e2 = false -> exists k, (2 <= k)%nat /\ (k < n)%nat /\ edge_at c (i + n - 1 + k) = Some (oe_edge oe)).
  { intros S1 S2. apply other_edge with e1 e2; auto; intros K; rewrite K in *; unfold same_edge in *; rewrite Nat.eqb_refl in *; discriminate. }
  destruct (split_tests Hs) as (b' & T1 & _ & Hon). destruct (cw_bisector E1 E2' B Hon) as [Q1 Q2].
  destruct (Hfair Hcon) as [Hpl|[Hap Hturn]].
  - destruct Hpl as [P1 P2]; [rewrite turn_sine_n; auto|]. rewrite turn_sine_n in P1 by auto.
    edestruct (@split_point i v oe) with (E := c) as (b & T2 & R1 & R2 & R3 & R4); [exact Ev|exact Hr|exact H0|exact De|exact Nj| | |exact Hs|].
    + rewrite Hv1, Hv2. auto.
    + rewrite Hv1, Hv2, Hp. apply P2.
    + rewrite T2 in T1. injection T1 as _ Eb. subst b'. rewrite Hv1, Hv2 in *. destruct (Hoth R3 R4) as (k & K1 & K2 & K3).
      pose proof (cw_apart K1 K2 E1 E2' K3 Q1 Q2). lra.
  - edestruct (@split_near i v oe) with (E := c) (r := 1 / 10) as (b & T2 & R1 & (L & M & HL & HM & R2) & R3 & R4); [exact Ev|exact Hr|exact H0|exact De|exact Nj| |lra| |exact Hs|].
    + rewrite Hv1, Hv2. auto.
    + rewrite Hv1, Hv2, Hp. apply Hap.
    + rewrite T2 in T1. injection T1 as _ Eb. subst b'. rewrite Hv1, Hv2 in *. destruct (Hoth R3 R4) as (k & K1 & K2 & K3).
      pose proof (cw_apart K1 K2 E1 E2' K3 Q1 Q2) as Hlt. set (e := oe_edge oe) in *. destruct R2 as [R2|R2]; [lra|].
      destruct (cw_farther Hc K1 K2 E1 E2' K3 Q1 eq_refl (eq_sym Q2)) as (G1 & G2 & G3).
      set (x := ncross (enorm e1) (enorm e2)) in *.
      set (q := rvec (vx (ep1 e2) + (vx (enorm e2) - vx (enorm e1)) / x) (vy (ep1 e2) + (vy (enorm e2) - vy (enorm e1)) / x)).
      assert (Z1 : ndist e1 (ep1 e2) = 0) by (rewrite Hp in H0; auto).
      assert (A1 : ndist e1 q = 1).
      { assert (ndist e1 q = ndist e1 (ep1 e2) + x / x); [|rewrite H, Z1; field; lra].
        unfold ndist, q, rvec, x, ncross in *. cbn [vx vy]. change (num RA) with R in *. field. lra. }
      assert (A2 : ndist e2 q = 1).
      { unfold ndist, q, rvec, x, ncross in *. cbn [vx vy]. change (num RA) with R in *. field. lra. }
      destruct (@cw_farther c Hc (i + n - 1) k e1 e2 e q 1 K1 K2 E1 E2' K3 ltac:(lra) A1 A2) as (G4 & _).
      assert (G5 : ndist e q <= ndist e (ep1 e2) + 5 / 6).
      { rewrite <- !edge_dist_n by auto. apply Hturn; auto; try (rewrite edge_dist_n by auto; auto);
          intros K; rewrite K in *; unfold same_edge in *; rewrite Nat.eqb_refl in *; discriminate. }
      set (h := ndist e1 b) in *. set (y := ndist e b) in *. set (l := lag e1 e2 e) in *. set (z := ndist e (ep1 e2)) in *. clearbody h y l z.
      assert (G6 : h * (1 - l) <= h * (5 / 6)) by (apply Rmult_le_compat_l; lra).
      assert (G7 : y < 5 / 6 * h) by lra.
      assert (G8 : 0 <= h) by lra. assert (HM' : M + 1 / 100 <= L + 2 / 100) by lra. assert (HL' : 0 < L) by lra.
      assert (y0 : 0 <= y). { apply Rmult_le_reg_l with (M + 1 / 100); [lra|]. rewrite Rmult_0_r, <- R2. apply Rmult_le_pos; lra. }
      assert (G9 : L * h <= (L + 2 / 100) * y) by (rewrite R2; apply Rmult_le_compat_r; auto).
      assert (G10 : (L + 2 / 100) * y <= L * (6 / 5) * y) by (apply Rmult_le_compat_r; lra).
      assert (G11 : L * h <= L * (6 / 5 * y)) by lra. apply Rmult_le_reg_l in G11; auto. lra.
Qed.

Local Open Scope nat_scope.
Lemma cw_silent i : i < n -> next_event s i = Ok None.
Proof.
  intros Hi. assert (Hlen : length (s_vs s) = n) by (destruct W as (-> & _); cbn [concat]; rewrite app_nil_r; auto).
  destruct (@next_event_candidate _ s i (fun _ => @in_a_lav _ Hcl _ Hinit i ltac:(lia))) as (o & Ho & Hnone & _). rewrite Ho. f_equal. apply Hnone.
  destruct (cw_vertex Hi) as (_ & _ & _ & _ & _ & Hn & Hp).
  intros e K. destruct K as [p v Hx|p v Hx|oe e Hr Hoe Hs].
  - unfold v in Hx. rewrite Hp in Hx. apply line_intersect_R in Hx as (_ & O1 & O2).
    assert (Hl : (i + n - 1) mod n < n) by (apply Nat.mod_upper_bound; lia).
    apply (@cw_no_edge ((i + n - 1) mod n) i p); auto.
    rewrite <- Nat.add_1_r. rewrite Nat.add_mod_idemp_l by lia. replace (i + n - 1 + 1) with (i + 1 * n) by lia. rewrite Nat.mod_add, Nat.mod_small; lia.
  - unfold v in Hx. rewrite Hn in Hx. apply line_intersect_R in Hx as (_ & O1 & O2).
    assert (Hl : S i mod n < n) by (apply Nat.mod_upper_bound; lia). apply (@cw_no_edge i (S i mod n) p); auto.
  - exact (cw_no_split Hi Hoe Hs).
Qed.
End Start.

Theorem cw_start : exists s, skeleton_start [c] = Ok (Loop s [] []).
Proof.
  destruct (init_slav_ok (fun d Hd => proj1 (Hcl Hd))) as (s & Hi & W & _). exists s. unfold skeleton_start. rewrite Hi, cw_dormers. cbn [bind].
  unfold initial_events. rewrite (chain_wavefront W) by (intros d Hd; apply (Hcl Hd)). cbn [bind].
  assert (G : forall ids, (forall i, In i ids -> i < n) -> mapM (next_event s) ids = Ok (map (fun _ => None) ids)).
  { induction ids as [|i ids IH]; intros H; [reflexivity|]. cbn [mapM map]. rewrite (cw_silent Hi (H i (or_introl eq_refl))). cbn [bind]. rewrite IH; auto. intros; apply H; right; auto. }
  rewrite G.
  - cbn [bind]. f_equal. f_equal. clear. induction (seq 0 _) as [|x l IH]; auto.
  - intros i Hin. apply in_seq in Hin. cbn [concat] in Hin. rewrite app_nil_r in Hin. fold n in Hin. lia.
Qed.

(** circles can be fitted *)
Lemma cw_apses : exists a, detectApses c = Ok a.
Proof.
  destruct (detectApses_spec Hne) as (rs & _ & Hrs & _ & H0 & H1). destruct rs as [|r rs']; [rewrite H0; eauto|].
  specialize (H1 ltac:(discriminate)). destruct (detectApses c) as [[cs|]|x]; eauto.
  destruct H1 as ([s e] & pts & Hin & (Hlen & Hpts) & Hfit). apply Hrs in Hin as (S1 & S2 & S3 & S4 & _). cbn [fst snd] in *. exfalso.
  assert (Hn : e - s < length c).
  { destruct (Nat.lt_ge_cases (e - s) (length c)); auto. exfalso. apply S4.
    replace e with ((e - length c) + length c) by lia. apply smooth_add; auto. apply S3. lia. }
  assert (G : forall k, k < e - s -> nth_error pts k = Some (pnt c (s + k))).
  { intros k Hk. destruct (nth_error pts k) as [p|] eqn:Ep; [|apply nth_error_None in Ep; lia].
    destruct (Hpts k p Ep) as (w & Hw & ->). unfold pnt. rewrite Hw. auto. }
  assert (L2 : (e - s) / 2 < e - s) by (apply Nat.div_lt; lia).
  assert (L3 : 0 < (e - s) / 2) by (apply Nat.div_str_pos; lia).
  assert (L4 : (e - s) / 2 < e - s - 1) by (apply Nat.div_lt_upper_bound; lia).
  assert (M : forall i, pnt (map mire c) i = mir (pnt c i)).
  { intros i. destruct (cw_some Hc i) as (f & Hf). rewrite (cw_pnt Hf). unfold pnt. rewrite Hf. auto. }
  destruct (@fitCircle_R pts (pnt c (s + 0)) (pnt c (s + (e - s) / 2)) (pnt c (s + (e - s - 1)))) as [_ F].
  - apply G. lia.
  - rewrite Hlen. apply G. auto.
  - rewrite Hlen. apply G. lia.
  - destruct F as (ctr & R & F & _); [|congruence].
    pose proof (@pnt_orient _ (mirrored Hc) s 0 ((e - s) / 2) (e - s - 1) L3 L4 ltac:(rewrite map_length; lia)) as K. rewrite !M, mir_orient in K. lra.
Qed.

Theorem cw_skeleton fuel : 0 < fuel -> skeletonize fuel [c] = Ok [].
Proof.
  intros Hf. destruct fuel as [|f]; [lia|]. unfold skeletonize, raw_skeleton. destruct cw_start as (s & ->). cbn [bind event_loop lo_queue lo_out].
  unfold mergeNodeClusters. change (merge_same_sources (@nil (@subtree RA))) with (@nil (@subtree RA)). cbn [length merge_loop seq].
  unfold findClusters. change (py_get [c] 0) with (Ok c). cbn [bind]. destruct cw_apses as (a & ->). reflexivity.
Qed.
End Cw.
