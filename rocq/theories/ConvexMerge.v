(** * ConvexMerge: two vertices of the shrinking convex contour meet (geometry for C48) *)

From Coq Require Import Reals Lra Psatz.
From Verif Require Import Py Arith ArithR Euclid Lav ClusterSpec GeoSpec BisSpec BisProofs PatSpec ConvexSpec ConvexGeo ConvexWave.
Set Implicit Arguments.
Unset Strict Implicit.
Open Scope R_scope.

Section Merge.
Variable c : list (@edge2 RA).
Hypothesis Hc : convex_contour c.
Let n := length c.
(** before *)
Variable V : nat -> Prop.
Variable nx : nat -> nat.
Variables ep en : nat -> @edge2 RA.
Variable B : nat -> pt.
(** behind: nv has taken the places of va and vb *)
Variable V' : nat -> Prop.
Variable nx' : nat -> nat.
Variables ep' en' : nat -> @edge2 RA.
Variable B' : nat -> pt.
Variables va vb nv : nat.
Variable X : pt.
Notation N e := (enorm e).

Hypothesis chain : forall v, V v -> V (nx v) /\ ep (nx v) = en v.
Hypothesis big : forall v, V v -> nx v <> v /\ nx (nx v) <> v /\ nx (nx v) <> nx v.
Hypothesis inj : forall u v, V u -> V v -> nx u = nx v -> u = v.
Hypothesis chain' : forall v, V' v -> V' (nx' v) /\ ep' (nx' v) = en' v.
Hypothesis big' : forall v, V' v -> nx' v <> v /\ nx' (nx' v) <> v /\ nx' (nx' v) <> nx' v.
Hypothesis Hva : V va.
Hypothesis Hvb : nx va = vb.
Hypothesis Hnv : ~ V nv.
Hypothesis HV' : forall i, V' i <-> i = nv \/ V i /\ i <> va /\ i <> vb.
Hypothesis Hnx1 : nx' nv = nx vb.
Hypothesis Hnx2 : forall i, V i -> i <> va -> i <> vb -> nx' i = if Nat.eqb (nx i) va then nv else nx i.
Hypothesis Hbody : forall i, V i -> i <> va -> i <> vb -> ep' i = ep i /\ en' i = en i /\ B' i = B i.
Hypothesis Hep : ep' nv = ep va.
Hypothesis Hen : en' nv = en vb.
Hypothesis HB : B' nv = X.

Lemma V_vb : V vb. Proof. rewrite <- Hvb. apply chain; auto. Qed.
Lemma V_nb : V (nx vb). Proof. apply chain, V_vb. Qed.
Lemma nb_ne : nx vb <> va /\ nx vb <> vb.
Proof. destruct (big Hva) as (_ & B2 & B3). rewrite Hvb in *. auto. Qed.
Lemma V'_nv : V' nv. Proof. apply HV'. auto. Qed.
Lemma nx_vb v : V v -> v <> va -> nx v <> vb.
Proof. intros Hv Hne K. apply Hne. apply inj; auto. congruence. Qed.
Lemma V_ne v : V v -> v <> nv.
Proof. intros Hv ->. auto. Qed.

Variable own : nat -> nat.
Hypothesis Hcov : cover c V nx ep en own.
Notation span' := (span c nx ep en own).

Lemma span_same v x m x0 m0 : V v -> span' v x m -> span' v x0 m0 -> m = m0.
Proof.
  intros Hv Hs Hs0. destruct (span_next Hc chain big Hcov Hv Hs) as (r & _ & H1). destruct (span_next Hc chain big Hcov Hv Hs0) as (r0 & _ & H2).
  destruct Hs as (S1 & S2 & S3 & _). destruct Hs0 as (U1 & U2 & U3 & _). pose proof (n_pos Hc) as H3. fold n in H1, H2, H3.
  pose proof (edge_index' Hc S2 U2) as E1. pose proof (edge_index' Hc S3 U3) as E2. fold n in E1, E2.
  assert (G : forall a b p q, (a mod n = b mod n -> (a + p) mod n = (b + q) mod n -> p < n -> q < n -> p <= q -> p = q)%nat).
  { intros a b p q G1 G2 G3 G4 G5.
    rewrite <- (Nat.add_mod_idemp_l a) in G2 by lia. rewrite <- (Nat.add_mod_idemp_l b) in G2 by lia. rewrite G1 in G2.
    pose proof (Nat.mod_upper_bound b n ltac:(lia)) as G6. set (r' := (b mod n)%nat) in *.
    pose proof (Nat.div_mod (r' + p) n ltac:(lia)) as D1. pose proof (Nat.div_mod (r' + q) n ltac:(lia)) as D2.
    rewrite G2 in D1. clear G1 G2. revert D1 D2. generalize ((r' + p) / n)%nat ((r' + q) / n)%nat ((r' + q) mod n)%nat. intros A B0 z D1 D2.
    destruct (Nat.lt_total A B0) as [L|[->|L]]; [|lia|]; exfalso; nia. }
  destruct (Nat.le_ge_cases m m0) as [L|L]; [apply (G x x0)|symmetry; apply (G x0 x)]; auto; lia.
Qed.

Lemma span_covers v x m k : V v -> span' v x m -> own k = v -> exists i, (0 < i <= m)%nat /\ ((x + i) mod n = k mod n)%nat.
Proof.
  intros Hv Hs Hk. pose proof Hcov as (_ & _ & C3). destruct (C3 v Hv) as (x0 & m0 & Hs0 & Hj).
  pose proof (span_same Hv Hs Hs0) as ->. destruct (Hj k Hk) as (j & J1 & J2).
  exists (j - x0)%nat. split; [lia|]. fold n in J2. rewrite <- J2. pose proof (n_pos Hc) as H3. fold n in H3.
  destruct Hs as (_ & S2 & _). destruct Hs0 as (_ & U2 & _). pose proof (edge_index' Hc S2 U2) as E1. fold n in E1.
  rewrite <- (Nat.add_mod_idemp_l x) by lia. rewrite E1, Nat.add_mod_idemp_l by lia. f_equal. lia.
Qed.

Definition own' k := if Nat.eqb (own k) va || Nat.eqb (own k) vb then nv else own k.

Lemma own'_in k : own k = va \/ own k = vb -> own' k = nv.
Proof. unfold own'. intros [->| ->]; rewrite Nat.eqb_refl; auto. rewrite Bool.orb_true_r. auto. Qed.
Lemma own'_out k : own k <> va -> own k <> vb -> own' k = own k.
Proof. unfold own'. intros H1 H2. destruct (Nat.eqb_spec (own k) va); [tauto|]. destruct (Nat.eqb_spec (own k) vb); [tauto|]. auto. Qed.
Lemma own'_nv k : own' k = nv -> own k = va \/ own k = vb.
Proof.
  intros H. destruct (Nat.eq_dec (own k) va); auto. destruct (Nat.eq_dec (own k) vb); auto. rewrite own'_out in H by auto.
  exfalso. apply Hnv. rewrite <- H. apply Hcov.
Qed.

Lemma merge_spans : exists x m m2, span' va x m /\ span' vb (x + m) m2 /\ (m + m2 < n)%nat.
Proof.
  pose proof Hcov as (_ & _ & C3). destruct (C3 va Hva) as (x & m & Hs & _). destruct (span_next Hc chain big Hcov Hva Hs) as (m2 & Hs2 & Hl).
  rewrite Hvb in Hs2. exists x, m, m2. auto.
Qed.

Lemma merge_cover : cover c V' nx' ep' en' own'.
Proof.
  pose proof Hcov as (C1 & C2 & C3). pose proof nb_ne as [Nb1 Nb2]. split; [|split].
  - intros k. apply HV'. destruct (Nat.eq_dec (own k) va); [left; apply own'_in; auto|].
    destruct (Nat.eq_dec (own k) vb); [left; apply own'_in; auto|]. right. rewrite own'_out by auto. auto.
  - intros k. unfold own'. fold n. rewrite C2. auto.
  - intros v Hv. apply HV' in Hv as [->|(Hv & Ha & Hb)].
    + destruct merge_spans as (x & m & m2 & Sa & Sb & Hl). pose proof Sa as (S1 & S2 & S3 & S4 & S5). pose proof Sb as (U1 & U2 & U3 & U4 & U5).
      exists x, (m + m2)%nat. split.
      * split; [lia|]. rewrite Hep, Hen, Hnx1, !Nat.add_assoc. split; auto. split; auto. split.
        -- intros k Hk. apply own'_in. destruct (Nat.le_gt_cases k (x + m)); [left; apply S4; lia|right; apply U4; lia].
        -- rewrite own'_out; rewrite U5; auto.
      * intros k Hk. apply own'_nv in Hk as [Hk|Hk].
        -- destruct (span_covers Hva Sa Hk) as (i & I1 & I2). exists (x + i)%nat. split; [lia|auto].
        -- destruct (span_covers V_vb Sb Hk) as (i & I1 & I2). exists (x + m + i)%nat. split; [lia|auto].
    + destruct (C3 v Hv) as (x & m & (S1 & S2 & S3 & S4 & S5) & Hk). destruct (Hbody Hv Ha Hb) as (E1 & E2 & _).
      exists x, m. split.
      * split; auto. rewrite E1, E2. split; auto. split; auto. split.
        -- intros k Hkk. rewrite own'_out; rewrite S4; auto.
        -- rewrite Hnx2 by auto. pose proof (nx_vb Hv Ha). destruct (Nat.eqb_spec (nx v) va) as [E|E].
           ++ apply own'_in. left. congruence.
           ++ rewrite own'_out; rewrite S5; auto.
      * intros k Hkk. apply Hk. rewrite <- Hkk. symmetry. apply own'_out; intros K; rewrite own'_in in Hkk by auto; apply (V_ne Hv); auto.
Qed.

Section Sync.
Variable P : nat -> pt.
Variable T : R.
Hypothesis Hsync : sync c V nx ep en B own P T.
Hypothesis Pa : P va = X.
Hypothesis Pb : P vb = X.

Definition P' i := if Nat.eqb i nv then X else P i.
Lemma P'_nv : P' nv = X. Proof. unfold P'. rewrite Nat.eqb_refl. auto. Qed.
Lemma P'_old i : V i -> P' i = P i.
Proof. intros H. unfold P'. destruct (Nat.eqb_spec i nv) as [->|]; auto. contradiction. Qed.

Lemma merge_sync : 0 < ncross (N (ep va)) (N (en vb)) -> sync c V' nx' ep' en' B' own' P' T.
Proof.
  intros Hx. pose proof Hsync as [Hs Hk]. pose proof Hcov as (C1 & _). split.
  - intros v Hv. apply HV' in Hv as [->|(Hv & Ha & Hb)].
    + rewrite Hep, Hen, P'_nv, Hnx1, (P'_old V_nb). split; auto.
      destruct (Hs va Hva) as (_ & A2 & _). destruct (Hs vb V_vb) as (_ & _ & B3 & _ & L & HL & HP).
      split; [rewrite <- Pa; auto|]. split; [rewrite <- Pb; auto|]. split.
      * exists 0. split; [lra|]. rewrite move_0. auto.
      * exists L. split; auto. rewrite HP, Pb. auto.
    + destruct (Hbody Hv Ha Hb) as (E1 & E2 & E3). destruct (Hs v Hv) as (V1 & V2 & V3 & V4 & L & HL & HP).
      unfold onray. rewrite E1, E2, E3, (P'_old Hv). split; auto. split; auto. split; auto. split; auto.
      exists L. split; auto. rewrite Hnx2 by auto. rewrite <- HP. destruct (Nat.eqb_spec (nx v) va) as [->|E].
      * rewrite P'_nv. auto.
      * apply P'_old. apply chain; auto.
  - intros k e He. specialize (Hk k e He). 
    assert (P' (own' k) = P (own k)); [|congruence].
    destruct (Nat.eq_dec (own k) va) as [E|E]; [rewrite own'_in by auto; rewrite P'_nv, E; auto|].
    destruct (Nat.eq_dec (own k) vb) as [E2|E2]; [rewrite own'_in by auto; rewrite P'_nv, E2; auto|].
    rewrite own'_out by auto. apply P'_old. auto.
Qed.

Lemma scaled_le L u a b g g' : 0 <= L -> 0 < u -> 0 < g -> 0 < g' -> 0 <= a * g' - b * g -> L * (u * b) / g' <= L * (u * a) / g.
Proof.
  intros HL Hu Hg Hg' H. apply Rmult_le_reg_r with (g * g'); [apply Rmult_lt_0_compat; auto|].
  replace (L * (u * b) / g' * (g * g')) with (L * u * (b * g)) by (field; lra).
  replace (L * (u * a) / g * (g * g')) with (L * u * (a * g')) by (field; lra).
  apply Rmult_le_compat_l; [apply Rmult_le_pos; lra|lra].
Qed.

(** the neighbouring edges vanish not later than they did before *)
Lemma merge_prev v q d q' d' : 0 < ncross (N (ep va)) (N (en vb)) -> V v -> v <> va -> v <> vb -> nx v = va ->
  hit nx ep en B v q d -> hit nx' ep' en' B' v q' d' -> d' <= d.
Proof.
  intros Hx Hv Ha Hb Hn H1 H2. pose proof (merge_sync Hx) as Hsync'. pose proof merge_cover as Hcov'.
  assert (Hv' : V' v) by (apply HV'; auto). pose proof Hsync as [Hs _].
  destruct (Hs v Hv) as (V1 & _ & _ & _ & L & HL & HP). pose proof V'_nv as Vn.
  assert (Hn' : nx' v = nv) by (rewrite Hnx2 by auto; rewrite Hn, Nat.eqb_refl; auto).
  destruct (Hbody Hv Ha Hb) as (E1 & E2 & E3).
  assert (HP' : P' (nx' v) = move (P' v) L (N (en' v))).
  { rewrite Hn', P'_nv, (P'_old Hv), E2, <- HP, Hn. auto. }
  destruct (hit_unique Hc chain big Hcov Hv H1 (hit_time Hc chain big Hcov Hsync Hv HL HP)) as [_ ->].
  destruct (hit_unique Hc chain' big' Hcov' Hv' H2 (hit_time Hc chain' big' Hcov' Hsync' Hv' HL HP')) as [_ ->].
  pose proof (tri_big Hc chain big Hcov Hv) as G1. pose proof (tri_big Hc chain' big' Hcov' Hv') as G2.
  pose proof (tri_big Hc chain big Hcov Hva) as G3. rewrite Hvb in G3.
  rewrite Hn', E1, E2, Hen in G2 |- *. rewrite Hn in *. destruct (chain Hv) as [_ Hch]. rewrite Hn in Hch. rewrite Hch in G3.
  apply Rplus_le_compat_l. apply scaled_le; auto. rewrite merge_l. apply Rlt_le, Rmult_lt_0_compat; auto.
Qed.

Lemma merge_next q d q' d' : 0 < ncross (N (ep va)) (N (en vb)) ->
  hit nx ep en B vb q d -> hit nx' ep' en' B' nv q' d' -> d' <= d.
Proof.
  intros Hx H1 H2. pose proof (merge_sync Hx) as Hsync'. pose proof merge_cover as Hcov'.
  pose proof Hsync as [Hs _]. pose proof V_vb as Hv. pose proof V'_nv as Vn.
  destruct (Hs vb Hv) as (V1 & _ & _ & _ & L & HL & HP). destruct (Hs _ V_nb) as (W1 & _).
  assert (HP' : P' (nx' nv) = move (P' nv) L (N (en' nv))).
  { rewrite Hnx1, P'_nv, (P'_old V_nb), Hen, HP, Pb. auto. }
  destruct (hit_unique Hc chain big Hcov Hv H1 (hit_time Hc chain big Hcov Hsync Hv HL HP)) as [_ ->].
  destruct (hit_unique Hc chain' big' Hcov' Vn H2 (hit_time Hc chain' big' Hcov' Hsync' Vn HL HP')) as [_ ->].
  pose proof (tri_big Hc chain big Hcov Hv) as G1. pose proof (tri_big Hc chain' big' Hcov' Vn) as G2.
  pose proof (tri_big Hc chain big Hcov Hva) as G3. rewrite Hvb in G3.
  destruct (Hbody V_nb (proj1 nb_ne) (proj2 nb_ne)) as (_ & E2 & _).
  rewrite Hnx1, E2, Hep, Hen in G2 |- *. destruct (chain Hva) as [_ Hch]. rewrite Hvb in Hch. rewrite <- Hch in G3.
  destruct (chain Hv) as [_ Hch2]. rewrite Hch2 in W1.
  apply Rplus_le_compat_l. rewrite (Rmult_comm (ncross (N (ep vb)) _)), (Rmult_comm (ncross (N (ep va)) _)).
  apply scaled_le; auto. rewrite merge_r. apply Rlt_le, Rmult_lt_0_compat; auto.
Qed.

(** two parallel or diverging edges become neighbours: the whole front vanishes *)
Lemma merge_collapse : ncross (N (ep va)) (N (en vb)) <= 0 -> exists Y, point c V' ep' en' B' Y T.
Proof.
  intros Hx. pose proof Hsync as [Hs Hk]. pose proof Hcov as (C1 & C2 & C3). pose proof (n_pos Hc) as H3. fold n in H3.
  destruct merge_spans as (x & m & m2 & Sa & Sb & Hl). pose proof Sa as (S1 & S2 & S3 & S4 & S5). pose proof Sb as (U1 & U2 & U3 & U4 & U5).
  set (a := N (ep va)) in *. set (b := N (en vb)) in *. set (psi := ncross b a). set (g := sub a b).
  assert (Hpsi : 0 <= psi) by (unfold psi; rewrite ncross_swap; lra).
  set (Z := fun k => P (own k)). set (K0 := (x + m + m2)%nat).
  assert (HX : forall k, (x < k <= K0)%nat -> Z k = X).
  { intros k Hkk. unfold Z. destruct (Nat.le_gt_cases k (x + m)); [rewrite S4 by lia; auto|rewrite U4 by (unfold K0 in *; lia); auto]. }
  assert (HZ0 : Z K0 = X) by (apply HX; unfold K0; lia).
  assert (HZ1 : Z (S (x + n)) = X).
  { unfold Z. replace (S (x + n)) with (S x + n)%nat by lia. unfold n. rewrite C2. apply HX. unfold K0; lia. }
  assert (Hstep : forall k e, edge_at c k = Some e -> exists l, 0 <= l /\ Z (S k) = move (Z k) l (N e)).
  { intros k e He. apply (walk_step Hc Hcov Hsync He). }
  (* the directions of the edges from K0 to x + n *)
  assert (Hdir : forall k e, (K0 <= k <= x + n)%nat -> edge_at c k = Some e ->
    psi <= ncross (N e) g /\ ((K0 < k < x + n)%nat -> 0 < ncross (N e) g)).
  { intros k e Hkk He. unfold g, sub, psi.
    assert (Hb0 : edge_at c K0 = Some (en vb)) by (unfold K0; auto).
    destruct (Nat.eq_dec k K0) as [->|N1].
    { rewrite Hb0 in He. injection He as <-. fold b. unfold ncross, rvec. simpl. split; [lra|lia]. }
    assert (Ha0 : edge_at c (x + n) = Some (ep va)) by (unfold n; rewrite edge_at_wrap; auto).
    destruct (Nat.eq_dec k (x + n)) as [->|N2].
    { rewrite Ha0 in He. injection He as <-. fold a. unfold ncross, rvec. simpl. split; [lra|lia]. }
    pose proof (@turn_tri c Hc K0 (k - K0) (x + n - K0) (en vb) e (ep va)) as Ht. fold n in Ht. fold a b in Ht.
    specialize (Ht ltac:(lia) ltac:(lia) ltac:(unfold K0; lia) Hb0). replace (K0 + (k - K0))%nat with k in Ht by lia.
    replace (K0 + (x + n - K0))%nat with (x + n)%nat in Ht by (unfold K0; lia). specialize (Ht He Ha0).
    revert Ht Hpsi. unfold psi, tri, ncross, rvec. simpl. intros. split; [lra|intros _; lra]. }
  set (f := fun k => ncross (Z k) g).
  assert (Hf : forall k, (K0 <= k < S (x + n))%nat -> f (S k) = f k).
  { apply monotone_closed.
    - intros k Hkk. destruct (edge_at_some Hc k) as (e & He). destruct (Hstep k e He) as (l & L1 & L2). unfold f. rewrite L2, ncross_move.
      destruct (Hdir k e ltac:(lia) He) as [D1 _]. assert (0 <= l * ncross (N e) g) by (apply Rmult_le_pos; lra). lra.
    - unfold f. rewrite HZ0, HZ1. auto. }
  set (Y := Z (S K0)).
  assert (HY : forall k, (K0 < k <= x + n)%nat -> Z k = Y).
  { intros k [K1 K2]. induction K1 as [|k K1 IH]; auto. rewrite <- IH by lia.
    destruct (edge_at_some Hc k) as (e & He). destruct (Hstep k e He) as (l & L1 & L2). rewrite L2.
    destruct (Hdir k e ltac:(lia) He) as [_ D2]. specialize (D2 ltac:(lia)). pose proof (Hf k ltac:(lia)) as Hfk. unfold f in Hfk.
    rewrite L2, ncross_move in Hfk. assert (Z0 : l * ncross (N e) g = 0) by lra. apply Rmult_integral in Z0 as [Z0|Z0]; [|lra].
    subst l. apply move_0. }
  assert (Hb0 : edge_at c K0 = Some (en vb)) by (unfold K0; auto).
  destruct (Hstep K0 _ Hb0) as (l & L1 & L2). fold Y in L2. rewrite HZ0 in L2. fold b in L2.
  assert (Hpl : l * psi = 0).
  { pose proof (Hf K0 ltac:(unfold K0; lia)) as Hf0. unfold f in Hf0. fold Y in Hf0. rewrite L2, HZ0, ncross_move in Hf0.
    unfold psi. rewrite <- (ncross_sub_l b a). unfold g in Hf0. lra. }
  exists Y.
  assert (VY : V (nx vb)) by apply V_nb.
  assert (PY : P (nx vb) = Y) by (unfold Y, Z, K0; rewrite <- U5; auto).
  assert (Hda : ndist (ep va) Y = T).
  { assert (Ha0 : edge_at c (x + n) = Some (ep va)) by (unfold n; rewrite edge_at_wrap; auto).
    destruct (Hstep _ _ Ha0) as (l' & _ & L2'). rewrite HZ1, (HY (x + n)%nat) in L2' by (unfold K0; lia).
    destruct (Hs va Hva) as (_ & D & _). rewrite Pa, L2', ndist_move, ncross_self in D. lra. }
  split.
  - intros v Hv. apply HV' in Hv as [->|(Hv & Hva' & Hvb')].
    + unfold onray. rewrite Hep, Hen, HB. fold a b. split; [|split; auto].
      * destruct (Rle_lt_or_eq_dec 0 psi Hpsi) as [Hp|Hp].
        -- assert (l = 0) by (apply Rmult_integral in Hpl as [|]; lra). subst l. rewrite move_0 in L2.
           exists 0. split; [lra|]. rewrite move_0. auto.
        -- destruct (@opposite a b) as [E|E].
           ++ exact (edge_unit Hc S2). ++ exact (edge_unit Hc U3). ++ unfold psi in Hp. rewrite ncross_swap in Hp. lra.
           ++ exfalso. pose proof (tri_big Hc chain big Hcov Hva) as Ht. rewrite Hvb in Ht. fold a b in Ht. rewrite E in Ht.
              unfold tri in Ht. rewrite ncross_self, (ncross_swap b) in Ht. lra.
           ++ exists (l / 2). split; [lra|]. rewrite L2. apply E.
      * destruct (Hs _ VY) as (_ & D & _). destruct (chain V_vb) as [_ Hch]. rewrite Hch, PY in D. auto.
    + destruct (Hbody Hv Hva' Hvb') as (E1 & E2 & E3). unfold onray. rewrite E1, E2, E3.
      assert (PvY : P v = Y).
      { destruct (C3 v Hv) as (x0 & m0 & Sv & _). pose proof Sv as (Q1 & _ & _ & Q4 & _). 
        set (k := (S x0 + x * n)%nat). assert (Hkx : (x <= x * n)%nat) by nia.
        assert (Hok : own k = v) by (unfold k; rewrite (own_mul Hcov); apply Q4; lia).
        set (r := ((k - S x) mod n)%nat). assert (Hr : (r < n)%nat) by (apply Nat.mod_upper_bound; lia).
        assert (Hor : own (S x + r)%nat = v).
        { rewrite <- Hok. apply (own_mod Hc Hcov). fold n. unfold r. rewrite Nat.add_mod_idemp_r by lia. f_equal. unfold k. lia. }
        rewrite <- Hor. apply HY. split; [|lia]. destruct (Nat.le_gt_cases (S x + r) K0) as [Hle|]; auto. exfalso.
        destruct (Nat.le_gt_cases (S x + r) (x + m)); [rewrite S4 in Hor by lia|rewrite U4 in Hor by (unfold K0 in *; lia)]; auto. }
      destruct (Hs v Hv) as (_ & D1 & D2 & D3 & _). rewrite PvY in *. auto.
  - intros k e He. rewrite <- PY. apply (hull Hc Hcov Hsync VY He).
Qed.

End Sync.

Lemma merge_point T : point c V ep en B X T -> point c V' ep' en' B' X T.
Proof.
  intros [Hs Hk]. split; auto. intros v Hv. apply HV' in Hv as [->|(Hv & Ha & Hb)].
  - unfold onray. rewrite Hep, Hen, HB. split; [exists 0; split; [lra|rewrite move_0; auto]|].
    destruct (Hs va Hva) as (_ & D & _). destruct (Hs vb V_vb) as (_ & _ & D'). auto.
  - destruct (Hbody Hv Ha Hb) as (E1 & E2 & E3). unfold onray. rewrite E1, E2, E3. apply (Hs v Hv).
Qed.

End Merge.
