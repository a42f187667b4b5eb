(** * AngleProofs: pseudoangle and circular_embedding over the real numbers *)

From Coq Require Import Reals Lra Psatz Permutation Sorting.Sorted.
From Verif Require Import Py PyFacts Arith ArithR PySort SortProofs GraphSpec Graph GraphProofs AngleSpec.
Set Implicit Arguments.
Unset Strict Implicit.
Local Open Scope R_scope.

Ltac toR := match goal with |- @eq _ ?a ?b => change (@eq R a b) end.

(** ** every non-zero vector has exactly one polar angle *)
Lemma polar_exists (d : vec3 RA) : wx d <> 0 \/ wy d <> 0 -> exists th, polar d th.
Proof.
  destruct d as [x y z]; cbn [wx wy]. change (num RA) with R in x, y. intros H. set (r := sqrt (x * x + y * y)).
  assert (Hr2 : 0 < x * x + y * y) by (destruct H as [H|H]; simpl in *; nra).
  assert (Hr : 0 < r) by (apply sqrt_lt_R0; auto).
  assert (Er : r * r = x * x + y * y) by (apply sqrt_sqrt; lra).
  assert (Hb : -1 <= x / r <= 1).
  { split; (apply Rmult_le_reg_r with r; auto); unfold Rdiv; rewrite Rmult_assoc, Rinv_l; simpl in *; nra. }
  pose proof (acos_bound (x / r)) as Ha.
  assert (Es : sin (acos (x / r)) = Rabs y / r).
  { rewrite sin_acos by auto. rewrite <- (sqrt_Rsqr (Rabs y / r)).
    - f_equal. assert (K : Rsqr (Rabs y / r) = y * y / (r * r)).
      { unfold Rsqr. replace (Rabs y / r * (Rabs y / r)) with (Rabs y * Rabs y / (r * r)) by (field; lra).
        pose proof (Rsqr_abs y) as K. unfold Rsqr in K. rewrite <- K. auto. }
      rewrite K. unfold Rsqr. replace (x / r * (x / r)) with (x * x / (r * r)) by (field; lra).
      rewrite Er. field. lra.
    - apply Rmult_le_pos; [apply Rabs_pos|left; apply Rinv_0_lt_compat; auto]. }
  destruct (Rle_dec 0 y) as [Hy|Hy].
  - exists (acos (x / r)). split; [pose proof PI_RGT_0; lra|]. exists r. split; auto. cbn [wx wy].
    rewrite cos_acos, Es, Rabs_right by (auto; lra). split; toR; field; lra.
  - assert (Hp : 0 < acos (x / r)).
    { destruct (proj1 Ha) as [K|K]; auto. exfalso. rewrite <- K, sin_0 in Es.
      assert (0 < Rabs y / r); [|lra]. apply Rdiv_lt_0_compat; auto. apply Rabs_pos_lt. lra. }
    exists (2 * PI - acos (x / r)). split; [pose proof PI_RGT_0; lra|]. exists r. split; auto. cbn [wx wy].
    rewrite cos_minus, sin_minus, cos_2PI, sin_2PI, cos_acos, Es, Rabs_left by (auto; lra). split; toR; field; lra.
Qed.

(** ** pseudoangle *)
Definition psa (x y : R) : R := if Rlt_dec y 0 then 3 + x / (Rabs x + Rabs y) else 1 - x / (Rabs x + Rabs y).

Lemma pseudoangle_R (d : vec3 RA) :
  (wx d = 0 /\ wy d = 0 -> pseudoangle d = Err ZeroDivisionError) /\
  (wx d <> 0 \/ wy d <> 0 -> pseudoangle d = Ok (psa (wx d) (wy d))).
Proof.
  destruct d as [x y z]; unfold pseudoangle, pdiv, psa; cbn [wx wy]. rewrite zeroN_R, oneN_R.
  cbn [RA nabs nadd neqb ndiv nsub nltb lit]. simpl in *.
  destruct (Reqb_spec (Rabs x + Rabs y) 0) as [K|K].
  - split; auto. intros H. exfalso. pose proof (Rabs_pos x). pose proof (Rabs_pos y).
    destruct H as [H|H]; apply Rabs_pos_lt in H; lra.
  - split; intros H; [exfalso; apply K; destruct H as [-> ->]; rewrite Rabs_R0; lra|].
    cbn [bind]. destruct (Rltb_spec y 0) as [L|L]; destruct (Rlt_dec y 0); try lra; auto.
    f_equal. simpl. lra.
Qed.

Lemma psa_scale r x y : 0 < r -> psa (r * x) (r * y) = psa x y.
Proof.
  intros Hr. unfold psa. rewrite !Rabs_mult, (Rabs_right r) by lra.
  assert (E : r * x / (r * Rabs x + r * Rabs y) = x / (Rabs x + Rabs y)).
  { destruct (Req_dec (Rabs x + Rabs y) 0) as [K|K].
    - replace (r * Rabs x + r * Rabs y) with 0 by nra. rewrite K. unfold Rdiv. 
      assert (x = 0). { pose proof (Rabs_pos x). pose proof (Rabs_pos y). destruct (Req_dec x 0) as [G|G]; auto. apply Rabs_pos_lt in G. lra. }
      subst. ring.
    - replace (r * Rabs x + r * Rabs y) with (r * (Rabs x + Rabs y)) by ring. field. split; auto; lra. }
  rewrite E. destruct (Rlt_dec (r * y) 0), (Rlt_dec y 0); auto; exfalso; nra.
Qed.

Lemma div_lt a b c d : 0 < b -> 0 < d -> a * d < c * b -> a / b < c / d.
Proof.
  intros Hb Hd H. apply Rmult_lt_reg_r with (b * d); [nra|].
  replace (a / b * (b * d)) with (a * d) by (field; lra). replace (c / d * (b * d)) with (c * b) by (field; lra). auto.
Qed.

Lemma abs_swap a b : b <= a -> 0 <= a * Rabs b - b * Rabs a.
Proof.
  intros H. unfold Rabs. destruct (Rcase_abs a), (Rcase_abs b); nra.
Qed.

(** the upper half plane *)
Lemma psa_upper t1 t2 : 0 <= t1 -> t1 < t2 -> t2 <= PI -> psa (cos t1) (sin t1) < psa (cos t2) (sin t2).
Proof.
  intros H1 H2 H3. assert (S1 : 0 <= sin t1) by (apply sin_ge_0; lra). assert (S2 : 0 <= sin t2) by (apply sin_ge_0; lra).
  unfold psa. destruct (Rlt_dec (sin t1) 0); [lra|]. destruct (Rlt_dec (sin t2) 0); [lra|].
  rewrite (Rabs_right (sin t1)), (Rabs_right (sin t2)) by lra.
  assert (C : cos t2 < cos t1) by (apply cos_decreasing_1; lra).
  assert (P1 : forall t, 0 <= sin t -> 0 < Rabs (cos t) + sin t).
  { intros t Ht. pose proof (sin2_cos2 t) as K. unfold Rsqr in K. pose proof (Rabs_pos (cos t)).
    destruct (Req_dec (cos t) 0) as [G|G]; [rewrite G in *|apply Rabs_pos_lt in G; lra]. rewrite Rabs_R0. nra. }
  pose proof (P1 t1 S1). pose proof (P1 t2 S2). pose proof (@abs_swap (cos t1) (cos t2) ltac:(lra)) as A.
  assert (D : cos t2 / (Rabs (cos t2) + sin t2) < cos t1 / (Rabs (cos t1) + sin t1)); [|lra].
  apply div_lt; auto. destruct (Rlt_dec (t2 - t1) PI) as [L|L].
  - assert (0 < sin (t2 - t1)) as Q by (apply sin_gt_0; lra). rewrite sin_minus in Q. nra.
  - assert (t1 = 0) by lra. assert (t2 = PI) by lra. subst. rewrite cos_0, cos_PI, sin_0, sin_PI.
    rewrite Rabs_R1, Rabs_left by lra. lra.
Qed.

(** the lower half plane *)
Lemma psa_lower t1 t2 : PI < t1 -> t1 < t2 -> t2 < 2 * PI -> psa (cos t1) (sin t1) < psa (cos t2) (sin t2).
Proof.
  intros H1 H2 H3. assert (S1 : sin t1 < 0) by (apply sin_lt_0; lra). assert (S2 : sin t2 < 0) by (apply sin_lt_0; lra).
  unfold psa. destruct (Rlt_dec (sin t1) 0); [|lra]. destruct (Rlt_dec (sin t2) 0); [|lra].
  rewrite (Rabs_left (sin t1)), (Rabs_left (sin t2)) by lra.
  assert (C : cos t1 < cos t2) by (apply cos_increasing_1; lra).
  pose proof (Rabs_pos (cos t1)). pose proof (Rabs_pos (cos t2)).
  pose proof (@abs_swap (cos t2) (cos t1) ltac:(lra)) as A.
  assert (0 < sin (t2 - t1)) as Q by (apply sin_gt_0; lra). rewrite sin_minus in Q.
  apply Rplus_lt_compat_l. apply div_lt; [lra|lra|]. nra.
Qed.

Lemma psa_range_upper t : 0 <= t <= PI -> 0 <= psa (cos t) (sin t) <= 2.
Proof.
  intros H. pose proof PI_RGT_0.
  assert (E0 : psa (cos 0) (sin 0) = 0).
  { rewrite cos_0, sin_0. unfold psa. destruct (Rlt_dec 0 0); [lra|]. rewrite Rabs_R1, Rabs_R0. field. }
  assert (EP : psa (cos PI) (sin PI) = 2).
  { rewrite cos_PI, sin_PI. unfold psa. destruct (Rlt_dec 0 0); [lra|]. rewrite Rabs_R0, Rabs_left by lra. field. }
  split.
  - destruct (Req_dec t 0) as [->|K]; [lra|]. rewrite <- E0. left. apply psa_upper; lra.
  - destruct (Req_dec t PI) as [->|K]; [lra|]. rewrite <- EP. left. apply psa_upper; lra.
Qed.

Lemma psa_range_lower t : PI < t < 2 * PI -> 2 < psa (cos t) (sin t) < 4.
Proof.
  intros H. assert (S : sin t < 0) by (apply sin_lt_0; lra). unfold psa. destruct (Rlt_dec (sin t) 0); [|lra].
  rewrite (Rabs_left (sin t)) by lra. pose proof (Rabs_pos (cos t)).
  assert (A : - Rabs (cos t) <= cos t <= Rabs (cos t)) by (unfold Rabs; destruct (Rcase_abs (cos t)); lra).
  assert (D : 0 < Rabs (cos t) + - sin t) by lra.
  assert (-1 < cos t / (Rabs (cos t) + - sin t) < 1); [|lra]. split.
  - apply Rmult_lt_reg_r with (Rabs (cos t) + - sin t); auto. unfold Rdiv. rewrite Rmult_assoc, Rinv_l; lra.
  - apply Rmult_lt_reg_r with (Rabs (cos t) + - sin t); auto. unfold Rdiv. rewrite Rmult_assoc, Rinv_l; lra.
Qed.

Lemma psa_mono t1 t2 : 0 <= t1 -> t1 < t2 -> t2 < 2 * PI -> psa (cos t1) (sin t1) < psa (cos t2) (sin t2).
Proof.
  intros H1 H2 H3. destruct (Rle_dec t2 PI) as [L2|L2]; [apply psa_upper; lra|].
  destruct (Rle_dec t1 PI) as [L1|L1]; [|apply psa_lower; lra].
  pose proof (psa_range_upper (conj H1 L1)). pose proof (@psa_range_lower t2 ltac:(lra)). lra.
Qed.

Lemma polar_psa (d : vec3 RA) th : polar d th ->
  (wx d <> 0 \/ wy d <> 0) /\ psa (wx d) (wy d) = psa (cos th) (sin th) /\ 0 <= psa (wx d) (wy d) < 4.
Proof.
  intros (Hth & r & Hr & Hx & Hy). split.
  { pose proof (sin2_cos2 th) as K. unfold Rsqr in K. destruct (Req_dec (cos th) 0) as [G|G].
    - right. rewrite Hy. simpl. intros Z. assert (sin th = 0) by nra. nra.
    - left. rewrite Hx. simpl. intros Z. nra. }
  rewrite Hx, Hy. rewrite psa_scale by auto. split; auto.
  destruct (Rle_dec th PI) as [L|L].
  - pose proof (@psa_range_upper th ltac:(lra)). lra.
  - pose proof (@psa_range_lower th ltac:(lra)). lra.
Qed.

Lemma pseudoangle_monotone (d1 d2 : vec3 RA) t1 t2 : polar d1 t1 -> polar d2 t2 ->
  exists a1 a2 : R, pseudoangle d1 = Ok a1 /\ pseudoangle d2 = Ok a2 /\ 0 <= a1 < 4 /\ 0 <= a2 < 4 /\
    (a1 < a2 <-> t1 < t2) /\ (a1 = a2 <-> t1 = t2).
Proof.
  intros P1 P2. destruct (polar_psa P1) as (N1 & E1 & B1), (polar_psa P2) as (N2 & E2 & B2).
  exists (psa (wx d1) (wy d1)), (psa (wx d2) (wy d2)).
  split; [apply pseudoangle_R; auto|]. split; [apply pseudoangle_R; auto|]. split; auto. split; auto.
  rewrite E1, E2. destruct P1 as [H1 _], P2 as [H2 _].
  destruct (Rtotal_order t1 t2) as [L|[->|L]].
  - pose proof (@psa_mono t1 t2 ltac:(lra) L ltac:(lra)). split; split; intros; lra.
  - split; split; intros; lra.
  - pose proof (@psa_mono t2 t1 ltac:(lra) L ltac:(lra)). split; split; intros; lra.
Qed.

Lemma pseudoangle_zero (d : vec3 RA) : (exists e, pseudoangle d = Err e) <-> wx d = 0 /\ wy d = 0.
Proof.
  split.
  - intros [e He]. destruct (Req_dec (wx d) 0) as [Hx|Hx], (Req_dec (wy d) 0) as [Hy|Hy]; auto;
      rewrite (proj2 (pseudoangle_R d)) in He by auto; discriminate.
  - intros H. exists ZeroDivisionError. apply pseudoangle_R; auto.
Qed.

(** ** circular_embedding *)
Lemma direction_pseudoangle (vl : list (vec3 RA)) c v th : direction vl c v th ->
  exists pc pv, py_get vl c = Ok pc /\ py_get vl v = Ok pv /\ polar (w_sub pv pc) th.
Proof.
  intros (pc & pv & d & Hc & Hv & Hx & Hy & HP). exists pc, pv. split; auto. split; auto.
  destruct HP as [Hb (r & Hr & E1 & E2)]. split; auto. exists r. split; auto.
  unfold w_sub, mkvec3. cbn [wx wy RA rnd nsub]. rewrite <- E1, <- E2, Hx, Hy. auto.
Qed.

Lemma angle_lt_R (vl : list (vec3 RA)) c a b ta tb : direction vl c a ta -> direction vl c b tb ->
  exists r, angle_lt vl c a b = Ok r /\ (r = true <-> tb <= ta).
Proof.
  intros Ha Hb. apply direction_pseudoangle in Ha, Hb.
  destruct Ha as (pc & pa & Gc & Ga & Pa), Hb as (pc' & pb & Gc' & Gb & Pb).
  rewrite Gc in Gc'. apply Ok_inj in Gc'. subst pc'.
  destruct (pseudoangle_monotone Pa Pb) as (a1 & a2 & E1 & E2 & _ & _ & Hlt & _).
  unfold angle_lt, compare_angles. rewrite Ga, Gc, Gb. cbn [bind]. rewrite E1, E2. cbn [bind RA nltb].
  eexists. split; [reflexivity|]. destruct (Rltb_spec a1 a2) as [L|L].
  - change (1 <? 0)%Z with false. split; [discriminate|]. apply Hlt in L. lra.
  - change (-1 <? 0)%Z with true. split; auto. intros _. apply Rnot_lt_le. intros K. apply Hlt in K. contradiction.
Qed.

Lemma map_NoDup_inj (f : Z -> R) l a b : NoDup (map f l) -> In a l -> In b l -> f a = f b -> a = b.
Proof.
  induction l as [|x t IH]; simpl; intros H Ha Hb E; [tauto|]. inversion H as [|? ? H1 H2]; subst.
  destruct Ha as [<-|Ha], Hb as [<-|Hb]; auto; exfalso; apply H1; [rewrite E|rewrite <- E]; apply in_map; auto.
Qed.

Lemma sorted_neighbours (vl : list (vec3 RA)) (ang : Z -> R) v ns :
  (forall w, In w ns -> direction vl v w (ang w)) -> NoDup (map ang ns) ->
  exists l, py_sorted (angle_lt vl v) ns = Ok l /\ Permutation ns l /\ StronglySorted (fun a b => ang b < ang a) l.
Proof.
  intros Hd Hn. destruct (@py_sorted_total _ (angle_lt vl v) ns) as [l Hl].
  { intros a b Ha Hb. destruct (angle_lt_R (Hd a Ha) (Hd b Hb)) as (r & Hr & _). eauto. }
  exists l. split; auto. split; [eapply py_sorted_perm; eauto|].
  apply (@py_sorted_sorted _ (angle_lt vl v) (fun a b => ang b < ang a) ns l); auto.
  - split.
    + intros a b r Ha Hb Hab Hr. destruct (angle_lt_R (Hd a Ha) (Hd b Hb)) as (r' & Hr' & Hiff).
      rewrite Hr in Hr'. apply Ok_inj in Hr'. subst r'.
      assert (K : ang a <> ang b) by (intros E; apply Hab; eapply map_NoDup_inj; eauto).
      destruct r.
      * destruct Hiff as [H _]. specialize (H eq_refl). lra.
      * apply Rnot_le_lt. intros G. assert (false = true); [apply Hiff; lra|discriminate].
    + intros. lra.
  - apply NoDup_map_inv in Hn; auto.
Qed.

Lemma embedding_sorted (g : gdict) (vl : list (vec3 RA)) (ang : Z -> Z -> R) :
  (forall v ns, In (v, ns) g -> NoDup (map (ang v) ns) /\ forall w, In w ns -> direction vl v w (ang v w)) ->
  exists emb, circular_embedding g vl true = Ok emb /\
    circular_embedding g vl false = Ok (map (fun vl => (fst vl, rev (snd vl))) emb) /\
    Forall2 (fun a b => fst b = fst a /\ Permutation (snd a) (snd b) /\
                        StronglySorted (fun x y => ang (fst a) y < ang (fst a) x) (snd b)) g emb.
Proof.
  induction g as [|[v ns] g IH]; intros H.
  - exists []. repeat split; constructor.
  - destruct IH as (emb & E1 & E2 & E3); [intros; apply H; simpl; auto|].
    destruct (H v ns (or_introl eq_refl)) as [Hn Hd]. destruct (sorted_neighbours Hd Hn) as (l & Hl & Hp & Hs).
    exists ((v, l) :: emb). unfold circular_embedding in *. cbn [mapM fst snd]. rewrite Hl. cbn [bind fst snd].
    rewrite E1, E2. cbn [bind map fst snd]. split; auto.
Qed.

(** the neighbour that follows u in such a list is the first one met when turning clockwise *)
Lemma turn_value a b t : 0 <= a < 2 * PI -> 0 <= b < 2 * PI -> clockwise_turn a b t ->
  t = if Rle_dec b a then a - b else a - b + 2 * PI.
Proof.
  intros Ha Hb [Ht [k Hk]]. pose proof PI_RGT_0.
  assert (K1 : IZR k < 1). { apply Rmult_lt_reg_r with (2 * PI); lra. }
  assert (K2 : -2 < IZR k). { apply Rmult_lt_reg_r with (2 * PI); lra. }
  apply lt_IZR in K1, K2. assert (k = 0 \/ k = -1)%Z as [->| ->] by lia; destruct (Rle_dec b a); lra.
Qed.

Lemma clockwise_next (ang : Z -> R) l u w x tw tx :
  StronglySorted (fun a b => ang b < ang a) l -> (forall y, In y l -> 0 <= ang y < 2 * PI) ->
  rotation_succ l u w -> In x l -> x <> u ->
  clockwise_turn (ang u) (ang w) tw -> clockwise_turn (ang u) (ang x) tx -> 0 < tw <= tx.
Proof.
  intros Hs Hr (i & Hi & Hj) Hx Hxu Hw Htx. pose proof PI_RGT_0.
  assert (Hu : In u l) by (eapply nth_error_In; eauto). assert (Hwl : In w l) by (eapply nth_error_In; eauto).
  apply turn_value in Hw; auto. apply turn_value in Htx; auto. subst tw tx.
  apply In_nth_error in Hx as [k Hk].
  assert (Hli : (i < length l)%nat) by (apply nth_error_Some; congruence).
  assert (Hlk : (k < length l)%nat) by (apply nth_error_Some; congruence).
  assert (Hki : k <> i) by (intros ->; congruence).
  pose proof (Hr u Hu). pose proof (Hr w Hwl). pose proof (Hr x (nth_error_In _ _ Hk)).
  assert (S : forall p q a b, (p < q)%nat -> nth_error l p = Some a -> nth_error l q = Some b -> ang b < ang a).
  { intros p q a b Hpq Hp Hq. exact (SS_nth Hs Hpq Hp Hq). }
  destruct (Nat.eq_dec (i + 1) (length l)) as [El|El].
  - rewrite El, Nat.mod_same in Hj by lia.
    assert (Lu : ang u < ang w) by (apply (S 0%nat i); auto; lia).
    assert (Lx : ang u < ang x) by (apply (S k i); auto; lia).
    assert (Lw : ang x <= ang w).
    { destruct (Nat.eq_dec k 0) as [->|]; [replace x with w by congruence; lra|left; apply (S 0%nat k); auto; lia]. }
    destruct (Rle_dec (ang w) (ang u)); [lra|]. destruct (Rle_dec (ang x) (ang u)); lra.
  - rewrite Nat.mod_small in Hj by lia.
    assert (Lu : ang w < ang u) by (apply (S i (i + 1)%nat); auto; lia).
    destruct (Rle_dec (ang w) (ang u)); [|lra].
    destruct (lt_dec k i) as [L|L].
    + assert (ang u < ang x) by (apply (S k i); auto). destruct (Rle_dec (ang x) (ang u)); lra.
    + assert (ang x < ang u) by (apply (S i k); auto; lia). destruct (Rle_dec (ang x) (ang u)); [|lra].
      destruct (Nat.eq_dec k (i + 1)) as [->|]; [replace x with w by congruence; lra|].
      assert (ang x < ang w) by (apply (S (i + 1)%nat k); auto; lia). lra.
Qed.

(** two neighbours in the same direction: the result depends on the order in the dictionary *)
Lemma compare_angles_tie (vl : list (vec3 RA)) c a b th : direction vl c a th -> direction vl c b th ->
  compare_angles vl a b c = Ok (-1)%Z /\ compare_angles vl b a c = Ok (-1)%Z.
Proof.
  assert (K : forall a b, direction vl c a th -> direction vl c b th -> compare_angles vl a b c = Ok (-1)%Z).
  { clear. intros a b Ha Hb. apply direction_pseudoangle in Ha, Hb.
    destruct Ha as (pc & pa & Gc & Ga & Pa), Hb as (pc' & pb & Gc' & Gb & Pb).
    rewrite Gc in Gc'. apply Ok_inj in Gc'. subst pc'.
    destruct (pseudoangle_monotone Pa Pb) as (a1 & a2 & E1 & E2 & _ & _ & Hlt & _).
    unfold compare_angles. rewrite Ga, Gc, Gb. cbn [bind]. rewrite E1, E2. cbn [bind RA nltb].
    destruct (Rltb_spec a1 a2) as [L|L]; auto. apply Hlt in L. lra. }
  intros; split; apply K; auto.
Qed.

Lemma embedding_clockwise (g : gdict) (vl : list (vec3 RA)) (ang : Z -> Z -> R) emb v l u w x tw tx :
  (forall v ns, In (v, ns) g -> NoDup (map (ang v) ns) /\ forall w, In w ns -> direction vl v w (ang v w)) ->
  circular_embedding g vl true = Ok emb -> In (v, l) emb ->
  rotation_succ l u w -> In x l -> x <> u ->
  clockwise_turn (ang v u) (ang v w) tw -> clockwise_turn (ang v u) (ang v x) tx -> 0 < tw <= tx.
Proof.
  intros Hg He Hv. destruct (embedding_sorted Hg) as (emb' & E & _ & HF). rewrite He in E. apply Ok_inj in E. subst emb'.
  apply (In_nth_error emb) in Hv as [k Hk].
  assert (G : exists ns, In (v, ns) g /\ Permutation ns l /\ StronglySorted (fun x y => ang v y < ang v x) l).
  { revert k Hk. clear -HF. induction HF as [|[a na] [b nb] g emb H HF IH]; intros [|k] Hk; try discriminate.
    - injection Hk as <- <-. cbn [fst snd] in H. destruct H as (-> & H1 & H2). exists na. simpl; auto.
    - destruct (IH k Hk) as (ns & H1 & H2). exists ns. simpl; auto. }
  destruct G as (ns & Hin & Hp & Hs). destruct (Hg v ns Hin) as [_ Hd].
  apply (@clockwise_next (ang v) l u w x tw tx); auto.
  intros y Hy. assert (In y ns) as K by (eapply Permutation_in; [apply Permutation_sym; eauto|auto]).
  destruct (Hd y K) as (? & ? & ? & _ & _ & _ & _ & [B _]). auto.
Qed.
