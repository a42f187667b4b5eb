(** * GeoLines: intersections, circles and approximate comparisons over the real numbers *)

From Coq Require Import Reals Lra Psatz.
From Verif Require Import Py PyFacts Arith ArithR Euclid Lav Cluster ClusterSpec GeoSpec GeoR.
Set Implicit Arguments.
Unset Strict Implicit.
Open Scope R_scope.

Lemma intsecttest_R (l : @lin RA) u : intsecttest l u = true <-> (l_is_ray l = true -> 0 <= u).
Proof.
  unfold intsecttest. destruct (l_is_ray l); [|split; auto; intros; discriminate].
  unfold ngeb. rewrite zeroN_R. cbn [RA nleb]. rewrite Rleb_le. split; auto.
Qed.

Lemma line_intersect_R (a b : @lin RA) (p : vec RA) :
  line_intersect a b = Some p <->
  vx (lv a) * vy (lv b) <> vy (lv a) * vx (lv b) /\ on_lin a p /\ on_lin b p.
Proof.
  destruct a as [[ax ay] [ux uy] ra], b as [[bx by_] [wx wy] rb], p as [px py].
  unfold line_intersect; cbn [lp lv vx vy]. rewrite zeroN_R.
  cbn [RA nadd nsub nmul ndiv neqb]. unfold on_lin; cbn [lp lv vx vy l_is_ray].
  set (d := wy * ux - wx * uy). destruct (Reqb_spec d 0) as [Hd|Hd].
  { split; [discriminate|]. intros (H & _). unfold d in Hd. exfalso. apply H. simpl in *. lra. }
  set (ua := (wx * (ay - by_) - wy * (ax - bx)) / d). set (ub := (ux * (ay - by_) - uy * (ax - bx)) / d).
  assert (Eu : ax + ua * ux = bx + ub * wx /\ ay + ua * uy = by_ + ub * wy).
  { unfold ua, ub, d in *. split; field; auto. }
  assert (Hn : ux * wy <> uy * wx) by (unfold d in Hd; simpl in *; lra).
  destruct (intsecttest (Lin (V2 ax ay) (V2 ux uy) ra) ua) eqn:Ta; cbn [negb].
  - destruct (intsecttest (Lin (V2 bx by_) (V2 wx wy) rb) ub) eqn:Tb; cbn [negb].
    + rewrite intsecttest_R in Ta, Tb. cbn [l_is_ray] in Ta, Tb. split.
      * intros H. split; auto. injection H as H1 H2. simpl in *. destruct Eu as [E1 E2]. split.
        -- exists ua. auto.
        -- exists ub. split; auto. simpl in *. split; lra.
      * intros (_ & (t & Ht & H1 & H2) & (s & Hs & H3 & H4)). f_equal. unfold mkvec. cbn [RA rnd].
        assert (t = ua). { unfold ua, d in *. simpl in *. apply (Rmult_eq_reg_r (wy * ux - wx * uy)); auto. field_simplify; auto. nra. }
        subst t. simpl in *. subst. auto.
    + split; [discriminate|]. intros (_ & (t & Ht & H1 & H2) & (s & Hs & H3 & H4)).
      assert (s = ub). { unfold ub, d in *. simpl in *. apply (Rmult_eq_reg_r (wy * ux - wx * uy)); auto. field_simplify; auto. nra. }
      subst s. assert (K : intsecttest (Lin (V2 bx by_) (V2 wx wy) rb) ub = true) by (apply intsecttest_R; auto). congruence.
  - split; [discriminate|]. intros (_ & (t & Ht & H1 & H2) & (s & Hs & H3 & H4)).
    assert (t = ua). { unfold ua, d in *. simpl in *. apply (Rmult_eq_reg_r (wy * ux - wx * uy)); auto. field_simplify; auto. nra. }
    subst t. assert (K : intsecttest (Lin (V2 ax ay) (V2 ux uy) ra) ua = true) by (apply intsecttest_R; auto). congruence.
Qed.

(** ** segments *)
Lemma ccw_R (a b c : vec RA) : ccw a b c = true <-> 0 < orient a b c.
Proof.
  destruct a as [ax ay], b as [bx by_], c as [cx cy].
  unfold ccw, ngtb, orient. cbn [RA nltb nmul nsub vx vy]. rewrite Rltb_lt. simpl in *. split; intros; lra.
Qed.

Lemma seg_intersect_R (a b c d : vec RA) :
  orient a b c <> 0 -> orient a b d <> 0 -> orient a c d <> 0 -> orient b c d <> 0 ->
  (seg_intersect a b c d = true <-> exists p, on_segment a b p /\ on_segment c d p).
Proof.
  intros H1 H2 H3 H4. unfold seg_intersect. rewrite andb_true_iff, !negb_true_iff, !eqb_false_iff.
  assert (S : forall x y, (x = true <-> 0 < y) -> y <> 0 -> (x = false <-> y < 0)).
  { intros x y Hx Hy. destruct x; split; intros K; try discriminate; auto.
    - assert (0 < y) by (apply Hx; auto). lra.
    - destruct (Rlt_dec 0 y) as [G|G]; [apply Hx in G; discriminate|lra]. }
  assert (D : forall x y u v, (x = true <-> 0 < u) -> (y = true <-> 0 < v) -> u <> 0 -> v <> 0 ->
                              (x <> y <-> u * v < 0)).
  { intros x y u v Hx Hy Hu Hv. pose proof (S _ _ Hx Hu). pose proof (S _ _ Hy Hv).
    destruct x, y; split; intros K; try congruence.
    - assert (0 < u) by (apply Hx; auto). assert (0 < v) by (apply Hy; auto). nra.
    - assert (0 < u) by (apply Hx; auto). assert (v < 0) by (apply H0; auto). nra.
    - assert (u < 0) by (apply H; auto). assert (0 < v) by (apply Hy; auto). nra.
    - assert (u < 0) by (apply H; auto). assert (v < 0) by (apply H0; auto). nra. }
  rewrite (D _ _ _ _ (ccw_R a c d) (ccw_R b c d) H3 H4), (D _ _ _ _ (ccw_R a b c) (ccw_R a b d) H1 H2).
  clear S D. destruct a as [ax ay], b as [bx by_], c as [cx cy], d as [dx dy].
  unfold orient, on_segment in *. cbn [vx vy] in *. simpl in *.
  set (o1 := (bx - ax) * (cy - ay) - (by_ - ay) * (cx - ax)) in *.
  set (o2 := (bx - ax) * (dy - ay) - (by_ - ay) * (dx - ax)) in *.
  set (o3 := (cx - ax) * (dy - ay) - (cy - ay) * (dx - ax)) in *.
  set (o4 := (cx - bx) * (dy - by_) - (cy - by_) * (dx - bx)) in *.
  assert (F : forall u v, u * v < 0 -> 0 <= u / (u - v) <= 1).
  { intros u v K. assert (u - v <> 0) by (intro; nra). assert (G : u / (u - v) = u * u / (u * u - u * v)) by (field; split; nra).
    rewrite G. split; [apply Rmult_le_pos; [nra|left; apply Rinv_0_lt_compat; nra]|].
    apply Rmult_le_reg_r with (u * u - u * v); [nra|]. unfold Rdiv. rewrite Rmult_assoc, Rinv_l by nra. nra. }
  assert (E : o3 - o4 = o2 - o1) by (unfold o1, o2, o3, o4; ring).
  split.
  - intros [K1 K2]. exists (rvec (ax + o3 / (o3 - o4) * (bx - ax)) (ay + o3 / (o3 - o4) * (by_ - ay))).
    assert (N1 : o3 - o4 <> 0) by (intro; nra). assert (N2 : o1 - o2 <> 0) by (intro; nra).
    split; [exists (o3 / (o3 - o4))|exists (o1 / (o1 - o2))]; (split; [apply F; auto|]); cbn [rvec vx vy]; [auto|].
    replace (o3 - o4) with (o2 - o1) by lra. split.
    + apply Rmult_eq_reg_r with (o1 - o2); auto. replace ((ax + o3 / (o2 - o1) * (bx - ax)) * (o1 - o2)) with (ax * (o1 - o2) - o3 * (bx - ax)) by (field; lra).
      replace ((cx + o1 / (o1 - o2) * (dx - cx)) * (o1 - o2)) with (cx * (o1 - o2) + o1 * (dx - cx)) by (field; lra).
      unfold o1, o2, o3. ring.
    + apply Rmult_eq_reg_r with (o1 - o2); auto. replace ((ay + o3 / (o2 - o1) * (by_ - ay)) * (o1 - o2)) with (ay * (o1 - o2) - o3 * (by_ - ay)) by (field; lra).
      replace ((cy + o1 / (o1 - o2) * (dy - cy)) * (o1 - o2)) with (cy * (o1 - o2) + o1 * (dy - cy)) by (field; lra).
      unfold o1, o2, o3. ring.
  - intros ([px py] & (t & Ht & T1 & T2) & (s & Hs & S1 & S2)). cbn [vx vy] in *. simpl in *.
    assert (Z1 : (1 - t) * o3 + t * o4 = 0).
    { transitivity ((cx - px) * (dy - py) - (cy - py) * (dx - px)).
      - rewrite T1, T2. unfold o3, o4. ring.
      - rewrite S1, S2. ring. }
    assert (Z2 : (1 - s) * o1 + s * o2 = 0).
    { transitivity ((bx - ax) * (py - ay) - (by_ - ay) * (px - ax)).
      - rewrite S1, S2. unfold o1, o2. ring.
      - rewrite T1, T2. ring. }
    assert (G : forall u v t, u <> 0 -> v <> 0 -> 0 <= t <= 1 -> (1 - t) * u + t * v = 0 -> u * v < 0).
    { clear. intros u v t Hu Hv Ht H. assert (t <> 0) by (intro; subst; lra). assert (t <> 1) by (intro; subst; lra).
      assert (K : v = - ((1 - t) / t) * u) by (apply Rmult_eq_reg_l with t; auto; field_simplify; auto; lra).
      assert (0 < (1 - t) / t) by (apply Rdiv_lt_0_compat; lra). assert (0 < u * u) by nra. rewrite K. nra. }
    split; [apply (G o3 o4 t)|apply (G o1 o2 s)]; auto.
Qed.

Lemma ccw_differ (x y : bool) u v : (x = true <-> 0 < u) -> (y = true <-> 0 < v) -> x <> y -> u <= 0 < v \/ v <= 0 < u.
Proof.
  intros Hx Hy H. destruct x, y; try congruence; [right|left].
  - split; [|apply Hx; auto]. apply Rnot_lt_le. intros K. apply Hy in K. discriminate.
  - split; [|apply Hy; auto]. apply Rnot_lt_le. intros K. apply Hx in K. discriminate.
Qed.

Lemma frac01 u v : u <= 0 < v \/ v <= 0 < u -> u - v <> 0 /\ 0 <= u / (u - v) <= 1.
Proof.
  intros [H|H].
  - assert (K : u / (u - v) = (- u) / (v - u)) by (field; lra). rewrite K. split; [lra|]. split.
    + apply Rmult_le_pos; [lra|left; apply Rinv_0_lt_compat; lra].
    + apply Rmult_le_reg_r with (v - u); [lra|]. unfold Rdiv. rewrite Rmult_assoc, Rinv_l; lra.
  - split; [lra|]. split.
    + apply Rmult_le_pos; [lra|left; apply Rinv_0_lt_compat; lra].
    + apply Rmult_le_reg_r with (u - v); [lra|]. unfold Rdiv. rewrite Rmult_assoc, Rinv_l; lra.
Qed.

Lemma seg_sound_R (a b c d : vec RA) :
  seg_intersect a b c d = true -> exists p, on_segment a b p /\ on_segment c d p.
Proof.
  unfold seg_intersect. rewrite andb_true_iff, !negb_true_iff, !eqb_false_iff. intros [H1 H2].
  apply (ccw_differ (ccw_R a c d) (ccw_R b c d)) in H1. apply (ccw_differ (ccw_R a b c) (ccw_R a b d)) in H2.
  destruct a as [ax ay], b as [bx by_], c as [cx cy], d as [dx dy].
  unfold orient, on_segment in *. cbn [vx vy] in *. simpl in *.
  set (o1 := (bx - ax) * (cy - ay) - (by_ - ay) * (cx - ax)) in *.
  set (o2 := (bx - ax) * (dy - ay) - (by_ - ay) * (dx - ax)) in *.
  set (o3 := (cx - ax) * (dy - ay) - (cy - ay) * (dx - ax)) in *.
  set (o4 := (cx - bx) * (dy - by_) - (cy - by_) * (dx - bx)) in *.
  assert (E : o3 - o4 = o2 - o1) by (unfold o1, o2, o3, o4; ring).
  destruct (frac01 H1) as [N1 F1], (frac01 H2) as [N2 F2].
  exists (rvec (ax + o3 / (o3 - o4) * (bx - ax)) (ay + o3 / (o3 - o4) * (by_ - ay))).
  split; [exists (o3 / (o3 - o4))|exists (o1 / (o1 - o2))]; (split; [auto|]); cbn [rvec vx vy]; [auto|].
  replace (o3 - o4) with (o2 - o1) by lra. split.
  + apply Rmult_eq_reg_r with (o1 - o2); auto. replace ((ax + o3 / (o2 - o1) * (bx - ax)) * (o1 - o2)) with (ax * (o1 - o2) - o3 * (bx - ax)) by (field; lra).
    replace ((cx + o1 / (o1 - o2) * (dx - cx)) * (o1 - o2)) with (cx * (o1 - o2) + o1 * (dx - cx)) by (field; lra).
    unfold o1, o2, o3. ring.
  + apply Rmult_eq_reg_r with (o1 - o2); auto. replace ((ay + o3 / (o2 - o1) * (by_ - ay)) * (o1 - o2)) with (ay * (o1 - o2) - o3 * (by_ - ay)) by (field; lra).
    replace ((cy + o1 / (o1 - o2) * (dy - cy)) * (o1 - o2)) with (cy * (o1 - o2) + o1 * (dy - cy)) by (field; lra).
    unfold o1, o2, o3. ring.
Qed.

Lemma seg_complete_R (a b c d : vec RA) :
  orient a b c <> 0 -> orient a b d <> 0 -> orient a c d <> 0 -> orient b c d <> 0 ->
  (exists p, on_segment a b p /\ on_segment c d p) -> seg_intersect a b c d = true.
Proof. intros. apply seg_intersect_R; auto. Qed.

(** T-shaped touching segments are reported as disjoint when the stem lies on the right *)
Lemma seg_touch_refuted : exists a b c d p : vec RA,
  on_segment a b p /\ on_segment c d p /\ a <> b /\ c <> d /\ orient a b d <> 0 /\ seg_intersect a b c d = false.
Proof.
  exists (rvec 0 0), (rvec 2 0), (rvec 1 0), (rvec 1 (-1)), (rvec 1 0).
  assert (D : forall x y z w : R, x <> z \/ y <> w -> rvec x y <> rvec z w).
  { intros x y z w [H|H] E; apply H; [apply (f_equal vx) in E|apply (f_equal vy) in E]; exact E. }
  split; [exists (1 / 2); cbn [rvec vx vy]; simpl; lra|]. split; [exists 0; cbn [rvec vx vy]; simpl; lra|].
  split; [apply D; left; lra|]. split; [apply D; right; lra|]. split; [unfold orient; cbn [rvec vx vy]; simpl; lra|].
  unfold seg_intersect. apply andb_false_iff. right. apply negb_false_iff, eqb_true_iff.
  transitivity false; [|symmetry]; apply not_true_is_false; rewrite ccw_R; unfold orient; cbn [rvec vx vy]; simpl; lra.
Qed.

(** ** approximate comparisons *)
Lemma Rabs_nabs (x : num RA) : nabs x = Rabs x. Proof. reflexivity. Qed.
Lemma nmax_R (x y : R) : nmax (A := RA) x y = Rmax x y.
Proof.
  unfold nmax, ngtb. cbn [RA nltb]. destruct (Rltb_spec x y) as [H|H].
  - rewrite Rmax_right; lra.
  - rewrite Rmax_left; lra.
Qed.

Lemma robust_R (f1 f2 : R) :
  robustFloatEqual (A := RA) f1 f2 = true <-> Rabs (f1 - f2) <= 1 / 100000 * Rmax 1 (Rmax (Rabs f1) (Rabs f2)).
Proof.
  unfold robustFloatEqual, EPSILON. rewrite nmax_R. cbn [RA nleb nabs nsub nmul lit].
  pose proof (Rmax_l 1 (Rmax (Rabs f1) (Rabs f2))). pose proof (Rmax_r 1 (Rmax (Rabs f1) (Rabs f2))).
  destruct (Rleb_spec (Rabs (f1 - f2)) (1 / 100000)) as [K|K].
  - split; auto. intros _. lra.
  - rewrite Rleb_le. split; intros G; [lra|].
    destruct (Rle_dec 1 (Rmax (Rabs f1) (Rabs f2))) as [L|L].
    + rewrite Rmax_right in G by auto. auto.
    + rewrite Rmax_left in G by lra. lra.
Qed.

Lemma approx_R (a b : vec RA) :
  approximately_equals a b = true <->
  euclid_dist a b <= 1 / 1000 * Rmax (euclid_dist a (rvec 0 0)) (euclid_dist b (rvec 0 0)).
Proof.
  unfold approximately_equals. rewrite orb_true_iff, veq_R, nmax_R. cbn [RA nleb nmul lit]. rewrite Rleb_le.
  assert (L : forall v : vec RA, vlen v = euclid_dist v (rvec 0 0)).
  { intros [x y]. rewrite vlen_R. unfold euclid_dist, rvec, Rsqr. cbn [vx vy]. f_equal. rring. }
  assert (D : vlen (vsub a b) = euclid_dist a b).
  { rewrite vlen_R, vsub_R. cbn [vx vy]. reflexivity. }
  rewrite D, !L. split; [intros [->|H]|intros H; right; simpl in *; lra].
  - unfold euclid_dist at 1. rewrite !Rminus_eq_0, Rsqr_0, Rplus_0_r, sqrt_0.
    apply Rmult_le_pos; [lra|]. eapply Rle_trans; [apply sqrt_pos|apply Rmax_l].
  - simpl in *. lra.
Qed.

(** ** crossings of skeleton edges *)
Lemma cross_param (ax ay bx by_ cx cy dx dy r s : R) :
  ax + r * (bx - ax) = cx + s * (dx - cx) -> ay + r * (by_ - ay) = cy + s * (dy - cy) ->
  r * ((bx - ax) * (dy - cy) - (by_ - ay) * (dx - cx)) = (ay - cy) * (dx - cx) - (ax - cx) * (dy - cy) /\
  s * ((bx - ax) * (dy - cy) - (by_ - ay) * (dx - cx)) = (ay - cy) * (bx - ax) - (ax - cx) * (by_ - ay).
Proof.
  intros E1 E2. assert (X1 : r * (bx - ax) = cx - ax + s * (dx - cx)) by lra.
  assert (X2 : r * (by_ - ay) = cy - ay + s * (dy - cy)) by lra.
  assert (X3 : s * (dx - cx) = ax - cx + r * (bx - ax)) by lra.
  assert (X4 : s * (dy - cy) = ay - cy + r * (by_ - ay)) by lra. split.
  - transitivity (r * (bx - ax) * (dy - cy) - r * (by_ - ay) * (dx - cx)); [ring|]. rewrite X1, X2. ring.
  - transitivity ((bx - ax) * (s * (dy - cy)) - (by_ - ay) * (s * (dx - cx))); [ring|]. rewrite X3, X4. ring.
Qed.

Lemma edges_cross_R (e f : vec RA * vec RA) : edges_cross (e, f) = true <-> crossing (1 / 100000) e f.
Proof.
  destruct e as [[ax ay] [bx by_]], f as [[cx cy] [dx dy]]. unfold edges_cross, crossing, EPSILON.
  rewrite ntruth_R, oneN_R. unfold ngeb. cbn [RA nsub nmul ndiv lit nleb vx vy].
  set (den := (bx - ax) * (dy - cy) - (by_ - ay) * (dx - cx)).
  destruct (Reqb_spec den 0) as [K|K]; cbn [negb].
  { split; [discriminate|]. intros [H _]. unfold den in K. simpl in *. lra. }
  set (r := ((ay - cy) * (dx - cx) - (ax - cx) * (dy - cy)) / den).
  set (s := ((ay - cy) * (bx - ax) - (ax - cx) * (by_ - ay)) / den).
  rewrite negb_true_iff, !orb_false_iff, !Rleb_gt. split.
  - intros ((H1 & H2) & H3 & H4). split; [unfold den in K; simpl in *; lra|].
    exists r, s. split; [simpl in *; lra|]. split; [simpl in *; lra|]. unfold r, s, den in *. split; field; auto.
  - intros (H & r' & s' & Hr & Hs & E1 & E2).
    destruct (cross_param E1 E2) as [P1 P2].
    assert (r' = r) by (unfold r; apply (Rmult_eq_reg_r den); auto; unfold Rdiv; rewrite Rmult_assoc, Rinv_l, Rmult_1_r by auto; exact P1).
    assert (s' = s) by (unfold s; apply (Rmult_eq_reg_r den); auto; unfold Rdiv; rewrite Rmult_assoc, Rinv_l, Rmult_1_r by auto; exact P2).
    subst r' s'. simpl in *. repeat split; lra.
Qed.

Section Pairs.
Local Open Scope nat_scope.

Lemma combinations2_map T U (f : T -> U) l :
  combinations2 (map f l) = map (fun p => (f (fst p), f (snd p))) (combinations2 l).
Proof.
  induction l as [|x t IH]; simpl; auto. rewrite map_app, IH, !map_map. auto.
Qed.

Lemma combinations2_seq n : forall k i j, In (i, j) (combinations2 (seq k n)) <-> k <= i /\ i < j /\ j < k + n.
Proof.
  induction n as [|n IH]; intros k i j; simpl.
  - split; [intros []|lia].
  - rewrite in_app_iff, in_map_iff, IH. split.
    + intros [(y & H & Hy)|H]; [|lia]. injection H as <- <-. apply in_seq in Hy. lia.
    + intros H. destruct (Nat.eq_dec i k) as [->|K]; [left|right; lia]. exists j. split; auto. apply in_seq. lia.
Qed.

Lemma combinations2_nodup T (l : list T) : NoDup l -> NoDup (combinations2 l).
Proof.
  induction 1 as [|x t H1 H2 IH]; simpl; [constructor|]. 
  assert (G : NoDup (map (fun y => (x, y)) t)).
  { apply FinFun.Injective_map_NoDup; auto. intros a b E. injection E; auto. }
  revert G. generalize (fun (z : T) (K : In z t) => K). intros _.
  assert (Dj : forall p, In p (map (fun y => (x, y)) t) -> ~ In p (combinations2 t)).
  { intros p Hp Hq. apply in_map_iff in Hp as (y & <- & Hy). apply H1.
    clear -Hq. induction t as [|z t IH]; simpl in *; [contradiction|]. apply in_app_iff in Hq as [Hq|Hq]; auto.
    apply in_map_iff in Hq as (w & E & _). injection E as -> _. auto. }
  intros G. induction (map (fun y => (x, y)) t) as [|p m IHm]; simpl; auto. inversion G; subst. constructor.
  - rewrite in_app_iff. intros [K|K]; auto. apply (Dj p); simpl; auto.
  - apply IHm; auto. intros q Hq. apply Dj. simpl; auto.
Qed.

Lemma nth_seq_map T (d : T) l : l = map (fun i => nth i l d) (seq 0 (length l)).
Proof.
  induction l as [|x t IH]; simpl; auto. f_equal. rewrite <- seq_shift, map_map. exact IH.
Qed.

Lemma count_pairs T (P : T -> T -> Prop) (p : T * T -> bool) l :
  (forall a b, p (a, b) = true <-> P a b) ->
  exists L, NoDup L /\ length L = count_b p (combinations2 l) /\
    forall i j, In (i, j) L <-> i < j /\ exists a b, nth_error l i = Some a /\ nth_error l j = Some b /\ P a b.
Proof.
  intros HP. destruct l as [|d t] eqn:El.
  { exists []. split; [constructor|]. split; auto. intros i j. split; [intros []|].
    intros (_ & a & b & K & _). destruct i; discriminate. }
  rewrite <- El. exists (filter (fun ij => p (nth (fst ij) l d, nth (snd ij) l d)) (combinations2 (seq 0 (length l)))).
  split; [apply NoDup_filter, combinations2_nodup, seq_NoDup|]. split.
  - unfold count_b.
    assert (E : combinations2 l = map (fun p => (nth (fst p) l d, nth (snd p) l d)) (combinations2 (seq 0 (length l)))).
    { rewrite (nth_seq_map d l) at 1. apply combinations2_map. }
    rewrite E. clear E. induction (combinations2 (seq 0 (length l))) as [|q m IH]; simpl; auto.
    destruct (p (nth (fst q) l d, nth (snd q) l d)); simpl; auto.
  - intros i j. rewrite filter_In, combinations2_seq. cbn [fst snd]. rewrite HP. split.
    + intros ((_ & H1 & H2) & H3). split; auto. exists (nth i l d), (nth j l d).
      rewrite <- !nth_error_nth' by lia. auto.
    + intros (H1 & a & b & Ha & Hb & H). rewrite (nth_error_nth l i d Ha), (nth_error_nth l j d Hb).
      split; auto. split; [lia|]. split; auto. apply nth_error_Some. congruence.
Qed.
End Pairs.

Lemma checkEdgeCrossing_R (sk : list (@subtree RA)) :
  let edges := concat (map (fun a => map (fun p => (source a, p)) (sinks a)) sk) in
  exists L, NoDup L /\ length L = checkEdgeCrossing sk /\
    forall i j, In (i, j) L <-> (i < j)%nat /\
      exists e f, nth_error edges i = Some e /\ nth_error edges j = Some f /\ crossing (1 / 100000) e f.
Proof.
  intros edges. unfold checkEdgeCrossing, skeleton_edges. rewrite flat_map_concat_map. fold edges.
  apply count_pairs. intros a b. apply edges_cross_R.
Qed.

(** ** circles *)
Definition cnorm2 (b : @cpx RA) : R := re b * re b + im b * im b.

Lemma Rabs_0_inv x : Rabs x = 0 -> x = 0.
Proof. intros H. destruct (Req_dec x 0) as [K|K]; auto. apply Rabs_no_R0 in K. contradiction. Qed.

Lemma cdiv_R (a b : @cpx RA) :
  (cnorm2 b = 0 -> cdiv a b = Err ZeroDivisionError) /\
  (cnorm2 b <> 0 -> cdiv a b = Ok (C (A := RA) ((re a * re b + im a * im b) / cnorm2 b) ((im a * re b - re a * im b) / cnorm2 b))).
Proof.
  destruct a as [ar ai], b as [br bi]. unfold cdiv, cnorm2, ngeb. rewrite zeroN_R. cbn [re im RA nabs nleb neqb ndiv nadd nmul nsub].
  simpl in *.
  destruct (Rleb_spec (Rabs bi) (Rabs br)) as [H|H].
  - destruct (Reqb_spec (Rabs br) 0) as [K|K].
    + split; auto. intros G. exfalso. assert (br = 0) by (apply Rabs_0_inv; auto). 
      assert (bi = 0) by (apply Rabs_0_inv; pose proof (Rabs_pos bi); lra). subst. apply G. ring.
    + assert (br <> 0) by (intros ->; apply K, Rabs_R0). split; [intros G; exfalso; assert (0 < br * br) by nra; nra|].
      intros G. do 2 f_equal; field; split; auto; intro; apply G; nra.
  - assert (bi <> 0) by (intros ->; rewrite Rabs_R0 in H; pose proof (Rabs_pos br); lra).
    assert (0 < bi * bi) by nra. split; [intros G; exfalso; nra|].
    intros G. do 2 f_equal; field; split; auto; intro; apply G; nra.
Qed.

(** the algebra of the circumcenter: b = y - x, a = z - x, w = a / b *)
Lemma circum_eqs (br bi ar ai : R) :
  let N := br * br + bi * bi in
  let wr := (ar * br + ai * bi) / N in let wi := (ai * br - ar * bi) / N in
  let m := wr * wr + wi * wi in
  let qx := - (br * wi + bi * (wr - m)) / (2 * wi) in
  let qy := (br * (wr - m) - bi * wi) / (2 * wi) in
  N <> 0 -> ai * br - ar * bi <> 0 ->
  (qx + br) * (qx + br) + (qy + bi) * (qy + bi) = qx * qx + qy * qy /\
  (qx + ar) * (qx + ar) + (qy + ai) * (qy + ai) = qx * qx + qy * qy.
Proof.
  intros N wr wi m qx qy HN HO.
  assert (Hw : wi <> 0). { unfold wi. intros K. apply HO. apply (Rmult_eq_reg_r (/ N)); [|apply Rinv_neq_0_compat; auto]. unfold Rdiv in K. lra. }
  assert (Ea : ar = wr * br - wi * bi) by (unfold wr, wi, N; field; auto).
  assert (Eb : ai = wr * bi + wi * br) by (unfold wr, wi, N; field; auto).
  rewrite Ea, Eb. unfold qx, qy, m. clearbody wr wi. split; field; auto.
Qed.

Definition fit3 (x y z : @cpx RA) : res (vec RA * R) :=
  w <- cdiv (csub z x) (csub y x) ;;
  let aw2 := nmul (cabs w) (cabs w) in
  q1 <- cdiv (cmul (csub x y) (csub w (creal aw2))) (C zeroN twoN) ;;
  q2 <- cdiv q1 (creal (im w)) ;;
  let c := csub q2 x in
  Ok (mkvec (nneg (re c)) (nneg (im c)), cabs (cadd c x)).

Lemma cabs2_R (w : @cpx RA) : cabs w * cabs w = re w * re w + im w * im w.
Proof. unfold cabs. cbn [RA nadd nmul nsqrt]. apply sqrt_sqrt. simpl. nra. Qed.

Lemma fit3_value (x0 x1 br bi ar ai : R) :
  let N := br * br + bi * bi in
  let wr := (ar * br + ai * bi) / N in let wi := (ai * br - ar * bi) / N in
  let m := wr * wr + wi * wi in
  let qx := - (br * wi + bi * (wr - m)) / (2 * wi) in
  let qy := (br * (wr - m) - bi * wi) / (2 * wi) in
  (ai * br - ar * bi = 0 -> fit3 (@C RA x0 x1) (@C RA (x0 + br) (x1 + bi)) (@C RA (x0 + ar) (x1 + ai)) = Err ZeroDivisionError) /\
  (ai * br - ar * bi <> 0 ->
     fit3 (@C RA x0 x1) (@C RA (x0 + br) (x1 + bi)) (@C RA (x0 + ar) (x1 + ai)) =
     Ok (@V2 RA (x0 - qx) (x1 - qy), sqrt (qx * qx + qy * qy))).
Proof.
  intros N wr wi m qx qy. unfold fit3.
  replace (csub (@C RA (x0 + ar) (x1 + ai)) (@C RA x0 x1)) with (@C RA ar ai) by (unfold csub; cbn [re im RA nsub]; f_equal; ring).
  replace (csub (@C RA (x0 + br) (x1 + bi)) (@C RA x0 x1)) with (@C RA br bi) by (unfold csub; cbn [re im RA nsub]; f_equal; ring).
  replace (csub (@C RA x0 x1) (@C RA (x0 + br) (x1 + bi))) with (@C RA (- br) (- bi)) by (unfold csub; cbn [re im RA nsub]; f_equal; ring).
  destruct (Req_dec N 0) as [KN|KN].
  { destruct (Rplus_sqr_eq_0 br bi KN) as [H H0].
    rewrite (proj1 (cdiv_R _ _)) by exact KN. cbn [bind].
    split; auto. intros K. exfalso. apply K. rewrite H, H0. ring. }
  rewrite (proj2 (cdiv_R _ _)) by exact KN. cbn [bind]. unfold cnorm2; cbn [re im]. fold N. fold wr wi.
  cbv zeta. cbn [RA nmul]. rewrite cabs2_R. cbn [re im]. fold m.
  unfold csub, cmul, creal. cbn [re im RA nsub nmul nadd]. rewrite zeroN_R, twoN_R.
  rewrite (proj2 (cdiv_R _ _)) by (unfold cnorm2; cbn [re im]; lra). cbn [bind]. unfold cnorm2; cbn [re im].
  rewrite ?zeroN_R. split.
  - intros K. rewrite (proj1 (cdiv_R _ _)); auto. unfold cnorm2. cbn [re im].
    assert (H : wi = 0) by (unfold wi, Rdiv; rewrite K; ring). rewrite H. ring.
  - intros K. assert (Hw : wi <> 0).
    { unfold wi. intros G. apply K. apply (Rmult_eq_reg_r (/ N)); [|apply Rinv_neq_0_compat; auto]. unfold Rdiv in G. lra. }
    rewrite (proj2 (cdiv_R _ _)) by (unfold cnorm2; cbn [re im]; intro; apply Hw; nra). cbn [bind].
    unfold cnorm2, cadd, cabs, mkvec; cbn [re im RA nadd nsub nmul nneg rnd nsqrt].
    apply f_equal. apply (f_equal2 pair).
    + apply (f_equal2 (@V2 RA)); unfold qx, qy; clearbody wi m N;
        match goal with |- @eq _ ?a ?b => change (@eq R a b) end; field; auto.
    + apply (f_equal sqrt). unfold qx, qy. clearbody wi. field; auto.
Qed.

(** first, middle and last point *)
Lemma fitCircle_R (pts : list (vec RA)) p0 pm pl :
  nth_error pts 0 = Some p0 -> nth_error pts (length pts / 2) = Some pm -> nth_error pts (length pts - 1) = Some pl ->
  (orient p0 pm pl = 0 -> fitCircle3Points pts = Err ZeroDivisionError) /\
  (orient p0 pm pl <> 0 -> exists c r, fitCircle3Points pts = Ok (c, r) /\
     euclid_dist c p0 = r /\ euclid_dist c pm = r /\ euclid_dist c pl = r).
Proof.
  intros H0 Hm Hl. unfold fitCircle3Points.
  assert (L : (0 < length pts)%nat) by (destruct pts; [discriminate|simpl; lia]).
  assert (G0 : py_get pts 0 = Ok p0).
  { rewrite py_get_nonneg by lia. change (Z.to_nat 0) with 0%nat. rewrite H0; auto. }
  assert (Gm : py_get pts (Z.of_nat (length pts) / 2) = Ok pm).
  { change 2%Z with (Z.of_nat 2). rewrite <- Nat2Z.inj_div, py_get_nat. rewrite Hm; auto. }
  assert (Gl : py_get pts (-1) = Ok pl).
  { unfold py_get. cbv zeta. change (-1 <? 0)%Z with true. cbv iota.
    destruct (Z.leb_spec 0 (-1 + Z.of_nat (length pts))); [|lia].
    destruct (Z.ltb_spec (-1 + Z.of_nat (length pts)) (Z.of_nat (length pts))); [|lia].
    simpl andb. replace (Z.to_nat (-1 + Z.of_nat (length pts))) with (length pts - 1)%nat by lia. rewrite Hl; auto. }
  rewrite G0, Gm, Gl. cbn [bind]. clear.
  destruct p0 as [x0 x1], pm as [y0 y1], pl as [z0 z1]. unfold orient; cbn [vx vy].
  change (w <- cdiv (csub (C z0 z1) (C x0 x1)) (csub (C y0 y1) (C x0 x1)) ;; _) with (fit3 (@C RA x0 x1) (@C RA y0 y1) (@C RA z0 z1)).
  destruct (@fit3_value x0 x1 (y0 - x0) (y1 - x1) (z0 - x0) (z1 - x1)) as [F1 F2].
  replace (x0 + (y0 - x0)) with (y0 : R) in F1, F2 by rring. replace (x1 + (y1 - x1)) with (y1 : R) in F1, F2 by rring.
  replace (x0 + (z0 - x0)) with (z0 : R) in F1, F2 by rring. replace (x1 + (z1 - x1)) with (z1 : R) in F1, F2 by rring.
  split; intros K.
  - apply F1. simpl in *. lra.
  - assert (HO : (z1 - x1) * (y0 - x0) - (z0 - x0) * (y1 - x1) <> 0) by (simpl in *; lra).
    assert (HN : (y0 - x0) * (y0 - x0) + (y1 - x1) * (y1 - x1) <> 0).
    { intros G. destruct (Rplus_sqr_eq_0 _ _ G) as [G1 G2]. apply HO. rewrite G1, G2. ring. }
    rewrite (F2 HO). eexists. eexists. split; [reflexivity|].
    destruct (circum_eqs HN HO) as [C1 C2]. unfold euclid_dist, Rsqr. cbn [vx vy].
    set (qx := - _ / _) in *. set (qy := (_ - _) / _) in *. clearbody qx qy.
    repeat split; f_equal.
    + rring.
    + etransitivity; [|exact C1]. rring.
    + etransitivity; [|exact C2]. rring.
Qed.

Lemma fitCircle_nil : fitCircle3Points (A := RA) [] = Err IndexError.
Proof. reflexivity. Qed.

(** ** symmetry and reflexivity of the approximate comparisons *)
Lemma robust_refl f : robustFloatEqual (A := RA) f f = true.
Proof.
  apply robust_R. rewrite Rminus_eq_0, Rabs_R0. pose proof (Rmax_l 1 (Rmax (Rabs f) (Rabs f))). lra.
Qed.
Lemma robust_sym f g : robustFloatEqual (A := RA) f g = robustFloatEqual (A := RA) g f.
Proof.
  apply Bool.eq_iff_eq_true. rewrite !robust_R, (Rabs_minus_sym f g), (Rmax_comm (Rabs f) (Rabs g)). tauto.
Qed.
Lemma approx_refl (a : vec RA) : approximately_equals a a = true.
Proof. unfold approximately_equals. apply orb_true_iff. left. apply veq_R. auto. Qed.
Lemma approx_sym (a b : vec RA) : approximately_equals a b = approximately_equals b a.
Proof.
  apply Bool.eq_iff_eq_true. rewrite !approx_R, (Rmax_comm (euclid_dist a _)).
  assert (E : euclid_dist a b = euclid_dist b a) by (unfold euclid_dist; f_equal; unfold Rsqr; rring). rewrite E. tauto.
Qed.
