(** * ConvexWave: the shrinking of a convex contour (geometry for C48) *)

From Coq Require Import Reals Lra Psatz.
From Verif Require Import Py Arith ArithR Euclid Lav ClusterSpec GeoSpec BisSpec BisProofs PatSpec ConvexSpec ConvexGeo.
Set Implicit Arguments.
Unset Strict Implicit.
Open Scope R_scope.

Definition move (p : pt) (t : R) (d : pt) : pt := rvec (vx p + t * vx d) (vy p + t * vy d).
Definition sub (b a : pt) : pt := rvec (vx b - vx a) (vy b - vy a).

Lemma vec_ext (p q : pt) : vx p = vx q -> vy p = vy q -> p = q.
Proof. destruct p, q; simpl; intros; subst; auto. Qed.

Lemma ndist_move e p t d : ndist e (move p t d) = ndist e p + t * ncross (enorm e) d.
Proof. unfold ndist, ncross, move, rvec. simpl. ring. Qed.
Lemma ncross_move p t d g : ncross (move p t d) g = ncross p g + t * ncross d g.
Proof. unfold ncross, move, rvec. simpl. ring. Qed.
Lemma ncross_sub_l a b : ncross a (sub b a) = ncross a b.
Proof. unfold ncross, sub, rvec. simpl. ring. Qed.
Lemma ncross_sub_r a b : ncross b (sub b a) = ncross a b.
Proof. unfold ncross, sub, rvec. simpl. ring. Qed.
Lemma ncross_self a : ncross a a = 0.
Proof. unfold ncross. simpl. ring. Qed.
Lemma ncross_swap a b : ncross b a = - ncross a b.
Proof. unfold ncross. simpl. ring. Qed.
Lemma move_0 p d : move p 0 d = p.
Proof. apply vec_ext; unfold move, rvec; simpl; ring. Qed.
Lemma move_move p s t d : move (move p s d) t d = move p (s + t) d.
Proof. apply vec_ext; unfold move, rvec; simpl; ring. Qed.
Lemma cross_dirs a f b : ncross (sub f a) (sub b f) = tri a f b.
Proof. unfold ncross, tri, sub, ncross, rvec. simpl. ring. Qed.

(** the bisectors at the two ends of an edge of length L meet *)
Lemma crossing a f b p L : tri a f b <> 0 ->
  move p (L * ncross f b / tri a f b) (sub f a) = move (move p L f) (L * ncross a f / tri a f b) (sub b f).
Proof.
  unfold tri, move, sub, ncross, rvec. intros H. apply vec_ext; simpl in *; field; auto.
Qed.

(** the length of the edge while its ends move along the bisectors *)
Lemma advance_edge a f b p L dt : ncross a f <> 0 -> ncross f b <> 0 ->
  move (move p L f) (dt / ncross f b) (sub b f) =
  move (move p (dt / ncross a f) (sub f a)) (L - dt * tri a f b / (ncross a f * ncross f b)) f.
Proof.
  unfold tri, move, sub, ncross, rvec. intros H1 H2. apply vec_ext; simpl in *; field; auto.
Qed.

Lemma merge_l z a f b : ncross a f * tri z a b - ncross a b * tri z a f = ncross z a * tri a f b.
Proof. unfold tri, ncross. simpl. ring. Qed.
Lemma merge_r a f b y : ncross f b * tri a b y - ncross a b * tri f b y = ncross b y * tri a f b.
Proof. unfold tri, ncross. simpl. ring. Qed.

Definition unit (a : pt) : Prop := vx a * vx a + vy a * vy a = 1.

Lemma opposite (a b : pt) : unit a -> unit b -> ncross a b = 0 -> a = b \/ forall p t, move p t b = move p (t / 2) (sub b a).
Proof.
  unfold unit, ncross, move, sub, rvec. destruct a as [ax ay], b as [bx by']. cbn [vx vy]. change (num RA) with R in *.
  intros Ha Hb Hx. set (d := ax * bx + ay * by').
  assert (Hd : d * d = 1).
  { unfold d. transitivity ((ax * ax + ay * ay) * (bx * bx + by' * by') - (ax * by' - ay * bx) * (ax * by' - ay * bx)); [ring|].
    rewrite Ha, Hb, Hx. ring. }
  assert (Ex : ax = d * bx).
  { unfold d. transitivity (ax * (bx * bx + by' * by')); [rewrite Hb; ring|]. 
    transitivity ((ax * bx + ay * by') * bx + by' * (ax * by' - ay * bx)); [ring|]. rewrite Hx. ring. }
  assert (Ey : ay = d * by').
  { unfold d. transitivity (ay * (bx * bx + by' * by')); [rewrite Hb; ring|]. 
    transitivity ((ax * bx + ay * by') * by' - bx * (ax * by' - ay * bx)); [ring|]. rewrite Hx. ring. }
  clearbody d.
  assert (Hd1 : (d - 1) * (d + 1) = 0) by lra. apply Rmult_integral in Hd1 as [Hd1|Hd1].
  - left. assert (d = 1) by lra. subst. f_equal; lra.
  - right. assert (d = -1) by lra. subst. intros [px py] t. apply vec_ext; cbn [vx vy]; simpl; field.
Qed.

(** a sequence of real numbers that grows and returns to its first value *)
Lemma monotone (f : nat -> R) i j : (i <= j)%nat -> (forall k, (i <= k < j)%nat -> f k <= f (S k)) -> f i <= f j.
Proof.
  intros H. induction H as [|j H IH]; intros Hf; [lra|]. apply Rle_trans with (f j); [apply IH; intros; apply Hf; lia|apply Hf; lia].
Qed.
Lemma antitone (f : nat -> R) i j : (i <= j)%nat -> (forall k, (i <= k < j)%nat -> f (S k) <= f k) -> f j <= f i.
Proof.
  intros H. induction H as [|j H IH]; intros Hf; [lra|]. apply Rle_trans with (f j); [apply Hf; lia|apply IH; intros; apply Hf; lia].
Qed.
Lemma monotone_closed (f : nat -> R) i j : (forall k, (i <= k < j)%nat -> f k <= f (S k)) -> f i = f j ->
  forall k, (i <= k < j)%nat -> f (S k) = f k.
Proof.
  intros Hf He k Hk. assert (f i <= f k) by (apply monotone; [lia|intros; apply Hf; lia]).
  assert (f (S k) <= f j) by (apply monotone; [lia|intros; apply Hf; lia]). pose proof (Hf k Hk). lra.
Qed.

Section Contour.
Variable c : list (@edge2 RA).
Hypothesis Hc : convex_contour c.
Let n := length c.

Lemma edge_unit i e : edge_at c i = Some e -> unit (enorm e).
Proof. intros H. apply directed_unit. eapply edge_directed; eauto. Qed.

(** once an edge does not turn left against edge i, the later ones turn right *)
Lemma turn_back i p q e f g : (0 < p)%nat -> (p < q)%nat -> (q < n)%nat ->
  edge_at c i = Some e -> edge_at c (i + p) = Some f -> edge_at c (i + q) = Some g ->
  ncross (enorm e) (enorm f) <= 0 -> 0 < ncross (enorm g) (enorm e).
Proof.
  intros Hp Hq Hn He Hf Hg Hx. pose proof (n_pos Hc) as H3.
  destruct (edge_cross Hc He Hf) as (k1 & K1 & X1). destruct (edge_cross Hc Hg He) as (k3 & K3 & X3).
  assert (W : forall r, pnt c (r + n) = pnt c r) by (intros r; unfold pnt; rewrite edge_at_wrap; auto).
  destruct (@two_turns n (fun m => pnt c (i + m))) with (p := p) (q := q) as [T1 T2]; auto.
  { rewrite W, Nat.add_0_r. auto. }
  { intros a b d Ha Hb Hd. apply pnt_orient; auto. }
  { rewrite Nat.add_0_r, Nat.add_1_r, <- plus_n_Sm. rewrite X1 in Hx.
    destruct (Rle_dec (xprod (pnt c i) (pnt c (S i)) (pnt c (i + p)) (pnt c (S (i + p)))) 0) as [|L]; auto. exfalso.
    apply Rlt_not_le in Hx; auto. apply Rmult_lt_0_compat; auto. apply Rnot_le_lt. auto. }
  cbv beta in *. rewrite ?Nat.add_0_r, ?Nat.add_1_r, <- ?plus_n_Sm in *. rewrite X3. apply Rmult_lt_0_compat; auto.
Qed.

(** ** the wavefront: vertices V, successors nx, edges ep and en before and behind a vertex, starts B of the bisectors *)
Section Ring.
Variable V : nat -> Prop.
Variable nx : nat -> nat.
Variables ep en : nat -> @edge2 RA.
Variable B : nat -> pt.
Notation na v := (enorm (ep v)).
Notation nb v := (enorm (en v)).

Definition onray v q := exists t, 0 <= t /\ q = move (B v) t (sub (nb v) (na v)).
Definition hit v q d := onray v q /\ onray (nx v) q /\ ndist (en v) q = d.

(** vertex v stands for the edges between x and x + m that have vanished *)
Definition span (own : nat -> nat) v x m : Prop :=
  (1 <= m)%nat /\ edge_at c x = Some (ep v) /\ edge_at c (x + m) = Some (en v) /\
  (forall k, (x < k <= x + m)%nat -> own k = v) /\ own (S (x + m)) = nx v.

Definition cover (own : nat -> nat) : Prop :=
  (forall k, V (own k)) /\ (forall k, own (k + n)%nat = own k) /\
  forall v, V v -> exists x m, span own v x m /\ forall k, own k = v -> exists j, (x < j <= x + m)%nat /\ (j mod n = k mod n)%nat.

(** at time T the vertices are at P *)
Definition sync (own : nat -> nat) (P : nat -> pt) (T : R) : Prop :=
  (forall v, V v -> 0 < ncross (na v) (nb v) /\ ndist (ep v) (P v) = T /\ ndist (en v) (P v) = T /\ onray v (P v) /\
     exists L, 0 <= L /\ P (nx v) = move (P v) L (nb v)) /\
  forall k e, edge_at c k = Some e -> T <= ndist e (P (own k)).

(** all vertices meet in Y at time T *)
Definition point (Y : pt) (T : R) : Prop :=
  (forall v, V v -> onray v Y /\ ndist (ep v) Y = T /\ ndist (en v) Y = T) /\
  forall k e, edge_at c k = Some e -> T <= ndist e Y.

Hypothesis chain : forall v, V v -> V (nx v) /\ ep (nx v) = en v.
Hypothesis big : forall v, V v -> nx v <> v /\ nx (nx v) <> v /\ nx (nx v) <> nx v.

Section Own.
Variable own : nat -> nat.
Hypothesis Hcov : cover own.

Lemma own_mul k q : own (k + q * n)%nat = own k.
Proof.
  destruct Hcov as (_ & H & _). induction q as [|q IH]; [rewrite Nat.add_0_r; auto|].
  replace (k + S q * n)%nat with (k + q * n + n)%nat by (simpl; lia). rewrite H. auto.
Qed.

Lemma own_mod j k : (j mod n = k mod n)%nat -> own j = own k.
Proof.
  intros H. pose proof (n_pos Hc) as H3. fold n in H3. pose proof (Nat.div_mod j n ltac:(lia)). pose proof (Nat.div_mod k n ltac:(lia)).
  rewrite H0, H1, H. rewrite !(Nat.mul_comm n), !(Nat.add_comm (_ * n)). rewrite !own_mul. auto.
Qed.

Lemma S_mod j k : (j mod n = k mod n)%nat -> (S j mod n = S k mod n)%nat.
Proof.
  intros H. pose proof (n_pos Hc) as H3. fold n in H3. rewrite <- (Nat.add_1_r j), <- (Nat.add_1_r k). rewrite <- (Nat.add_mod_idemp_l j), <- (Nat.add_mod_idemp_l k) by lia. congruence.
Qed.

Lemma edge_mod j k : (j mod n = k mod n)%nat -> edge_at c j = edge_at c k.
Proof. unfold edge_at. fold n. intros ->. auto. Qed.

(** the span may start at any index of the edge *)
Lemma span_shift v x m x' : span own v x m -> (x mod n = x' mod n)%nat -> span own v x' m.
Proof.
  intros (S1 & S2 & S3 & S4 & S5) Hx. pose proof (n_pos Hc) as H3. fold n in H3.
  assert (M : forall k, ((x + k) mod n = (x' + k) mod n)%nat).
  { intros k. rewrite <- (Nat.add_mod_idemp_l x), <- (Nat.add_mod_idemp_l x') by lia. congruence. }
  split; auto. split; [rewrite <- (edge_mod Hx); auto|]. split; [rewrite <- (edge_mod (M m)); auto|]. split.
  - intros k Hk. replace k with (x' + (k - x'))%nat by lia. rewrite <- (own_mod (M (k - x')%nat)). apply S4. lia.
  - rewrite <- S5. apply own_mod. rewrite !plus_n_Sm. symmetry. apply M.
Qed.

Lemma edge_index' i j e : edge_at c i = Some e -> edge_at c j = Some e -> (i mod n = j mod n)%nat.
Proof.
  intros Hi Hj. pose proof (n_pos Hc) as H3. fold n in H3. apply (pnt_distinct Hc); [apply Nat.mod_upper_bound; lia|apply Nat.mod_upper_bound; lia|].
  unfold pnt, edge_at in *. fold n in Hi, Hj |- *. rewrite !Nat.mod_mod by lia. rewrite Hi, Hj. auto.
Qed.

(** neighbours have neighbouring spans *)
Lemma span_next v x m : V v -> span own v x m -> exists m', span own (nx v) (x + m) m' /\ (m + m' < n)%nat.
Proof.
  intros Hv Hs. destruct (chain Hv) as [Hn He]. destruct Hcov as (C1 & C2 & C3). destruct (C3 _ Hn) as (x' & m' & Hs' & _).
  pose proof Hs as (S1 & S2 & S3 & S4 & S5). pose proof Hs' as (_ & S2' & _).
  assert (Hs2 : span own (nx v) (x + m) m').
  { eapply span_shift; [exact Hs'|]. eapply edge_index'; [exact S2'|rewrite He; exact S3]. }
  exists m'. split; auto. destruct (Nat.lt_ge_cases (m + m') n) as [|Hge]; auto. exfalso.
  destruct Hs2 as (_ & _ & _ & U4 & U5). pose proof (n_pos Hc) as H3. fold n in H3.
  destruct (big Hv) as (B1 & B2 & B3).
  (* the span of the third vertex would begin inside the two *)
  assert (G : forall k, (x < k)%nat -> own k = v \/ own k = nx v).
  { intros k Hk. replace k with (S x + (k - S x))%nat by lia.
    rewrite (@own_mod _ (S x + (k - S x) mod n)) by (rewrite Nat.add_mod_idemp_r by lia; auto).
    pose proof (Nat.mod_upper_bound (k - S x) n ltac:(lia)). set (r := ((k - S x) mod n)%nat) in *.
    destruct (Nat.le_gt_cases (S x + r) (x + m)); [left; apply S4; lia|right; apply U4; lia]. }
  destruct (G (S (x + m + m')) ltac:(lia)) as [K|K]; rewrite K in U5; auto.
Qed.

Lemma tri_big v : V v -> 0 < tri (na v) (nb v) (nb (nx v)).
Proof.
  intros Hv. destruct Hcov as (_ & _ & C3). destruct (C3 v Hv) as (x & m & Hs & _). destruct (span_next Hv Hs) as (m' & Hs' & Hl).
  destruct Hs as (S1 & S2 & S3 & _). destruct Hs' as (U1 & _ & U3 & _).
  apply (turn_tri Hc (i := x) (p := m) (q := (m + m')%nat)); auto; try (fold n; lia). rewrite Nat.add_assoc. auto.
Qed.

(** meeting points are unique *)
Lemma hit_unique v q q' d d' : V v -> hit v q d -> hit v q' d' -> q = q' /\ d = d'.
Proof.
  intros Hv ((t & _ & T1) & (u & _ & U1) & D) ((t' & _ & T2) & (u' & _ & U2) & D').
  assert (q = q'); [|subst q'; split; congruence].
  pose proof (tri_big Hv) as Ht. rewrite <- cross_dirs in Ht. destruct (chain Hv) as [_ He]. rewrite He in *.
  set (a := sub (nb v) (na v)) in *. set (b := sub (nb (nx v)) (nb v)) in *.
  assert (Z : (t - t') * ncross a b = 0).
  { assert (G1 : ncross q b = ncross (B v) b + t * ncross a b) by (rewrite T1; apply ncross_move).
    assert (G2 : ncross q' b = ncross (B v) b + t' * ncross a b) by (rewrite T2; apply ncross_move).
    assert (G3 : ncross q b = ncross (B (nx v)) b) by (rewrite U1, ncross_move, ncross_self; ring).
    assert (G4 : ncross q' b = ncross (B (nx v)) b) by (rewrite U2, ncross_move, ncross_self; ring).
    lra. }
  apply Rmult_integral in Z as [Z|Z]; [|lra]. rewrite T1, T2. f_equal. lra.
Qed.

Section Sync.
Variable P : nat -> pt.
Variable T : R.
Hypothesis Hsync : sync own P T.

(** where and when the edge behind v vanishes *)
Lemma hit_time v L : V v -> 0 <= L -> P (nx v) = move (P v) L (nb v) ->
  hit v (move (P v) (L * ncross (nb v) (nb (nx v)) / tri (na v) (nb v) (nb (nx v))) (sub (nb v) (na v)))
    (T + L * (ncross (na v) (nb v) * ncross (nb v) (nb (nx v))) / tri (na v) (nb v) (nb (nx v))).
Proof.
  intros Hv HL HP. pose proof (tri_big Hv) as Ht. destruct (chain Hv) as [Hn He]. destruct Hsync as [Hs _].
  destruct (Hs v Hv) as (V1 & V2 & V3 & (t & V4 & V5) & _). destruct (Hs _ Hn) as (W1 & W2 & W3 & (u & W4 & W5) & _). rewrite He in W1, W5.
  split; [|split].
  - exists (t + L * ncross (nb v) (nb (nx v)) / tri (na v) (nb v) (nb (nx v))). split.
    + apply Rplus_le_le_0_compat; auto. apply Rmult_le_pos; [apply Rmult_le_pos; auto; apply Rlt_le; auto|apply Rlt_le, Rinv_0_lt_compat; auto].
    + rewrite V5 at 1. apply move_move.
  - rewrite crossing by lra. rewrite <- HP, W5. unfold onray. rewrite He.
    exists (u + L * ncross (na v) (nb v) / tri (na v) (nb v) (nb (nx v))). split.
    + apply Rplus_le_le_0_compat; auto. apply Rmult_le_pos; [apply Rmult_le_pos; auto; apply Rlt_le; auto|apply Rlt_le, Rinv_0_lt_compat; auto].
    + apply move_move.
  - rewrite ndist_move, V3, ncross_sub_r. field. lra.
Qed.

Lemma hit_exists v : V v -> exists q d, hit v q d /\ T <= d.
Proof.
  intros Hv. pose proof Hsync as [Hs _]. destruct (Hs v Hv) as (V1 & _ & _ & _ & L & HL & HP). destruct (chain Hv) as [Hn He].
  destruct (Hs _ Hn) as (W1 & _). rewrite He in W1. eexists _, _. split; [apply (hit_time Hv HL HP)|].
  pose proof (tri_big Hv) as Ht.
  assert (0 <= L * (ncross (na v) (nb v) * ncross (nb v) (nb (nx v))) / tri (na v) (nb v) (nb (nx v))); [|lra].
  apply Rmult_le_pos; [|apply Rlt_le, Rinv_0_lt_compat; auto]. apply Rmult_le_pos; auto. apply Rlt_le, Rmult_lt_0_compat; auto.
Qed.

(** an edge that vanishes now has no length *)
Lemma hit_now v q : V v -> hit v q T -> P v = q /\ P (nx v) = q.
Proof.
  intros Hv Hh. pose proof Hsync as [Hs _]. destruct (Hs v Hv) as (V1 & _ & _ & _ & L & HL & HP). destruct (chain Hv) as [Hn He].
  destruct (Hs _ Hn) as (W1 & _). rewrite He in W1. pose proof (tri_big Hv) as Ht.
  destruct (hit_unique Hv Hh (hit_time Hv HL HP)) as [E1 E2].
  set (a := ncross (na v) (nb v)) in *. set (b := ncross (nb v) (nb (nx v))) in *. set (g := tri _ _ _) in *.
  assert (Z : L * (a * b) / g = 0) by lra. assert (a * b / g <> 0).
  { apply Rgt_not_eq. apply Rdiv_lt_0_compat; auto. apply Rmult_lt_0_compat; auto. }
  assert (Z2 : L * (a * b / g) = 0) by (rewrite <- Z; field; lra).
  apply Rmult_integral in Z2 as [Z2|Z2]; [|contradiction]. subst L.
  replace (0 * b / g) with 0 in E1 by (field; lra). rewrite move_0 in *. split; congruence.
Qed.

(** the positions walk around the contour *)
Lemma walk_step k e : edge_at c k = Some e -> exists l, 0 <= l /\ P (own (S k)) = move (P (own k)) l (enorm e).
Proof.
  intros He. destruct Hcov as (C1 & C2 & C3). destruct (C3 _ (C1 k)) as (x & m & (S1 & S2 & S3 & S4 & S5) & Hk).
  destruct (Hk k eq_refl) as (j & Hj & Hm).
  destruct (Nat.eq_dec j (x + m)) as [->|Hne].
  - rewrite <- (own_mod (S_mod Hm)), S5. destruct Hsync as [Hs _]. destruct (Hs _ (C1 k)) as (_ & _ & _ & _ & L & HL & HP).
    exists L. split; auto. rewrite HP. f_equal. rewrite (edge_mod Hm), He in S3. congruence.
  - exists 0. split; [lra|]. rewrite move_0. f_equal. rewrite <- (own_mod (S_mod Hm)). rewrite S4 by lia. auto.
Qed.

(** all vertices are inside *)
Lemma hull v k e : V v -> edge_at c k = Some e -> T <= ndist e (P v).
Proof.
  intros Hv He. pose proof (n_pos Hc) as H3. fold n in H3. pose proof Hcov as (C1 & C2 & C3). destruct (C3 _ Hv) as (x & m & (S1 & _ & _ & S4 & _) & _).
  assert (Hx : own (S x) = v) by (apply S4; lia).
  set (K := (S x + k * n)%nat). assert (HK : own K = v) by (unfold K; rewrite own_mul; auto).
  assert (Hkn : (k <= k * n)%nat) by (rewrite <- (Nat.mul_1_r k) at 1; apply Nat.mul_le_mono_l; lia).
  assert (HkK : (k <= K)%nat) by (unfold K; lia).
  set (r := ((K - k) mod n)%nat). assert (Hr : (r < n)%nat) by (apply Nat.mod_upper_bound; lia).
  assert (Hor : own (k + r)%nat = v).
  { rewrite <- HK. apply own_mod. unfold r. rewrite Nat.add_mod_idemp_r by lia. f_equal. lia. }
  rewrite <- Hor. destruct Hsync as [_ Hs]. pose proof (Hs k e He) as H0.
  set (S := fun r => ndist e (P (own (k + r)%nat))). change (T <= S r).
  assert (HS0 : T <= S O) by (unfold S; rewrite Nat.add_0_r; auto).
  assert (HSn : S n = S O) by (unfold S; rewrite Nat.add_0_r, C2; auto).
  assert (Hstep : forall i f, edge_at c (k + i) = Some f -> exists l, 0 <= l /\ S (Datatypes.S i) = S i + l * ncross (enorm e) (enorm f)).
  { intros i f Hf. destruct (walk_step Hf) as (l & Hl & HP). exists l. split; auto. unfold S. rewrite <- plus_n_Sm, HP, ndist_move. auto. }
  assert (Hstep0 : S 1%nat = S O).
  { destruct (Hstep O e) as (l & _ & ->); [rewrite Nat.add_0_r; auto|]. rewrite ncross_self. ring. }
  assert (Up : forall i f, edge_at c (k + i) = Some f -> 0 <= ncross (enorm e) (enorm f) -> S i <= S (Datatypes.S i)).
  { intros i f Hf Hx'. destruct (Hstep i f Hf) as (l & Hl & ->). assert (0 <= l * ncross (enorm e) (enorm f)) by (apply Rmult_le_pos; auto). lra. }
  assert (Dn : forall i f, edge_at c (k + i) = Some f -> ncross (enorm e) (enorm f) <= 0 -> S (Datatypes.S i) <= S i).
  { intros i f Hf Hx'. destruct (Hstep i f Hf) as (l & Hl & ->).
    assert (0 <= l * - ncross (enorm e) (enorm f)) by (apply Rmult_le_pos; auto; lra). lra. }
  clearbody r. destruct r as [|p]; auto. destruct p as [|p]; [rewrite Hstep0; auto|].
  destruct (edge_at_some Hc (k + Datatypes.S p)) as (f & Hf).
  destruct (Rle_dec (ncross (enorm e) (enorm f)) 0) as [Hle|Hgt].
  - (* going down from here to the end *)
    apply Rle_trans with (S n); [rewrite HSn; auto|]. apply antitone; [lia|].
    intros q Hq. destruct (edge_at_some Hc (k + q)) as (g & Hg). apply (Dn q g Hg).
    pose proof (@turn_back k (Datatypes.S p) q e f g ltac:(lia) ltac:(lia) ltac:(lia) He Hf Hg Hle). rewrite (ncross_swap (enorm g)). lra.
  - apply Rle_trans with (S O); auto. apply monotone; [lia|].
    intros q Hq. destruct (edge_at_some Hc (k + q)) as (g & Hg). apply (Up q g Hg).
    destruct q as [|q]; [rewrite Nat.add_0_r in Hg; replace g with e by congruence; rewrite ncross_self; lra|].
    destruct (Rle_dec 0 (ncross (enorm e) (enorm g))) as [|Hng]; auto. exfalso.
    destruct (Nat.eq_dec q p) as [->|Hqp]; [replace g with f in * by congruence; lra|].
    pose proof (@turn_back k (Datatypes.S q) (Datatypes.S p) e g f ltac:(lia) ltac:(lia) ltac:(lia) He Hg Hf ltac:(lra)) as Hb.
    rewrite (ncross_swap (enorm e)) in Hb. lra.
Qed.

End Sync.

(** the wavefront moves on until the first edge vanishes *)
Lemma advance P T T' : sync own P T -> T <= T' -> (forall v q d, V v -> hit v q d -> T' <= d) ->
  exists P', sync own P' T'.
Proof.
  intros Hsync HT Hmin. pose proof Hsync as [Hs Hk]. set (dt := T' - T).
  exists (fun v => move (P v) (dt / ncross (na v) (nb v)) (sub (nb v) (na v))). split.
  - intros v Hv. destruct (Hs v Hv) as (V1 & V2 & V3 & (t & V4 & V5) & L & HL & HP). destruct (chain Hv) as [Hn He].
    destruct (Hs _ Hn) as (W1 & _). rewrite He in W1. split; auto.
    split; [rewrite ndist_move, V2, ncross_sub_l; unfold dt; field; lra|].
    split; [rewrite ndist_move, V3, ncross_sub_r; unfold dt; field; lra|]. split.
    + exists (t + dt / ncross (na v) (nb v)). split; [|rewrite V5 at 1; apply move_move].
      apply Rplus_le_le_0_compat; auto. apply Rmult_le_pos; [unfold dt; lra|apply Rlt_le, Rinv_0_lt_compat; auto].
    + rewrite He. rewrite HP. eexists. split; [|apply advance_edge; lra].
      pose proof (tri_big Hv) as Ht. pose proof (Hmin _ _ _ Hv (hit_time Hsync Hv HL HP)) as Hd.
      set (a := ncross (na v) (nb v)) in *. set (b := ncross (nb v) (nb (nx v))) in *. set (g := tri _ _ _) in *.
      assert (Hab : 0 < a * b) by (apply Rmult_lt_0_compat; auto).
      assert (Hd' : dt <= L * (a * b) / g) by (unfold dt; lra).
      apply Rmult_le_compat_r with (r := g / (a * b)) in Hd'; [|apply Rlt_le, Rdiv_lt_0_compat; auto].
      replace (L * (a * b) / g * (g / (a * b))) with L in Hd' by (field; lra).
      replace (dt * (g / (a * b))) with (dt * g / (a * b)) in Hd' by (field; lra). lra.
  - intros k e He. specialize (Hk k e He). destruct Hcov as (C1 & C2 & C3). pose proof (C1 k) as Hv.
    destruct (Hs _ Hv) as (V1 & _). rewrite ndist_move.
    assert (G : ncross (na (own k)) (nb (own k)) <= ncross (enorm e) (sub (nb (own k)) (na (own k)))).
    { destruct (C3 _ Hv) as (x & m & Hsp & Hj). destruct (Hj k eq_refl) as (j & J1 & J2).
      pose proof (span_next Hv Hsp) as (m' & _ & Hlt). destruct Hsp as (S1 & S2 & S3 & _).
      rewrite <- (edge_mod J2) in He. 
      destruct (Nat.eq_dec j (x + m)) as [->|Hne].
      - rewrite S3 in He. injection He as <-. rewrite ncross_sub_r. lra.
      - pose proof (@turn_tri c Hc x (j - x) m (ep (own k)) e (en (own k)) ltac:(lia) ltac:(lia) ltac:(fold n; lia) S2) as Ht.
        replace (x + (j - x))%nat with j in Ht by lia. specialize (Ht He S3). revert Ht. unfold tri, ncross, sub, rvec. simpl. lra. }
    apply Rle_trans with (T + dt); [unfold dt; lra|]. apply Rplus_le_compat; auto.
    apply Rle_trans with (dt / ncross (na (own k)) (nb (own k)) * ncross (na (own k)) (nb (own k))); [right; field; lra|].
    apply Rmult_le_compat_l; auto. apply Rmult_le_pos; [unfold dt; lra|apply Rlt_le, Rinv_0_lt_compat; auto].
Qed.

Lemma point_hit Y T v : point Y T -> V v -> hit v Y T.
Proof. intros [H _] Hv. destruct (H v Hv) as (H1 & H2 & H3). destruct (chain Hv) as [Hn _]. destruct (H _ Hn) as (H4 & _). split; auto. Qed.

End Own.

(** of two points on the bisector the nearer one is reached earlier *)
Lemma nearer v q q' : 0 < ncross (na v) (nb v) -> onray v q -> onray v q' ->
  euclid_dist (B v) q <= euclid_dist (B v) q' -> ndist (en v) q <= ndist (en v) q'.
Proof.
  intros Hx (t & Ht & ->) (t' & Ht' & ->) Hd. rewrite !ndist_move, ncross_sub_r.
  apply Rplus_le_compat_l. apply Rmult_le_compat_r; [lra|].
  assert (G : forall r, 0 <= r -> euclid_dist (B v) (move (B v) r (sub (nb v) (na v))) = r * euclid_dist (rvec 0 0) (sub (nb v) (na v))).
  { intros r Hr. unfold euclid_dist. rewrite <- (sqrt_square r Hr) at 3. rewrite <- sqrt_mult_alt by (apply Rmult_le_pos; auto).
    f_equal. unfold move, sub, rvec, Rsqr. simpl. ring. }
  rewrite !G in Hd by auto.
  assert (Hp : 0 < euclid_dist (rvec 0 0) (sub (nb v) (na v))).
  { apply dist_pos. intros K. assert (Z : ncross (na v) (nb v) = 0); [|lra]. 
    rewrite <- ncross_sub_l, <- K. unfold ncross, rvec. simpl. ring. }
  apply Rmult_le_reg_r in Hd; auto.
Qed.

End Ring.
End Contour.
