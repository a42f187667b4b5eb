(** * ConvexGeo: the directions of the edges of a convex contour turn once around *)

From Coq Require Import Reals Lra Psatz.
From Verif Require Import Py Arith ArithR Euclid Lav ClusterSpec GeoSpec BisSpec BisProofs PatSpec ConvexSpec.
Set Implicit Arguments.
Unset Strict Implicit.
Open Scope R_scope.

Notation pt := (vec RA).

(** cross product of b - a and d - c *)
Definition xprod (a b c d : pt) : R := (vx b - vx a) * (vy d - vy c) - (vy b - vy a) * (vx d - vx c).

Lemma orient_rot (a b c : pt) : orient a b c = orient b c a.
Proof. unfold orient. simpl. ring. Qed.
Lemma xprod_orient (a b c d : pt) : xprod a b c d = orient a b d - orient a b c.
Proof. unfold xprod, orient. simpl. ring. Qed.
Lemma xprod_swap (a b c d : pt) : xprod c d a b = - xprod a b c d.
Proof. unfold xprod. simpl. ring. Qed.

(** along a convex chain the height above the line cd has no local minimum *)
Lemma no_dip (c d x y z : pt) : 0 < orient c d y -> orient c d y <= orient c d x -> orient c d y <= orient c d z ->
  0 < orient d x y -> 0 < orient d y z -> 0 < orient x y z -> False.
Proof.
  intros Hy Hx Hz H1 H2 H3.
  assert (I1 : orient c d y * orient d x z = orient c d x * orient d y z + orient c d z * orient d x y).
  { unfold orient. simpl. ring. }
  assert (I2 : orient d x y + orient d y z = orient d x z + orient x y z).
  { unfold orient. simpl. ring. }
  revert I1 I2. generalize (orient c d y) (orient c d x) (orient c d z) (orient d x y) (orient d y z) (orient d x z) (orient x y z)
    Hy Hx Hz H1 H2 H3. clear. intros hy hx hz a b e f Hy Hx Hz H1 H2 H3 I1 I2.
  assert (hy * b <= hx * b) by (apply Rmult_le_compat_r; lra).
  assert (hy * a <= hz * a) by (apply Rmult_le_compat_r; lra).
  assert (0 < hy * f) by (apply Rmult_lt_0_compat; lra).
  assert (e = a + b - f) by lra. subst e. lra.
Qed.

Section Chain.
Variable n : nat.
Variable Q : nat -> pt.
Hypothesis Qn : Q n = Q O.
Hypothesis Qc : forall a b c, (a < b)%nat -> (b < c)%nat -> (c < n)%nat -> 0 < orient (Q a) (Q b) (Q c).

Lemma Qc' a b c : (0 < a)%nat -> (a < b)%nat -> (b < c)%nat -> (c <= n)%nat -> 0 < orient (Q a) (Q b) (Q c).
Proof.
  intros. destruct (Nat.eq_dec c n) as [->|]; [|apply Qc; lia]. rewrite Qn, <- orient_rot. apply Qc; lia.
Qed.

(** if edge p does not turn left against edge 0, it does against the later edges, and they against edge 0 *)
Lemma two_turns p q : (0 < p)%nat -> (p < q)%nat -> (q < n)%nat -> xprod (Q 0) (Q 1) (Q p) (Q (S p)) <= 0 ->
  0 < xprod (Q p) (Q (S p)) (Q q) (Q (S q)) /\ 0 < xprod (Q q) (Q (S q)) (Q 0) (Q 1).
Proof.
  intros Hp Hq Hn Hx.
  assert (H1p : (1 < p)%nat).
  { destruct (Nat.eq_dec p 1) as [->|]; [|lia]. exfalso. rewrite xprod_orient in Hx.
    assert (orient (Q 0) (Q 1) (Q 1) = 0) by (unfold orient; simpl; ring).
    pose proof (@Qc 0 1 2 ltac:(lia) ltac:(lia) ltac:(lia)). simpl in *. lra. }
  split.
  - (* heights above the edge p *)
    set (h := orient (Q p) (Q (S p))). rewrite xprod_orient. fold h.
    assert (Hba : h (Q O) <= h (Q 1%nat)).
    { pose proof (xprod_swap (Q 0) (Q 1) (Q p) (Q (S p))) as Hs. rewrite (xprod_orient (Q p)) in Hs. fold h in Hs. lra. }
    assert (HF : 0 < h (Q (S q))) by (apply Qc'; lia).
    destruct (Nat.eq_dec q (S p)) as [->|Hqp].
    { assert (h (Q (S p)) = 0) by (unfold h, orient; simpl; ring). lra. }
    destruct (Rlt_dec 0 (h (Q (S q)) - h (Q q))) as [|Hc]; auto. exfalso.
    assert (HA : 0 < h (Q O)) by (unfold h; rewrite <- orient_rot; apply Qc; lia).
    assert (R1 : 0 < orient (Q (S p)) (Q q) (Q 0)) by (rewrite <- orient_rot; apply Qc; lia).
    assert (R2 : 0 < orient (Q (S p)) (Q 0) (Q 1)) by (rewrite orient_rot; apply Qc; lia).
    assert (R3 : 0 < orient (Q q) (Q 0) (Q 1)) by (rewrite orient_rot; apply Qc; lia).
    assert (R4 : 0 < orient (Q (S p)) (Q q) (Q 1)) by (rewrite <- orient_rot; apply Qc; lia).
    destruct (Rle_dec (h (Q (S q))) (h (Q O))) as [Hl|Hl].
    + destruct (Nat.eq_dec (S q) n) as [He|He].
      * apply (@no_dip (Q p) (Q (S p)) (Q q) (Q O) (Q 1%nat)); auto. fold h. rewrite He, Qn in Hc. lra.
      * apply (@no_dip (Q p) (Q (S p)) (Q q) (Q (S q)) (Q 1%nat)); auto; fold h; try lra.
        -- apply Qc; lia.
        -- rewrite <- orient_rot. apply Qc; lia.
        -- rewrite <- orient_rot. apply Qc; lia.
    + apply (@no_dip (Q p) (Q (S p)) (Q q) (Q O) (Q 1%nat)); auto. fold h. lra.
  - (* heights above the edge 0 *)
    set (h := orient (Q 0) (Q 1)).
    rewrite xprod_swap, xprod_orient. fold h. rewrite xprod_orient in Hx. fold h in Hx.
    assert (HC : 0 < h (Q p)) by (apply Qc; lia).
    assert (HE : 0 < h (Q q)) by (apply Qc; lia).
    assert (HD : 0 < h (Q (S p))) by (apply Qc; lia).
    destruct (Nat.eq_dec (S q) n) as [He|He].
    { rewrite He, Qn. assert (h (Q O) = 0) by (unfold h, orient; simpl; ring). lra. }
    destruct (Rlt_dec 0 (- (h (Q (S q)) - h (Q q)))) as [|Hc]; auto. exfalso.
    destruct (Nat.eq_dec q (S p)) as [->|Hqp].
    { apply (@no_dip (Q O) (Q 1%nat) (Q p) (Q (S p)) (Q (S (S p)))); auto; fold h; try lra; apply Qc; lia. }
    destruct (Rle_dec (h (Q (S p))) (h (Q q))) as [Hl|Hl].
    + apply (@no_dip (Q O) (Q 1%nat) (Q p) (Q (S p)) (Q (S q))); auto; fold h; try lra; apply Qc; lia.
    + apply (@no_dip (Q O) (Q 1%nat) (Q p) (Q q) (Q (S q))); auto; fold h; try lra; apply Qc; lia.
Qed.

End Chain.

(** three unit vectors in counterclockwise order *)
Definition tri (a b c : pt) : R := ncross a b + ncross b c + ncross c a.

Lemma tri_rot a b c : tri a b c = tri b c a.
Proof. unfold tri. lra. Qed.

Lemma tri_pos (a b c : pt) : vx a * vx a + vy a * vy a = 1 -> vx b * vx b + vy b * vy b = 1 -> vx c * vx c + vy c * vy c = 1 ->
  0 < ncross a b -> 0 < ncross b c -> 0 < tri a b c.
Proof.
  unfold tri, ncross. generalize (vx a) (vy a) (vx b) (vy b) (vx c) (vy c). change (num RA) with R.
  intros ax ay bx by' cx cy Ha Hb Hc H1 H2.
  set (s1 := ax * by' - ay * bx) in *. set (s2 := bx * cy - by' * cx) in *.
  set (c1 := ax * bx + ay * by'). set (c2 := bx * cx + by' * cy).
  assert (E1 : s1 * s1 + c1 * c1 = 1). { unfold s1, c1. transitivity ((ax * ax + ay * ay) * (bx * bx + by' * by')); [ring|rewrite Ha, Hb; ring]. }
  assert (E2 : s2 * s2 + c2 * c2 = 1). { unfold s2, c2. transitivity ((bx * bx + by' * by') * (cx * cx + cy * cy)); [ring|rewrite Hc, Hb; ring]. }
  assert (E3 : cx * ay - cy * ax = - (s1 * c2 + c1 * s2)).
  { unfold s1, s2, c1, c2. transitivity ((cx * ay - cy * ax) * (bx * bx + by' * by')); [rewrite Hb; ring|ring]. }
  change (0 < s1 + s2 + (cx * ay - cy * ax)). rewrite E3.
  assert (c1 < 1) by nra. assert (c2 < 1) by nra.
  assert (0 < s1 * (1 - c2)) by (apply Rmult_lt_0_compat; lra).
  assert (0 < s2 * (1 - c1)) by (apply Rmult_lt_0_compat; lra). lra.
Qed.

Section Contour.
Variable c : list (@edge2 RA).
Hypothesis Hc : convex_contour c.
Let n := length c.

Definition pnt (i : nat) : pt := match edge_at c i with Some e => ep1 e | None => dummy_vec end.

Lemma n_pos : (3 <= n)%nat.
Proof. apply Hc. Qed.

Lemma edge_at_some i : exists e, edge_at c i = Some e.
Proof.
  unfold edge_at. destruct (nth_error c (i mod length c)) as [e|] eqn:Hn; eauto. exfalso. apply nth_error_None in Hn.
  pose proof n_pos. pose proof (Nat.mod_upper_bound i (length c)). unfold n in *. lia.
Qed.

Lemma edge_at_mod i k : edge_at c (i + k * n) = edge_at c i.
Proof. unfold edge_at. fold n. rewrite Nat.mod_add; auto. pose proof n_pos. lia. Qed.

Lemma edge_at_wrap i : edge_at c (i + n) = edge_at c i.
Proof. pose proof (edge_at_mod i 1). rewrite Nat.mul_1_l in H. auto. Qed.

Lemma pnt_orient r a b d : (a < b)%nat -> (b < d)%nat -> (d < n)%nat ->
  0 < orient (pnt (r + a)) (pnt (r + b)) (pnt (r + d)).
Proof.
  intros H1 H2 H3. pose proof n_pos as Hn. destruct Hc as (_ & _ & Ho).
  assert (G : forall i j k, (i < j)%nat -> (j < k)%nat -> (k < n)%nat -> 0 < orient (pnt i) (pnt j) (pnt k)).
  { intros i j k Hi Hj Hk. unfold pnt.
    destruct (edge_at_some i) as (e1 & E1). destruct (edge_at_some j) as (e2 & E2). destruct (edge_at_some k) as (e3 & E3).
    rewrite E1, E2, E3. unfold edge_at in E1, E2, E3. fold n in E1, E2, E3. rewrite Nat.mod_small in E1, E2, E3 by lia. apply (Ho i j k); auto. }
  assert (W : forall x, (n <= x)%nat -> pnt x = pnt (x - n)).
  { intros x Hx. unfold pnt. replace x with (x - n + n)%nat at 1 by lia. rewrite edge_at_wrap. auto. }
  assert (M : forall x, pnt x = pnt (x mod n)).
  { intros x. unfold pnt, edge_at. fold n. rewrite Nat.mod_mod by lia. auto. }
  rewrite (M (r + a)%nat), (M (r + b)%nat), (M (r + d)%nat). rewrite <- !(Nat.add_mod_idemp_l r) by lia.
  pose proof (Nat.mod_upper_bound r n ltac:(lia)) as Hr. set (r' := (r mod n)%nat) in *. clearbody r'. rewrite <- !M.
  destruct (Nat.lt_ge_cases (r' + d) n) as [L3|L3]; [apply G; lia|]. rewrite (W (r' + d)%nat) by lia.
  destruct (Nat.lt_ge_cases (r' + b) n) as [L2|L2]; [rewrite <- orient_rot; apply G; lia|]. rewrite (W (r' + b)%nat) by lia.
  destruct (Nat.lt_ge_cases (r' + a) n) as [L1|L1]; [rewrite orient_rot; apply G; lia|]. rewrite (W (r' + a)%nat) by lia.
  apply G; lia.
Qed.

Lemma edge_directed i e : edge_at c i = Some e -> directed e.
Proof. intros H. apply nth_error_In in H. apply Hc. auto. Qed.

Lemma edge_at_succ i e : edge_at c i = Some e -> ep2 e = pnt (S i).
Proof.
  intros H. unfold pnt. destruct (edge_at_some (S i)) as (e' & E'). rewrite E'. apply Hc. pose proof n_pos.
  exists (S i mod n)%nat. split; [apply Nat.mod_upper_bound; unfold n in *; lia|]. split; [|exact E'].
  unfold edge_at in H. rewrite <- H. f_equal. fold n.
  pose proof (Nat.div_mod (S i) n ltac:(lia)). pose proof (Nat.mod_upper_bound (S i) n ltac:(lia)).
  destruct (Nat.eq_dec (S i mod n) 0) as [E0|E0].
  - rewrite E0 in *. rewrite Nat.mod_small by lia. destruct (S i / n)%nat as [|q]; [lia|].
    apply (Nat.mod_unique _ _ q); [lia|]. rewrite Nat.mul_succ_r in H1. lia.
  - replace (S i mod n + n - 1)%nat with ((S i mod n - 1) + 1 * n)%nat by lia. rewrite Nat.mod_add by lia.
    rewrite Nat.mod_small by lia. apply (Nat.mod_unique _ _ (S i / n)); lia.
Qed.

Lemma edge_cross i j e f : edge_at c i = Some e -> edge_at c j = Some f ->
  exists k, 0 < k /\ ncross (enorm e) (enorm f) = k * xprod (pnt i) (pnt (S i)) (pnt j) (pnt (S j)).
Proof.
  intros He Hf. destruct (edge_directed He) as (Ne & Ex & Ey). destruct (edge_directed Hf) as (Nf & Fx & Fy).
  pose proof (dist_pos Ne) as Pe. pose proof (dist_pos Nf) as Pf.
  exists (/ (euclid_dist (ep1 e) (ep2 e) * euclid_dist (ep1 f) (ep2 f))).
  split; [apply Rinv_0_lt_compat, Rmult_lt_0_compat; auto|].
  rewrite <- (edge_at_succ He), <- (edge_at_succ Hf). unfold pnt. rewrite He, Hf. unfold xprod, ncross.
  rewrite <- Ex, <- Ey, <- Fx, <- Fy. simpl in *. field. lra.
Qed.

(** three different edges in the order of the contour have directions in counterclockwise order *)
Lemma turn_tri i p q e f g : (0 < p)%nat -> (p < q)%nat -> (q < n)%nat ->
  edge_at c i = Some e -> edge_at c (i + p) = Some f -> edge_at c (i + q) = Some g -> 0 < tri (enorm e) (enorm f) (enorm g).
Proof.
  intros Hp Hq Hn He Hf Hg. pose proof n_pos as H3.
  pose proof (directed_unit (edge_directed He)) as Ue. pose proof (directed_unit (edge_directed Hf)) as Uf.
  pose proof (directed_unit (edge_directed Hg)) as Ug.
  destruct (edge_cross He Hf) as (k1 & K1 & X1). destruct (edge_cross Hf Hg) as (k2 & K2 & X2).
  destruct (edge_cross Hg He) as (k3 & K3 & X3).
  assert (P : forall k x, 0 < k -> 0 < x -> 0 < k * x) by (intros; apply Rmult_lt_0_compat; auto).
  assert (W : forall r, pnt (r + n) = pnt r) by (intros r; unfold pnt; rewrite edge_at_wrap; auto).
  destruct (Rle_dec (xprod (pnt i) (pnt (S i)) (pnt (i + p)) (pnt (S (i + p)))) 0) as [L1|L1].
  - destruct (@two_turns n (fun m => pnt (i + m))) with (p := p) (q := q) as [T1 T2]; auto.
    { rewrite W, Nat.add_0_r. auto. }
    { intros a b d Ha Hb Hd. apply pnt_orient; auto. }
    { rewrite Nat.add_0_r, Nat.add_1_r, <- plus_n_Sm. auto. }
    cbv beta in *. rewrite ?Nat.add_0_r, ?Nat.add_1_r, <- ?plus_n_Sm in *.
    rewrite tri_rot. apply tri_pos; auto; [rewrite X2|rewrite X3]; auto.
  - destruct (Rle_dec (xprod (pnt (i + p)) (pnt (S (i + p))) (pnt (i + q)) (pnt (S (i + q)))) 0) as [L2|L2].
    + destruct (@two_turns n (fun m => pnt (i + p + m))) with (p := (q - p)%nat) (q := (n - p)%nat) as [T1 T2]; try lia.
      { rewrite W, Nat.add_0_r. auto. }
      { intros a b d Ha Hb Hd. apply pnt_orient; auto. }
      { rewrite Nat.add_0_r, Nat.add_1_r, <- plus_n_Sm. replace (i + p + (q - p))%nat with (i + q)%nat by lia. auto. }
      cbv beta in *. rewrite ?Nat.add_0_r, ?Nat.add_1_r, <- ?plus_n_Sm in *.
      replace (i + p + (q - p))%nat with (i + q)%nat in * by lia. replace (i + p + (n - p))%nat with (i + n)%nat in * by lia.
      replace (S (i + n)) with (S i + n)%nat in T1, T2 by lia. rewrite !W in T1, T2.
      rewrite <- tri_rot. apply tri_pos; auto; [rewrite X3|rewrite X1]; auto.
    + apply tri_pos; auto; [rewrite X1|rewrite X2]; apply P; auto; lra.
Qed.

Lemma turn_left i e f : edge_at c i = Some e -> edge_at c (S i) = Some f -> 0 < ncross (enorm e) (enorm f).
Proof.
  intros He Hf. destruct (edge_cross He Hf) as (k & K & ->). apply Rmult_lt_0_compat; auto. rewrite xprod_orient.
  assert (Z : orient (pnt i) (pnt (S i)) (pnt (S i)) = 0) by (unfold orient; simpl; ring). rewrite Z.
  pose proof (@pnt_orient i 0 1 2 ltac:(lia) ltac:(lia) ltac:(pose proof n_pos; lia)) as Ho.
  rewrite Nat.add_0_r, Nat.add_1_r in Ho. replace (i + 2)%nat with (S (S i)) in Ho by lia. lra.
Qed.

Lemma pnt_distinct i j : (i < n)%nat -> (j < n)%nat -> pnt i = pnt j -> i = j.
Proof.
  pose proof n_pos as Hn.
  assert (G : forall i j, (i < j)%nat -> (j < n)%nat -> pnt i <> pnt j).
  { intros a b Ha Hb He.
    assert (Z : forall x, orient (pnt a) (pnt b) x = 0) by (intros x; rewrite He; unfold orient; simpl; ring).
    destruct (Nat.eq_dec (S b) n) as [E1|E1].
    - destruct a as [|a].
      + pose proof (@pnt_orient 0 0 1 b ltac:(lia) ltac:(lia) ltac:(lia)) as Ho. simpl in Ho.
        rewrite <- orient_rot, <- He in Ho. unfold orient in Ho. simpl in Ho. lra.
      + pose proof (@pnt_orient 0 0 (S a) b ltac:(lia) ltac:(lia) ltac:(lia)) as Ho. simpl in Ho. rewrite orient_rot, Z in Ho. lra.
    - pose proof (@pnt_orient 0 a b (S b) ltac:(lia) ltac:(lia) ltac:(lia)) as Ho. simpl in Ho. rewrite Z in Ho. lra. }
  intros Hi Hj He. destruct (Nat.lt_total i j) as [L|[|L]]; auto; exfalso; [apply (G i j)|apply (G j i)]; auto.
Qed.

End Contour.
