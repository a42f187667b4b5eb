(** * ConvexTile: the faces over a convex contour cover it (C50) *)

From Coq Require Import Reals Lra.
From Verif Require Import Py PyFacts Arith ArithR Euclid Lav Cluster ClusterSpec GeoSpec GeoLines BisSpec BisProofs BisStart
  PatSpec TriSpec ConvexSpec ConvexGeo ConvexWave RoofSpec ConvexComb ConvexTree ConvexPost ConvexFaces ConvexGraph ConvexClean.
Set Implicit Arguments.
Unset Strict Implicit.
Local Open Scope R_scope.

(** ** affine functions *)
Definition affine (f : pt -> R) : Prop := exists a b d, forall p, f p = a * vx p + b * vy p + d.

Lemma affine_orient u v : affine (fun p => orient u v p).
Proof.
  exists (- (vy v - vy u)), (vx v - vx u), ((vy v - vy u) * vx u - (vx v - vx u) * vy u). intros p. unfold orient. change (num RA) with R in *. ring.
Qed.

Lemma affine_sub f g : affine f -> affine g -> affine (fun p => f p - g p).
Proof. intros (a & b & d & Hf) (a' & b' & d' & Hg). exists (a - a'), (b - b'), (d - d'). intros p. rewrite Hf, Hg. ring. Qed.

Lemma affine_ndist e : affine (ndist e).
Proof.
  exists (- vy (enorm e)), (vx (enorm e)), (vy (enorm e) * vx (ep1 e) - vx (enorm e) * vy (ep1 e)). intros p. unfold ndist. change (num RA) with R in *. ring.
Qed.

(** the same line: same sign if one point agrees *)
Lemma same_line f u v w p : affine f -> f u = 0 -> f v = 0 -> f p * orient u v w = f w * orient u v p.
Proof.
  intros (a & b & d & Hf) Hu Hv. rewrite Hf in *. rewrite Hf. 
  assert (E : a * (vx v - vx u) + b * (vy v - vy u) = 0) by (change (num RA) with R in *; lra).
  assert (Ep : a * vx p + b * vy p + d = a * (vx p - vx u) + b * (vy p - vy u)) by (change (num RA) with R in *; lra).
  assert (Ew : a * vx w + b * vy w + d = a * (vx w - vx u) + b * (vy w - vy u)) by (change (num RA) with R in *; lra).
  rewrite Ep, Ew. unfold orient. change (num RA) with R in *.
  assert (Z : (a * (vx v - vx u) + b * (vy v - vy u)) * ((vx p - vx u) * (vy w - vy u) - (vx w - vx u) * (vy p - vy u)) = 0) by (rewrite E; ring).
  nra.
Qed.

(** a triangle *)
Lemma in_triangle f a x y p : affine f -> 0 < orient x y p -> 0 <= orient y a p -> 0 <= orient a x p -> 0 <= f a -> 0 <= f x -> 0 <= f y -> 0 <= f p.
Proof.
  intros (k & m & d & Hf) H1 H2 H3. 
  assert (E : f p * (orient x y p + orient y a p + orient a x p) = f a * orient x y p + f x * orient y a p + f y * orient a x p).
  { rewrite !Hf. unfold orient. change (num RA) with R in *. ring. }
  intros F1 F2 F3. assert (S : 0 < orient x y p + orient y a p + orient a x p) by lra.
  assert (K : 0 <= f p * (orient x y p + orient y a p + orient a x p)).
  { rewrite E. pose proof (Rmult_le_pos _ _ F1 (Rlt_le _ _ H1)). pose proof (Rmult_le_pos _ _ F2 H2). pose proof (Rmult_le_pos _ _ F3 H3). lra. }
  destruct (Rle_dec 0 (f p)) as [G|G]; auto. exfalso. assert (0 < - f p) by lra. pose proof (Rmult_lt_0_compat _ _ H S). lra.
Qed.

Lemma orient_swap a b p : orient b a p = - orient a b p.
Proof. unfold orient. change (num RA) with R in *. ring. Qed.

Section Fan.
Variable P : nat -> pt.
Variable f : pt -> R.
Hypothesis Hf : affine f.

Lemma fan p a : forall l u, (forall x y, follows (u :: l) x y -> 0 < orient (P x) (P y) p) -> 0 <= orient (P a) (P u) p ->
  orient (P a) (P (last l u)) p < 0 -> 0 <= f (P a) -> (forall x, In x (u :: l) -> 0 <= f (P x)) -> 0 <= f p.
Proof.
  induction l as [|y l IH]; intros u Hs H1 H2 Fa Fx; [simpl in H2; lra|].
  destruct (Rle_dec (orient (P a) (P y) p) 0) as [K|K].
  - apply (in_triangle Hf (a := P a) (x := P u) (y := P y)); auto.
    + apply Hs. exists [], l. auto.
    + rewrite orient_swap. lra.
    + apply Fx; simpl; auto.
    + apply Fx; simpl; auto.
  - apply (IH y); auto.
    + intros x z (l1 & l2 & E). apply Hs. exists (u :: l1), l2. rewrite E. auto.
    + lra.
    + replace (last l y) with (last (y :: l) u); auto. clear. revert y. induction l as [|z l IH]; intros y; auto. change (last (z :: l) u = last (z :: l) y). 
      clear. revert z. induction l as [|w l IH]; intros z; auto. apply (IH w).
    + intros x Hx. apply Fx. simpl in *; auto.
Qed.

Lemma fan_cyc p l a u : l = a :: u :: tl (tl l) -> (forall x y, cyc l x y -> 0 < orient (P x) (P y) p) -> (forall x, In x l -> 0 <= f (P x)) -> 0 <= f p.
Proof.
  set (r := tl (tl l)). clearbody r. intros -> Hs Hx. apply (@fan p a r u).
  - intros x y (l1 & l2 & E). apply Hs, cyc_follows. exists (a :: l1), l2. rewrite E. auto.
  - apply Rlt_le, Hs, cyc_follows. exists [], r. auto.
  - assert (K : 0 < orient (P (last r u)) (P a) p).
    { apply Hs. exists a, (u :: r). split; auto. exists (a :: removelast (u :: r)), []. cbn [app]. f_equal. 
      assert (E : u :: r = removelast (u :: r) ++ [last (u :: r) u]) by (apply app_removelast_last; discriminate). 
      replace (last r u) with (last (u :: r) u). 2:{ clear. destruct r as [|y r]; auto. }
      change (u :: r ++ [a]) with ((u :: r) ++ [a]). rewrite E at 1. rewrite <- app_assoc. auto. }
    rewrite orient_swap in K. lra.
  - apply Hx. simpl; auto.
  - intros x K. apply Hx. simpl in *; auto.
Qed.

(** ... also on the boundary *)
Lemma fan_closed p q l a u : l = a :: u :: tl (tl l) -> (forall x y, cyc l x y -> 0 <= orient (P x) (P y) p) -> (forall x y, cyc l x y -> 0 < orient (P x) (P y) q) ->
  (forall x, In x l -> 0 <= f (P x)) -> 0 <= f p.
Proof.
  intros El Hp Hq Hx. pose proof (fan_cyc El Hq Hx) as Fq. destruct (Rle_dec 0 (f p)) as [G|G]; auto. exfalso.
  set (t := - f p / (2 * (f q - f p))). assert (D : 0 < f q - f p) by lra.
  assert (T0 : 0 < t) by (apply Rmult_lt_0_compat; [lra|apply Rinv_0_lt_compat; lra]).
  assert (T2 : t * (f q - f p) = - f p / 2) by (unfold t; field; lra).
  assert (T1 : t <= 1 / 2).
  { apply (Rmult_le_reg_r (f q - f p)); auto. rewrite T2. lra. }
  set (m := rvec ((1 - t) * vx p + t * vx q) ((1 - t) * vy p + t * vy q)).
  assert (A : forall g, affine g -> g m = (1 - t) * g p + t * g q).
  { intros g (k & j & d & Hg). rewrite !Hg. unfold m, rvec. cbn [vx vy]. change (num RA) with R in *. ring. }
  assert (Fm : 0 <= f m).
  { apply (fan_cyc El); auto. intros x y K. rewrite (A (fun p => orient (P x) (P y) p)) by apply affine_orient. 
    pose proof (Rmult_lt_0_compat _ _ T0 (Hq x y K)). pose proof (Rmult_le_pos (1 - t) _ ltac:(lra) (Hp x y K)). lra. }
  rewrite A in Fm by auto. lra.
Qed.
End Fan.

(** ** the faces of the roof *)
Section Tile.
Variable c : list (@edge2 RA).
Hypothesis Hc : convex_contour c.
Let n := length c.
Variables (out : list (@subtree RA)) (M : nat) (wp wl A B U : nat -> nat) (F : nat -> list nat) (P : nat -> pt) (H : nat -> R).
Hypothesis Hr : roof c out M wp wl A B U F P H.
Let n3 : (3 <= n)%nat := n_pos Hc.
Let Ht : tree n M wp wl A B U F := r_tree Hr.

Lemma affine_wd j : affine (wd c j).
Proof.
  destruct (edge_at_some Hc j) as (e & He). destruct (affine_ndist e) as (a & b & d & G). exists a, b, d. intros p. rewrite (wd_edge _ He). apply G.
Qed.

Lemma wd_orient j : (j < n)%nat -> exists l, 0 < l /\ forall p, orient (P j) (P (S j mod n)) p = l * wd c j p.
Proof.
  intros Hj. destruct (edge_at_some Hc j) as (e & He). pose proof (edge_directed Hc He) as Hd.
  assert (Hm : (S j mod n < n)%nat) by (apply Nat.mod_upper_bound; clear - n3; lia).
  assert (E2 : ep2 e = pnt c (S j mod n)).
  { rewrite (edge_at_succ Hc He). unfold pnt, edge_at. fold n. rewrite Nat.mod_mod by (clear - n3; lia). auto. }
  assert (E1 : ep1 e = pnt c j) by (unfold pnt; rewrite He; auto).
  destruct (r_base Hr Hj) as [-> _]. destruct (r_base Hr Hm) as [-> _]. rewrite <- E1, <- E2.
  exists (euclid_dist (ep1 e) (ep2 e)). assert (D : 0 < euclid_dist (ep1 e) (ep2 e)) by (apply dist_pos, Hd). split; auto.
  intros p. rewrite (wd_edge _ He), <- (edge_dist_n _ Hd). unfold edge_dist, signed_dist. change (num RA) with R in *. field. lra.
Qed.

Lemma pnt_mod i : pnt c (i mod n) = pnt c i.
Proof. unfold pnt, edge_at. fold n. rewrite Nat.mod_mod by (clear - n3; lia). auto. Qed.

Lemma base_dist j m : (j < n)%nat -> (m < n)%nat -> 0 <= wd c j (P m) /\ (m <> j -> m <> (S j mod n)%nat -> 0 < wd c j (P m)).
Proof.
  intros Hj Hm. destruct (wd_orient Hj) as (l & Hl & G). specialize (G (P m)).
  assert (Hs : (S j mod n < n)%nat) by (apply Nat.mod_upper_bound; clear - n3; lia).
  assert (K : m <> j -> m <> (S j mod n)%nat -> 0 < orient (P j) (P (S j mod n)) (P m)).
  { intros N1 N2. destruct (r_base Hr Hj) as [-> _]. destruct (r_base Hr Hm) as [-> _]. destruct (r_base Hr Hs) as [-> _]. rewrite pnt_mod.
    assert (E : exists d, (1 < d < n)%nat /\ pnt c m = pnt c (j + d)).
    { destruct (Nat.lt_ge_cases m j) as [L|L].
      - exists (m + n - j)%nat. split.
        + split; [|lia]. assert (m + n - j <> 1)%nat; [|lia]. intros E. apply N2. assert (S j = m + 1 * n)%nat by lia. rewrite H0, Nat.mod_add by lia. rewrite Nat.mod_small; lia.
        + rewrite <- (pnt_mod (j + _)). replace (j + (m + n - j))%nat with (m + 1 * n)%nat by lia. rewrite Nat.mod_add by lia. rewrite Nat.mod_small by lia. auto.
      - exists (m - j)%nat. split; [|f_equal; lia]. split; [|lia]. assert (m <> S j); [|lia]. intros ->. apply N2. rewrite Nat.mod_small; lia. }
    destruct E as (d & Hd & ->). pose proof (@pnt_orient c Hc j 0 1 d ltac:(lia) ltac:(lia) ltac:(fold n; lia)) as O. rewrite Nat.add_0_r, Nat.add_1_r in O. exact O. }
  assert (P0 : 0 <= orient (P j) (P (S j mod n)) (P m)).
  { destruct (Nat.eq_dec m j) as [->|N1]; [unfold orient; change (num RA) with R in *; lra|].
    destruct (Nat.eq_dec m (S j mod n)) as [->|N2]; [unfold orient; change (num RA) with R in *; lra|]. apply Rlt_le; auto. }
  rewrite G in *. split.
  - destruct (Rle_dec 0 (wd c j (P m))) as [Q|Q]; auto. exfalso. assert (0 < - wd c j (P m)) by lra. pose proof (Rmult_lt_0_compat _ _ Hl H0). lra.
  - intros N1 N2. specialize (K N1 N2). destruct (Rle_dec (wd c j (P m)) 0) as [Q|Q]; [|lra]. exfalso. assert (0 <= - wd c j (P m)) by lra. pose proof (Rmult_le_pos _ _ (Rlt_le _ _ Hl) H0). lra.
Qed.

Lemma nearest j x : (j < n)%nat -> (x < M)%nat -> H x <= wd c j (P x).
Proof.
  intros Hj Hx. destruct (Nat.lt_ge_cases x n) as [L|L].
  - destruct (r_base Hr L) as [_ ->]. apply base_dist; auto.
  - apply (r_node Hr (x := x)). auto.
Qed.

Lemma face_in k x : (k < n)%nat -> In x (face F k) -> In x (F k).
Proof. intros Hk K. destruct (face_rot n3 Ht Hk) as (a & b & -> & E). rewrite E in K. apply in_app_iff. apply in_app_iff in K. tauto. Qed.

Lemma face_H k x : (k < n)%nat -> In x (face F k) -> wd c k (P x) = H x.
Proof. intros Hk K. apply (r_face Hr Hk). apply face_in; auto. Qed.

Lemma cyc_next f u v : cyc f u v -> exists i w, (i < length f)%nat /\ nth_error f i = Some u /\ nth_error f ((i + 1) mod length f) = Some v /\
  nth_error f ((i + 2) mod length f) = Some w /\ cyc f v w.
Proof.
  intros K. apply cyc_nth in K as (i & K1 & K2). assert (Hi : (i < length f)%nat) by (apply nth_error_Some; congruence).
  destruct (nth_error f ((i + 2) mod length f)) as [w|] eqn:E.
  2:{ apply nth_error_None in E. pose proof (Nat.mod_upper_bound (i + 2) (length f)). lia. }
  exists i, w. do 4 (split; auto). apply cyc_nth. exists ((i + 1) mod length f)%nat. split; auto. rewrite Nat.add_mod_idemp_l by lia. rewrite <- Nat.add_assoc. auto.
Qed.

Lemma face_nodup k : (k < n)%nat -> NoDup (face F k).
Proof. intros Hk. destruct (face_shape n3 Ht Hk) as (? & ? & _ & _ & _ & _ & K). exact K. Qed.

(** a side of the face over wall k is the wall or separates it from another face *)
Lemma side_of k u v : (k < n)%nat -> cyc (face F k) u v -> exists w, cyc (face F k) v w /\ turn3 n A B U u v w /\
  (u = k /\ v = (S k mod n)%nat \/ exists j, (j < n)%nat /\ j <> k /\ In u (face F j) /\ In v (face F j)).
Proof.
  intros Hk K. destruct (cyc_next K) as (i & w & Hi & K1 & K2 & K3 & Kw). pose proof (ring_nth (face_ring n3 Ht Hk) Hi K1 K2 K3) as HT.
  exists w. split; auto. split; auto. pose proof (cyc_In K) as [Iu Iv]. pose proof (face_lt n3 Ht Hk Iu) as Lu. pose proof (face_lt n3 Ht Hk Iv) as Lv.
  destruct (three_apart Hc Hr Lv) as (N1 & N2 & N3).
  assert (G : forall j, (j < n)%nat -> cyc (face F j) v u -> w <> u -> u = k /\ v = (S k mod n)%nat \/ exists j, (j < n)%nat /\ j <> k /\ In u (face F j) /\ In v (face F j)).
  { intros j Hj Kj Nw. right. exists j. split; auto. pose proof (cyc_In Kj) as [J1 J2]. split; auto. intros ->. apply Nw. exact (cyc_func (face_nodup Hk) Kw Kj). }
  destruct HT as [[Eu Ew]|[[Eu Ew]|(L & Eu & Ew)]].
  - destruct (Nat.lt_ge_cases v n) as [L|L].
    + left. apply (face_foot n3 Ht Hk K); auto. rewrite Eu. destruct (t_base Ht L) as (-> & _). apply Nat.mod_upper_bound. clear - n3; lia.
    + destruct (t_node Ht (x := v)) as (_ & _ & _ & UA & _); auto. destruct (t_dart Ht Lu) as (_ & j & _ & Hj & _ & D).
      apply (proj2 (face_dart n3 Ht u Hj)) in D. rewrite Eu, UA in D. rewrite <- Eu in D. apply (G j Hj D). congruence.
  - destruct (t_dart Ht Lv) as (j & _ & Hj & _ & D & _). apply (proj1 (face_dart n3 Ht v Hj)) in D. rewrite <- Eu in D. apply (G j Hj D). congruence.
  - destruct (t_node Ht (x := v)) as (_ & _ & _ & _ & UB & _); auto. destruct (t_dart Ht Lu) as (_ & j & _ & Hj & _ & D).
    apply (proj2 (face_dart n3 Ht u Hj)) in D. rewrite Eu, UB in D. rewrite <- Eu in D. apply (G j Hj D). congruence.
Qed.

Lemma turn_left3 u v w : (v < M)%nat -> turn3 n A B U u v w -> 0 < orient (P u) (P v) (P w).
Proof.
  intros Hv HT. assert (E : orient (P u) (P v) (P w) = ncross (sub (P w) (P v)) (sub (P u) (P v))) by (unfold orient, ncross, sub, rvec; cbn [vx vy]; change (num RA) with R in *; ring).
  rewrite E. pose proof (turns Hc Hr Hv) as (K1 & K2 & _ & K3). fold n in K3. destruct HT as [[-> ->]|[[-> ->]|(L & -> & ->)]]; auto.
Qed.

(** two walls are not at the same distance from both ends of one of them *)
Lemma walls_differ k j : (k < n)%nat -> (j < n)%nat -> j <> k -> 0 < wd c j (P k) \/ 0 < wd c j (P (S k mod n)).
Proof.
  intros Hk Hj Hn. assert (Hs : (S k mod n < n)%nat) by (apply Nat.mod_upper_bound; clear - n3; lia).
  destruct (Nat.eq_dec k (S j mod n)) as [E|E]; [|left; apply base_dist; auto]. right. apply base_dist; auto.
  - intros E2. rewrite E in E2. rewrite <- Nat.add_1_l, Nat.add_mod_idemp_r in E2 by (clear - n3; lia).
    destruct (Nat.lt_ge_cases (1 + S j) n) as [L|L]; [rewrite Nat.mod_small in E2; lia|].
    replace (1 + S j)%nat with ((1 + S j - n) + 1 * n)%nat in E2 by lia. rewrite Nat.mod_add, Nat.mod_small in E2 by lia. lia.
  - rewrite <- E. apply (mod_neq n3 Hk).
Qed.

Lemma side_sign k u v : (k < n)%nat -> cyc (face F k) u v -> exists l, 0 < l /\
  ((forall p, orient (P u) (P v) p = l * wd c k p) \/ exists j, (j < n)%nat /\ j <> k /\ forall p, orient (P u) (P v) p = l * (wd c j p - wd c k p)).
Proof.
  intros Hk K. destruct (side_of Hk K) as (w & Kw & HT & [[-> ->]|(j & Hj & Hn & J1 & J2)]).
  - destruct (wd_orient Hk) as (l & Hl & G). exists l. auto.
  - pose proof (cyc_In K) as [Iu Iv]. pose proof (cyc_In Kw) as [_ Iw]. pose proof (face_lt n3 Ht Hk Iv) as Lv. pose proof (face_lt n3 Ht Hk Iw) as Lw.
    pose proof (turn_left3 Lv HT) as O. set (f := fun p => wd c j p - wd c k p). assert (Af : affine f) by (apply affine_sub; apply affine_wd).
    assert (Fu : f (P u) = 0) by (unfold f; rewrite (face_H Hj J1), (face_H Hk Iu); lra). assert (Fv : f (P v) = 0) by (unfold f; rewrite (face_H Hj J2), (face_H Hk Iv); lra).
    assert (Fw : 0 <= f (P w)) by (unfold f; rewrite (face_H Hk Iw); pose proof (nearest Hj Lw); lra).
    pose proof (fun p => same_line (P w) p Af Fu Fv) as G.
    assert (Fp : 0 < f (P w)).
    { destruct (Rle_lt_or_eq_dec 0 (f (P w)) Fw) as [|E]; auto. exfalso. 
      assert (Z : forall p, f p = 0). { intros p. specialize (G p). rewrite <- E, Rmult_0_l in G. apply Rmult_integral in G as [G|G]; [auto|lra]. }
      assert (Hs : (S k mod n < n)%nat) by (apply Nat.mod_upper_bound; clear - n3; lia).
      destruct (wd_orient Hk) as (l & Hl & G'). 
      assert (Z1 : wd c k (P k) = 0). { specialize (G' (P k)). assert (l * wd c k (P k) = 0) by (rewrite <- G'; unfold orient; change (num RA) with R in *; ring). apply Rmult_integral in H0 as [H0|H0]; [lra|auto]. }
      assert (Z2 : wd c k (P (S k mod n)) = 0). { specialize (G' (P (S k mod n))). assert (l * wd c k (P (S k mod n)) = 0) by (rewrite <- G'; unfold orient; change (num RA) with R in *; ring). apply Rmult_integral in H0 as [H0|H0]; [lra|auto]. }
      pose proof (Z (P k)) as Q1. pose proof (Z (P (S k mod n))) as Q2. unfold f in Q1, Q2. destruct (walls_differ Hk Hj Hn); lra. }
    exists (orient (P u) (P v) (P w) / f (P w)). split; [apply Rmult_lt_0_compat; [auto|apply Rinv_0_lt_compat; auto]|]. right. exists j. split; auto. split; auto.
    intros p. specialize (G p). fold (f p). apply (Rmult_eq_reg_l (f (P w))); [|lra]. rewrite <- G. field. lra.
Qed.

(** ** the face over wall k lies over the points to which k is nearest *)
Definition near k p : Prop := 0 <= wd c k p /\ forall j, (j < n)%nat -> wd c k p <= wd c j p.

(** a point strictly inside the face over wall k *)
Lemma face_inner k : (k < n)%nat -> exists q, forall u v, cyc (face F k) u v -> 0 < orient (P u) (P v) q.
Proof.
  intros Hk. destruct (face_shape n3 Ht Hk) as (l1 & l2 & _ & E & Hin & Hne & _). destruct (l2 ++ l1) as [|x r] eqn:Er; [congruence|].
  assert (Hx : (n <= x < M)%nat) by (apply Hin; simpl; auto). assert (Ix : In x (face F k)) by (rewrite E; simpl; auto).
  assert (Hs : (S k mod n < n)%nat) by (apply Nat.mod_upper_bound; clear - n3; lia).
  assert (Ik : In k (face F k)) by (rewrite E; simpl; auto). assert (Is : In (S k mod n) (face F k)) by (rewrite E; simpl; auto).
  set (q := rvec ((vx (P k) + vx (P (S k mod n)) + vx (P x)) / 3) ((vy (P k) + vy (P (S k mod n)) + vy (P x)) / 3)). exists q.
  assert (Aq : forall f, affine f -> f q = (f (P k) + f (P (S k mod n)) + f (P x)) / 3).
  { intros f (a & b & d & Hf). rewrite !Hf. unfold q, rvec. cbn [vx vy]. change (num RA) with R in *. field. }
  destruct (r_node Hr Hx) as (_ & Hpos & _).
  assert (Qk : wd c k q = H x / 3). { rewrite Aq by apply affine_wd. rewrite (face_H Hk Ik), (face_H Hk Is), (face_H Hk Ix). destruct (r_base Hr Hk) as [_ ->]. destruct (r_base Hr Hs) as [_ ->]. lra. }
  assert (Qj : forall j, (j < n)%nat -> j <> k -> wd c k q < wd c j q).
  { intros j Hj Hn. rewrite Qk, Aq by apply affine_wd. destruct (base_dist Hj Hk) as [B1 _]. destruct (base_dist Hj Hs) as [B2 _].
    assert (B3 : H x <= wd c j (P x)) by (apply nearest; [auto|apply Hx]). destruct (walls_differ Hk Hj Hn); lra. }
  intros u v K. destruct (side_sign Hk K) as (l & Hl & [G|(j & Hj & Hn & G)]); rewrite G; apply Rmult_lt_0_compat; auto; [lra|]. specialize (Qj j Hj Hn). lra.
Qed.

(** what is not negative at the corners of a face is not negative over it *)
Lemma face_affine k f p : (k < n)%nat -> affine f -> (forall u v, cyc (face F k) u v -> 0 <= orient (P u) (P v) p) ->
  (forall y, In y (face F k) -> 0 <= f (P y)) -> 0 <= f p.
Proof.
  intros Hk Af Hp Hy. destruct (face_inner Hk) as (q & Hq). destruct (face_shape n3 Ht Hk) as (l1 & l2 & _ & E & _).
  assert (El : face F k = k :: S k mod n :: tl (tl (face F k))) by (rewrite E; auto). exact (fan_closed Af El Hp Hq Hy).
Qed.

Lemma face_near k p : (k < n)%nat -> ((forall u v, cyc (face F k) u v -> 0 <= orient (P u) (P v) p) <-> near k p).
Proof.
  intros Hk. split.
  - intros Hp. split.
    + apply (face_affine Hk (affine_wd k) Hp). intros y Hy. rewrite face_H by auto. destruct (Nat.lt_ge_cases y n) as [L|L]; [destruct (r_base Hr L) as [_ ->]; lra|].
      destruct (r_node Hr (x := y)) as (_ & Hy0 & _); [split; [auto|apply (face_lt n3 Ht Hk Hy)]|lra].
    + intros j Hj. assert (G : 0 <= (fun p => wd c j p - wd c k p) p).
      { apply (face_affine Hk (affine_sub (affine_wd j) (affine_wd k)) Hp). intros y Hy. rewrite (face_H Hk Hy).
        pose proof (nearest Hj (face_lt n3 Ht Hk Hy)). lra. }
      cbv beta in G. lra.
  - intros [N1 N2] u v K. destruct (side_sign Hk K) as (l & Hl & [G|(j & Hj & Hn & G)]); rewrite G; apply Rmult_le_pos; auto; try lra. specialize (N2 j Hj). lra.
Qed.

(** ** every point with three nearest walls is a node *)
Lemma walls_tri i j k : (i < n)%nat -> (j < n)%nat -> (k < n)%nat -> i <> j -> j <> k -> i <> k -> tri (wn c i) (wn c j) (wn c k) <> 0.
Proof.
  assert (G : forall i j k, (i < j)%nat -> (j < k)%nat -> (k < n)%nat -> 0 < tri (wn c i) (wn c j) (wn c k)).
  { clear - Hc n3. intros i j k H1 H2 H3. destruct (edge_at_some Hc i) as (e & He). destruct (edge_at_some Hc j) as (f & Hf). destruct (edge_at_some Hc k) as (g & Hg).
    rewrite (wn_edge He), (wn_edge Hf), (wn_edge Hg). assert (Q1 : (i + (j - i) = j)%nat) by (clear - H1; lia). assert (Q2 : (i + (k - i) = k)%nat) by (clear - H1 H2; lia).
    apply (turn_tri Hc (i := i) (p := (j - i)%nat) (q := (k - i)%nat)); rewrite ?Q1, ?Q2; auto; [clear - H1|clear - H1 H2|fold n; clear - H3]; lia. }
  assert (S : forall a b d, tri a b d = - tri b a d) by (intros; unfold tri, ncross; ring).
  intros Hi Hj Hk Nij Njk Nik E.
  destruct (Nat.lt_ge_cases i j) as [L1|L1]; destruct (Nat.lt_ge_cases j k) as [L2|L2]; destruct (Nat.lt_ge_cases i k) as [L3|L3]; try lia.
  - pose proof (G i j k L1 L2 Hk). lra.
  - pose proof (G i k j L3 ltac:(lia) Hj). rewrite (tri_rot (wn c i)), S, tri_rot, tri_rot in E. lra.
  - pose proof (G k i j ltac:(lia) L1 Hj). rewrite <- tri_rot in E. lra.
  - pose proof (G j i k ltac:(lia) L3 Hk). rewrite S in E. lra.
  - pose proof (G j k i L2 ltac:(lia) Hi). rewrite tri_rot in E. lra.
  - pose proof (G k j i ltac:(lia) ltac:(lia) Hi). rewrite S, tri_rot in E. rewrite tri_rot in E. lra.
Qed.

Lemma meet_once i j k p q : (i < n)%nat -> (j < n)%nat -> (k < n)%nat -> i <> j -> j <> k -> i <> k ->
  wd c i p = wd c j p -> wd c j p = wd c k p -> wd c i q = wd c j q -> wd c j q = wd c k q -> p = q.
Proof.
  intros Hi Hj Hk N1 N2 N3 P1 P2 Q1 Q2. pose proof (walls_tri Hi Hj Hk N1 N2 N3) as T.
  destruct (edge_at_some Hc i) as (e & He). destruct (edge_at_some Hc j) as (f & Hf). destruct (edge_at_some Hc k) as (g & Hg).
  rewrite (wn_edge He), (wn_edge Hf), (wn_edge Hg) in T. rewrite !(wd_edge _ He), !(wd_edge _ Hf), ?(wd_edge _ Hg) in *.
  clear - T P1 P2 Q1 Q2. unfold ndist, tri, ncross in *. destruct p as [px py], q as [qx qy]. cbn [vx vy] in *.
  revert T P1 P2 Q1 Q2. generalize (vx (enorm e)) (vy (enorm e)) (vx (enorm f)) (vy (enorm f)) (vx (enorm g)) (vy (enorm g))
    (vx (ep1 e)) (vy (ep1 e)) (vx (ep1 f)) (vy (ep1 f)) (vx (ep1 g)) (vy (ep1 g)). change (num RA) with R in *.
  intros ex ey fx fy gx gy e1 e2 f1 f2 g1 g2 T P1 P2 Q1 Q2.
  assert (A1 : (fx - ex) * (py - qy) - (fy - ey) * (px - qx) = 0) by lra.
  assert (A2 : (gx - fx) * (py - qy) - (gy - fy) * (px - qx) = 0) by lra.
  assert (X : (px - qx) * (ex * fy - ey * fx + (fx * gy - fy * gx) + (gx * ey - gy * ex)) = 0).
  { transitivity ((gx - fx) * ((fx - ex) * (py - qy) - (fy - ey) * (px - qx)) - (fx - ex) * ((gx - fx) * (py - qy) - (gy - fy) * (px - qx))); [ring|rewrite A1, A2; ring]. }
  assert (Y : (py - qy) * (ex * fy - ey * fx + (fx * gy - fy * gx) + (gx * ey - gy * ex)) = 0).
  { transitivity ((gy - fy) * ((fx - ex) * (py - qy) - (fy - ey) * (px - qx)) - (fy - ey) * ((gx - fx) * (py - qy) - (gy - fy) * (px - qx))); [ring|rewrite A1, A2; ring]. }
  apply Rmult_integral in X as [X|X]; [|contradiction]. apply Rmult_integral in Y as [Y|Y]; [|contradiction].
  f_equal; lra.
Qed.

Lemma least_pos (g : nat -> R) l : (forall y, In y l -> 0 < g y) -> exists m, 0 < m /\ forall y, In y l -> m <= g y.
Proof.
  induction l as [|a l IH]; intros K; [exists 1; split; [lra|intros y []]|]. destruct IH as (m & M0 & M1); [intros y Hy; apply K; right; auto|].
  exists (Rmin m (g a)). split; [apply Rmin_glb_lt; auto; apply K; left; auto|].
  intros y [<-|Hy]; [apply Rmin_r|]. eapply Rle_trans; [apply Rmin_l|auto].
Qed.

Lemma all_points x h : roof_point c x h -> exists v, (n <= v < M)%nat /\ P v = x.
Proof.
  intros ((e1 & e2 & e3 & I1 & I2 & I3 & D1 & D2 & D3 & E1 & E2 & Eh) & Near).
  pose proof I1 as J1. apply In_nth_error in J1 as (i & Hi). pose proof I2 as J2. apply In_nth_error in J2 as (j & Hj). pose proof I3 as J3. apply In_nth_error in J3 as (k & Hk).
  assert (W : forall i e p, nth_error c i = Some e -> (i < n)%nat /\ wd c i p = edge_dist e p).
  { clear - Hc. intros i e p K. assert (L : (i < n)%nat) by (apply nth_error_Some; congruence). split; auto.
    assert (He : edge_at c i = Some e) by (unfold edge_at; fold n; rewrite Nat.mod_small; auto).
    rewrite (wd_edge _ He). symmetry. apply edge_dist_n. exact (edge_directed Hc He). }
  destruct (W i e1 x Hi) as [Li Wi]. destruct (W j e2 x Hj) as [Lj Wj]. destruct (W k e3 x Hk) as [Lk Wk].
  assert (N1 : i <> j) by congruence. assert (N2 : j <> k) by congruence. assert (N3 : i <> k) by congruence.
  assert (Ni : near i x).
  { pose proof (Rabs_pos (edge_dist e1 x)). pose proof (Near e1 I1) as Q. split; [lra|]. intros m Lm.
    destruct (nth_error c m) as [e|] eqn:Em; [|apply nth_error_None in Em; fold n in Em; lia]. destruct (W m e x Em) as [_ ->].
    specialize (Near e (nth_error_In _ _ Em)). rewrite Wi. rewrite Eh in Near, Q. rewrite Rabs_right in Near by lra. auto. }
  set (g := fun p => (wd c j p - wd c i p) - (wd c i p - wd c k p)).
  assert (Ag : affine g) by (unfold g; apply (affine_sub (affine_sub (affine_wd j) (affine_wd i)) (affine_sub (affine_wd i) (affine_wd k)))).
  assert (Gx : g x = 0) by (unfold g; lra).
  assert (Gy : forall y, In y (face F i) -> 0 <= wd c j (P y) - wd c i (P y) /\ 0 <= wd c k (P y) - wd c i (P y)).
  { intros y Hy. rewrite (face_H Li Hy). pose proof (nearest Lj (face_lt n3 Ht Li Hy)). pose proof (nearest Lk (face_lt n3 Ht Li Hy)). lra. }
  destruct (Exists_dec (fun y => g (P y) = 0) (face F i) (fun y => Req_EM_T _ _)) as [Ex|Nex].
  - apply Exists_exists in Ex as (y & Hy & Gz). exists y. pose proof (Gy y Hy) as [Y1 Y2]. unfold g in Gz.
    assert (Z1 : wd c i (P y) = wd c j (P y)) by lra. assert (Z2 : wd c j (P y) = wd c k (P y)) by lra. split.
    + split; [|exact (face_lt n3 Ht Li Hy)]. destruct (Nat.lt_ge_cases y n) as [L|L]; auto. exfalso.
      assert (Z0 : wd c i (P y) = 0) by (rewrite (face_H Li Hy); apply (r_base Hr L)).
      assert (Bz : forall m, (m < n)%nat -> wd c m (P y) = 0 -> y = m \/ y = (S m mod n)%nat).
      { intros m Lm K. destruct (Nat.eq_dec y m); auto. destruct (Nat.eq_dec y (S m mod n)); auto. destruct (base_dist Lm L) as [_ Q]. specialize (Q n0 n1). lra. }
      assert (Inj : forall a b, (a < n)%nat -> (b < n)%nat -> (S a mod n = S b mod n)%nat -> a = b).
      { clear. intros a b La Lb E. destruct (Nat.eq_dec (S a) n) as [Ea|Ea]; destruct (Nat.eq_dec (S b) n) as [Eb|Eb]; try lia.
        - rewrite Ea, Nat.mod_same, Nat.mod_small in E; lia.
        - rewrite Eb, Nat.mod_same, Nat.mod_small in E; lia.
        - rewrite !Nat.mod_small in E; lia. }
      destruct (Bz i Li Z0) as [Bi|Bi]; destruct (Bz j Lj ltac:(lra)) as [Bj|Bj]; destruct (Bz k Lk ltac:(lra)) as [Bk|Bk]; try congruence;
        first [apply N1, Inj; congruence|apply N2, Inj; congruence|apply N3, Inj; congruence].
    + apply (meet_once Li Lj Lk); auto; lra.
  - exfalso. assert (Gp : forall y, In y (face F i) -> 0 < g (P y)).
    { intros y Hy. destruct (Gy y Hy) as [Y1 Y2]. assert (g (P y) <> 0) by (intros K; apply Nex, Exists_exists; eauto). unfold g in *. lra. }
    destruct (least_pos Gp) as (m & M0 & M1).
    assert (Q : 0 <= (fun p => g p - m) x).
    { apply (face_affine (f := fun p => g p - m) Li); [|apply (face_near x Li); auto|intros y Hy; specialize (M1 y Hy); lra].
      destruct Ag as (a & b & d & K). exists a, b, (d - m). intros p. rewrite K. ring. }
    cbv beta in Q. lra.
Qed.
End Tile.
