(** * PyramidGraph: the faces around a single node (C52) *)

From Coq Require Import Permutation Sorting.Sorted Reals Lra.
From Verif Require Import Py PyFacts Arith ArithR Euclid Graph GraphSpec GraphProofs AngleSpec AngleProofs Lav Cluster Poly PySort SortProofs ClusterSpec GeoSpec GeoLines BisSpec BisProofs BisStart
  PatSpec TriSpec TriSkel TriRoof ConvexSpec ConvexGeo ConvexWave RoofSpec ConvexComb ConvexTree ConvexPost ConvexFaces ConvexGraph PyramidSpec PyramidSkel.
Set Implicit Arguments.
Unset Strict Implicit.
Local Open Scope nat_scope.

(** ** the order of the neighbours of the node *)

(** angles for finitely many directions *)
Lemma angles_exist (d : nat -> vec3 RA) n : (forall i, i < n -> wx (d i) <> 0%R \/ wy (d i) <> 0%R) ->
  exists ang : nat -> R, forall i, i < n -> polar (d i) (ang i).
Proof.
  induction n as [|n IH]; intros H; [exists (fun _ => 0%R); intros; lia|]. destruct IH as (ang & Ha); [intros; apply H; lia|].
  destruct (@polar_exists (d n)) as (t & Ht); [apply H; lia|]. exists (fun i => if Nat.eqb i n then t else ang i). intros i Hi.
  destruct (Nat.eqb_spec i n) as [->|]; auto. apply Ha. lia.
Qed.

Lemma cross_sin (d1 d2 : vec3 RA) t1 t2 : polar d1 t1 -> polar d2 t2 -> (0 < sin (t2 - t1))%R -> (0 < wx d1 * wy d2 - wy d1 * wx d2)%R.
Proof.
  intros (_ & r1 & R1 & X1 & Y1) (_ & r2 & R2 & X2 & Y2) H. rewrite X1, Y1, X2, Y2.
  change (0 < r1 * cos t1 * (r2 * sin t2) - r1 * sin t1 * (r2 * cos t2))%R.
  replace (r1 * cos t1 * (r2 * sin t2) - r1 * sin t1 * (r2 * cos t2))%R with (r1 * r2 * sin (t2 - t1))%R by (rewrite sin_minus; ring).
  apply Rmult_lt_0_compat; auto. apply Rmult_lt_0_compat; auto.
Qed.

(** a clockwise turn by less than pi *)
Definition cw (a b : R) : R := if Rle_dec b a then (a - b)%R else (a - b + 2 * PI)%R.

Lemma cw_turn a b : (0 <= a < 2 * PI)%R -> (0 <= b < 2 * PI)%R -> clockwise_turn a b (cw a b).
Proof.
  intros Ha Hb. unfold cw, clockwise_turn. pose proof PI_RGT_0. destruct (Rle_dec b a); (split; [lra|]).
  - exists 0%Z. lra.
  - exists (-1)%Z. lra.
Qed.

Lemma sin_cw a b : sin (cw a b) = sin (a - b).
Proof. unfold cw. destruct (Rle_dec b a); auto. rewrite sin_plus, cos_2PI, sin_2PI. ring. Qed.

Lemma cw_diff a b e : (sin (cw a b - cw a e) = sin (e - b))%R.
Proof.
  unfold cw. destruct (Rle_dec b a), (Rle_dec e a).
  - f_equal. ring.
  - replace (a - b - (a - e + 2 * PI))%R with (e - b - 2 * PI)%R by ring. rewrite sin_minus, cos_2PI, sin_2PI. ring.
  - replace (a - b + 2 * PI - (a - e))%R with (e - b + 2 * PI)%R by ring. rewrite sin_plus, cos_2PI, sin_2PI. ring.
  - f_equal. ring.
Qed.

Lemma cw_small (d1 d2 : vec3 RA) t1 t2 : polar d1 t1 -> polar d2 t2 -> (0 < wx d1 * wy d2 - wy d1 * wx d2)%R -> (0 < cw t2 t1 < PI)%R.
Proof.
  intros H1 H2 H. pose proof (cross_angle H1 H2 H) as K. pose proof PI_RGT_0. destruct H1 as [[A1 A2] _], H2 as [[B1 B2] _].
  unfold cw. destruct (Rle_dec t1 t2); lra.
Qed.

Section Hub.
Variables (vl : list (vec3 RA)) (v0 : Z) (n : nat) (vid : nat -> Z) (d : nat -> vec3 RA) (nxt : nat -> nat).
Hypothesis vid_inj : forall i j, vid i = vid j -> i = j.
Hypothesis Hrel : forall i, i < n -> rel vl v0 (vid i) (d i).
Hypothesis nxt_lt : forall i, i < n -> nxt i < n.
Hypothesis Hturn : forall i, i < n -> (0 < wx (d i) * wy (d (nxt i)) - wy (d i) * wx (d (nxt i)))%R.
(** no other direction lies between two that follow each other *)
Hypothesis Hgap : forall i j, i < n -> j < n -> (0 < wx (d i) * wy (d j) - wy (d i) * wx (d j))%R ->
  (0 < wx (d j) * wy (d (nxt i)) - wy (d j) * wx (d (nxt i)))%R -> False.
Hypothesis Hdist : forall i j, i < n -> j < n -> i <> j ->
  (wx (d i) * wy (d j) - wy (d i) * wx (d j))%R = 0%R -> (wx (d i) * wx (d j) + wy (d i) * wy (d j) < 0)%R.

Lemma hub_order ns : Permutation ns (map vid (seq 0 n)) ->
  exists l, py_sorted (angle_lt vl v0) ns = Ok l /\ forall i, i < n -> rotation_succ l (vid (nxt i)) (vid i).
Proof.
  intros Hp.
  assert (Hnz : forall i, i < n -> wx (d i) <> 0%R \/ wy (d i) <> 0%R).
  { intros i Hi. destruct (Req_dec (wx (d i)) 0) as [E|E]; auto. right. intros F. pose proof (Hturn Hi) as K. rewrite E, F in K. simpl in K. lra. }
  destruct (angles_exist Hnz) as (ang0 & Hang).
  assert (Hinv : exists ang : Z -> R, forall i, i < n -> ang (vid i) = ang0 i).
  { clear - vid_inj. induction n as [|m (ang & IH)]; [exists (fun _ => 0%R); intros; lia|].
    exists (fun z => if (z =? vid m)%Z then ang0 m else ang z). intros i Hi. destruct (Z.eqb_spec (vid i) (vid m)) as [E|E]; [apply vid_inj in E; subst; auto|].
    apply IH. assert (i <> m) by (intros ->; auto). lia. }
  destruct Hinv as (ang & Hinv).
  assert (Hin : forall w, In w ns <-> exists i, i < n /\ w = vid i).
  { intros w. split.
    - intros K. apply (Permutation_in _ Hp) in K. apply in_map_iff in K as (i & <- & Hi). apply in_seq in Hi. exists i. split; auto; lia.
    - intros (i & Hi & ->). apply (Permutation_in _ (Permutation_sym Hp)). apply in_map. apply in_seq. lia. }
  assert (Dir : forall w, In w ns -> direction vl v0 w (ang w)).
  { intros w K. apply Hin in K as (i & Hi & ->). destruct (Hrel Hi) as (pc & pv & G1 & G2 & E1 & E2). exists pc, pv, (d i).
    rewrite Hinv by auto. repeat (split; [assumption|]). exact (Hang i Hi). }
  assert (Hne : forall i j, i < n -> j < n -> i <> j -> ang0 i <> ang0 j).
  { intros i j Hi Hj Hij E. destruct (Hang i Hi) as (_ & r1 & R1 & X1 & Y1). destruct (Hang j Hj) as (_ & r2 & R2 & X2 & Y2). rewrite E in X1, Y1.
    pose proof (Hdist Hi Hj Hij) as K. rewrite X1, Y1, X2, Y2 in K. change (num RA) with R in *. 
    pose proof (sin2_cos2 (ang0 j)) as Q. unfold Rsqr in Q. pose proof (Rmult_lt_0_compat _ _ R1 R2) as Q2.
    assert (r1 * cos (ang0 j) * (r2 * cos (ang0 j)) + r1 * sin (ang0 j) * (r2 * sin (ang0 j)) < 0)%R by (apply K; ring).
    replace (r1 * cos (ang0 j) * (r2 * cos (ang0 j)) + r1 * sin (ang0 j) * (r2 * sin (ang0 j)))%R
      with (r1 * r2 * (sin (ang0 j) * sin (ang0 j) + cos (ang0 j) * cos (ang0 j)))%R in H by ring. rewrite Q in H. lra. }
  assert (ND : NoDup (map ang ns)).
  { eapply Permutation_NoDup; [apply Permutation_map, Permutation_sym; exact Hp|]. rewrite map_map. apply NoDup_map_inj; [|apply seq_NoDup].
    intros i j Hi Hj E. apply in_seq in Hi, Hj. rewrite !Hinv in E by lia. destruct (Nat.eq_dec i j) as [|K]; auto. exfalso. apply (Hne i j); auto; lia. }
  destruct (sorted_neighbours Dir ND) as (l & Hl & Hpl & Hs). exists l. split; auto. intros i Hi.
  assert (Hrange : forall y, In y l -> (0 <= ang y < 2 * PI)%R).
  { intros y Hy. apply (Permutation_in _ (Permutation_sym Hpl)) in Hy. apply Hin in Hy as (j & Hj & ->). rewrite Hinv by auto. apply (Hang j Hj). }
  assert (Hinl : forall j, j < n -> In (vid j) l).
  { intros j Hj. apply (Permutation_in _ Hpl). apply Hin. eauto. }
  pose proof (Hinl _ (nxt_lt Hi)) as Hu. apply In_nth_error in Hu as (k & Hk).
  assert (Lk : k < length l) by (apply nth_error_Some; congruence).
  destruct (nth_error l ((k + 1) mod length l)) as [w|] eqn:Ew.
  2:{ apply nth_error_None in Ew. pose proof (Nat.mod_upper_bound (k + 1) (length l)). lia. }
  assert (Hrs : rotation_succ l (vid (nxt i)) w) by (exists k; auto).
  assert (Hw : In w l) by (eapply nth_error_In; eauto).
  pose proof (Permutation_in _ (Permutation_sym Hpl) Hw) as Hw'. apply Hin in Hw' as (j & Hj & ->).
  destruct (Nat.eq_dec i j) as [<-|Hij]; auto. exfalso.
  assert (Hine : vid i <> vid (nxt i)).
  { intros E. apply vid_inj in E. pose proof (Hturn Hi) as K. rewrite <- E in K. simpl in K. lra. }
  pose proof (@clockwise_next ang l (vid (nxt i)) (vid j) (vid i) _ _ Hs Hrange Hrs (Hinl i Hi) Hine
    (cw_turn (Hrange _ (Hinl _ (nxt_lt Hi))) (Hrange _ (Hinl j Hj))) (cw_turn (Hrange _ (Hinl _ (nxt_lt Hi))) (Hrange _ (Hinl i Hi)))) as [K1 K2].
  rewrite (Hinv i Hi), ?(Hinv j Hj), ?(Hinv _ (nxt_lt Hi)) in K2. rewrite (Hinv j Hj), (Hinv _ (nxt_lt Hi)) in K1. pose proof (cw_small (Hang i Hi) (Hang _ (nxt_lt Hi)) (Hturn Hi)) as [K3 K4].
  assert (K5 : (cw (ang0 (nxt i)) (ang0 j) < cw (ang0 (nxt i)) (ang0 i))%R).
  { destruct K2 as [K2|K2]; auto. exfalso. pose proof (Hrange _ (Hinl i Hi)) as Q1. pose proof (Hrange _ (Hinl j Hj)) as Q2. rewrite (Hinv i Hi) in Q1. rewrite (Hinv j Hj) in Q2.
    apply (Hne i j); auto. unfold cw in K2. destruct (Rle_dec (ang0 j) (ang0 (nxt i))), (Rle_dec (ang0 i) (ang0 (nxt i))); lra. }
  apply (Hgap Hi Hj).
  - apply (cross_sin (Hang i Hi) (Hang j Hj)). rewrite <- (cw_diff (ang0 (nxt i))). apply sin_gt_0; lra.
  - apply (cross_sin (Hang j Hj) (Hang _ (nxt_lt Hi))). rewrite <- sin_cw. apply sin_gt_0; lra.
Qed.
End Hub.

(** ** the contour seen from the node *)
Section Graph.
Variable c : list (@edge2 RA).
Hypothesis Hc : convex_contour c.
Variables (x : pt) (r : R).
Hypothesis Ht : tangential c x r.
Let n := length c.
Let n3 : 3 <= n := n_pos Hc.
Notation nx i := (S i mod n).
Notation pv i := ((i + n - 1) mod n).

Lemma nx_lt i : nx i < n.
Proof. apply Nat.mod_upper_bound. clear - n3. lia. Qed.
Lemma pv_lt i : pv i < n.
Proof. apply Nat.mod_upper_bound. clear - n3. lia. Qed.
Lemma nx_pv i : i < n -> nx (pv i) = i.
Proof.
  intros Hi. destruct i as [|i]; [rewrite (Nat.mod_small (0 + n - 1)) by (clear - n3; lia); replace (S (0 + n - 1)) with n by (clear - n3; lia); apply Nat.mod_same; clear - n3; lia|].
  replace (S i + n - 1) with (i + 1 * n) by (clear - n3; lia). rewrite Nat.mod_add, (Nat.mod_small i), Nat.mod_small; clear - n3 Hi; lia.
Qed.
Lemma pv_nx i : i < n -> pv (nx i) = i.
Proof.
  intros Hi. destruct (Nat.eq_dec (S i) n) as [E|E]; [rewrite E, Nat.mod_same by (clear - n3; lia); rewrite Nat.mod_small; clear - n3 E; lia|].
  rewrite (Nat.mod_small (S i)) by (clear - Hi E; lia). replace (S i + n - 1) with (i + 1 * n) by (clear - n3; lia). rewrite Nat.mod_add, Nat.mod_small; clear - n3 Hi; lia.
Qed.
Lemma nx_ne i : i < n -> nx i <> i.
Proof.
  intros Hi. destruct (Nat.eq_dec (S i) n) as [E|E]; [rewrite E, Nat.mod_same by (clear - n3; lia); clear - n3 E; lia|].
  rewrite Nat.mod_small by (clear - Hi E; lia). lia.
Qed.
Lemma pv_ne i : i < n -> pv i <> i.
Proof. intros Hi E. apply (nx_ne Hi). rewrite <- E at 1. apply nx_pv; auto. Qed.
Lemma nx_ne_pv i : i < n -> nx i <> pv i.
Proof.
  intros Hi. destruct i as [|i]; [rewrite (Nat.mod_small (0 + n - 1)) by (clear - n3; lia); rewrite Nat.mod_small by (clear - n3; lia); clear - n3; lia|].
  replace (S i + n - 1) with (i + 1 * n) by (clear - n3; lia). rewrite Nat.mod_add, (Nat.mod_small i) by (clear - n3 Hi; lia).
  destruct (Nat.eq_dec (S (S i)) n) as [E|E]; [rewrite E, Nat.mod_same by (clear - n3; lia); clear - n3 E; lia|rewrite Nat.mod_small; clear - Hi E; lia].
Qed.

Lemma pntm i : pnt c (i mod n) = pnt c i.
Proof. unfold pnt, edge_at. fold n. rewrite Nat.mod_mod by (clear - n3; lia). auto. Qed.

(** the wall i as a line: its distance function and its length *)
Lemma wall i : i < n -> exists e l, edge_at c i = Some e /\ (0 < l)%R /\ (forall p, orient (pnt c i) (pnt c (nx i)) p = l * ndist e p)%R /\ ndist e x = r.
Proof.
  intros Hi. destruct (edge_at_some Hc i) as (e & He). pose proof (edge_directed Hc He) as Hd.
  assert (E2 : ep2 e = pnt c (nx i)) by (rewrite (edge_at_succ Hc He), pntm; auto).
  assert (E1 : ep1 e = pnt c i) by (unfold pnt; rewrite He; auto).
  exists e, (euclid_dist (ep1 e) (ep2 e)). split; auto. assert (D : (0 < euclid_dist (ep1 e) (ep2 e))%R) by (apply dist_pos, Hd). split; auto. split.
  - intros p. rewrite <- E1, <- E2, <- (edge_dist_n _ Hd). unfold edge_dist, signed_dist. change (num RA) with R in *. field. lra.
  - apply (tan_edge Hc Ht He).
Qed.

Lemma corner_in i j : i < n -> j < n -> j <> i -> j <> nx i -> (0 < orient (pnt c i) (pnt c (nx i)) (pnt c j))%R.
Proof.
  intros Hi Hj N1 N2. rewrite pntm.
  assert (E : exists d, 1 < d < n /\ pnt c j = pnt c (i + d)).
  { destruct (Nat.lt_ge_cases j i) as [L|L].
    - exists (j + n - i). split.
      + split; [|lia]. assert (j + n - i <> 1); [|lia]. intros E. apply N2. assert (E' : S i = j + 1 * n) by lia. rewrite E', Nat.mod_add by lia. rewrite Nat.mod_small; lia.
      + rewrite <- (pntm (i + _)). replace (i + (j + n - i)) with (j + 1 * n) by lia. rewrite Nat.mod_add by lia. rewrite Nat.mod_small by lia. auto.
    - exists (j - i). split; [|f_equal; lia]. split; [|lia]. assert (j <> S i); [|lia]. intros ->. apply N2. rewrite Nat.mod_small; lia. }
  destruct E as (d & Hd & ->). pose proof (@pnt_orient c Hc i 0 1 d ltac:(lia) ltac:(lia) ltac:(fold n; lia)) as O. rewrite Nat.add_0_r, Nat.add_1_r in O. exact O.
Qed.

Lemma corner_far i e j : i < n -> j < n -> edge_at c i = Some e -> (0 <= ndist e (pnt c j))%R /\ (j <> i -> j <> nx i -> (0 < ndist e (pnt c j))%R) /\
  ndist e (pnt c i) = 0%R /\ ndist e (pnt c (nx i)) = 0%R.
Proof.
  intros Hi Hj He. destruct (wall Hi) as (e' & l & He' & Hl & Ho & _). rewrite He in He'. assert (e' = e) by congruence. subst e'.
  assert (Z : forall p, (l * ndist e p)%R = 0%R -> ndist e p = 0%R) by (intros p K; apply Rmult_integral in K as [K|K]; lra).
  assert (Z0 : ndist e (pnt c i) = 0%R) by (apply Z; rewrite <- Ho; unfold orient; ring).
  assert (Z1 : ndist e (pnt c (nx i)) = 0%R) by (apply Z; rewrite <- Ho; unfold orient; ring).
  assert (Pos : j <> i -> j <> nx i -> (0 < ndist e (pnt c j))%R).
  { intros N1 N2. pose proof (corner_in Hi Hj N1 N2) as K. rewrite Ho in K. destruct (Rlt_dec 0 (ndist e (pnt c j))) as [|Q]; auto. exfalso.
    pose proof (Rmult_le_pos l (- ndist e (pnt c j)) ltac:(lra) ltac:(lra)). lra. }
  split; [|split; [auto|split; auto]]. destruct (Nat.eq_dec j i) as [->|N1]; [lra|]. destruct (Nat.eq_dec j (nx i)) as [->|N2]; [lra|]. apply Rlt_le. auto.
Qed.

Definition spoke i : pt := sub (pnt c i) x.

Lemma ndist_spoke e i : ndist e (pnt c i) = (ndist e x + ncross (enorm e) (spoke i))%R.
Proof. unfold ndist, ncross, spoke, sub, rvec. cbn [vx vy]. change (num RA) with R in *. ring. Qed.

Lemma spoke_turn i : i < n -> (0 < ncross (spoke i) (spoke (nx i)))%R.
Proof.
  intros Hi. destruct (wall Hi) as (e & l & _ & Hl & Ho & Hx). specialize (Ho x). rewrite Hx in Ho.
  pose proof (Rmult_lt_0_compat _ _ Hl (proj1 Ht)) as K. rewrite <- Ho in K.
  replace (ncross (spoke i) (spoke (nx i))) with (orient (pnt c i) (pnt c (nx i)) x); auto.
  unfold ncross, spoke, orient, sub, rvec. cbn [vx vy]. change (num RA) with R in *. ring.
Qed.

Lemma spoke_gap i j : i < n -> j < n -> (0 < ncross (spoke i) (spoke j))%R -> (0 < ncross (spoke j) (spoke (nx i)))%R -> False.
Proof.
  intros Hi Hj K1 K2. pose proof (spoke_turn Hi) as K0.
  assert (N1 : j <> i) by (intros ->; rewrite ncross_self in K1; lra). assert (N2 : j <> nx i) by (intros ->; rewrite ncross_self in K2; lra).
  destruct (wall Hi) as (e & _ & He & _ & _ & Hx). destruct (wall Hj) as (f & _ & Hf & _ & _ & Hx').
  destruct (corner_far Hi Hj He) as (_ & P1 & Z1 & Z2). specialize (P1 N1 N2).
  destruct (corner_far Hj Hi Hf) as (Q1 & _ & Z3 & _). destruct (corner_far Hj (nx_lt i) Hf) as (Q2 & _).
  rewrite ndist_spoke, Hx in P1, Z1, Z2. rewrite ndist_spoke, Hx' in Q1, Q2, Z3.
  (* D d_j = a d_i + b d_{i+1} *)
  assert (Comb : forall m, (ncross (spoke i) (spoke (nx i)) * ncross m (spoke j) =
    ncross (spoke j) (spoke (nx i)) * ncross m (spoke i) + ncross (spoke i) (spoke j) * ncross m (spoke (nx i)))%R).
  { intros m. generalize (spoke i) (spoke j) (spoke (nx i)). intros u v w. unfold ncross. change (num RA) with R in *. ring. }
  pose proof (Comb (enorm e)) as C1. pose proof (Comb (enorm f)) as C2.
  set (D := ncross (spoke i) (spoke (nx i))) in *. set (a := ncross (spoke j) (spoke (nx i))) in *. set (b := ncross (spoke i) (spoke j)) in *.
  assert (E1 : ncross (enorm e) (spoke i) = (- r)%R) by lra. assert (E2 : ncross (enorm e) (spoke (nx i)) = (- r)%R) by lra.
  assert (E3 : ncross (enorm f) (spoke j) = (- r)%R) by lra. rewrite E1, E2 in C1. rewrite E3 in C2.
  pose proof (Rmult_lt_0_compat _ _ K0 P1) as G1. pose proof (Rmult_le_pos _ _ (Rlt_le _ _ K2) Q1) as G2. pose proof (Rmult_le_pos _ _ (Rlt_le _ _ K1) Q2) as G3.
  lra.
Qed.

Lemma spoke_apart i j : i < n -> j < n -> i <> j -> ncross (spoke i) (spoke j) = 0%R -> (vx (spoke i) * vx (spoke j) + vy (spoke i) * vy (spoke j) < 0)%R.
Proof.
  intros Hi Hj Hij K. destruct (Rlt_dec (vx (spoke i) * vx (spoke j) + vy (spoke i) * vy (spoke j)) 0) as [|L]; auto. exfalso.
  destruct (wall Hi) as (e & _ & He & _ & _ & Hx). destruct (wall Hj) as (f & _ & Hf & _ & _ & Hx').
  destruct (corner_far Hi Hj He) as (P1 & _ & Z1 & _). destruct (corner_far Hj Hi Hf) as (Q1 & _ & Z2 & _).
  rewrite ndist_spoke, Hx in P1, Z1. rewrite ndist_spoke, Hx' in Q1, Z2.
  pose proof (spoke_turn Hi) as K0. pose proof (proj1 Ht) as Hr.
  assert (Hne : spoke i <> spoke j).
  { intros E. apply Hij. apply (pnt_distinct Hc); auto. unfold spoke, sub, rvec in E. injection E as E1 E2. apply vec_ext; change (num RA) with R in *; lra. }
  set (s := (vx (spoke i) * vx (spoke i) + vy (spoke i) * vy (spoke i))%R).
  set (q := (vx (spoke i) * vx (spoke j) + vy (spoke i) * vy (spoke j))%R) in *.
  assert (Hs : (0 < s)%R).
  { destruct (Rlt_dec 0 s) as [|Q]; auto. exfalso. unfold s in Q. change (num RA) with R in *.
    assert (S0 : vx (spoke i) = 0%R) by nra. assert (S1 : vy (spoke i) = 0%R) by nra. unfold ncross in K0. rewrite S0, S1 in K0. lra. }
  assert (Par : (s * vx (spoke j) = q * vx (spoke i) /\ s * vy (spoke j) = q * vy (spoke i))%R).
  { revert K. unfold s, q, ncross. generalize (spoke i) (spoke j). intros u v. change (num RA) with R in *. intros K.
    split; apply Rminus_diag_uniq.
    - replace ((vx u * vx u + vy u * vy u) * vx v - (vx u * vx v + vy u * vy v) * vx u)%R with (- vy u * (vx u * vy v - vy u * vx v))%R by ring. rewrite K. ring.
    - replace ((vx u * vx u + vy u * vy u) * vy v - (vx u * vx v + vy u * vy v) * vy u)%R with (vx u * (vx u * vy v - vy u * vx v))%R by ring. rewrite K. ring. }
  assert (Cr : forall m, (s * ncross m (spoke j) = q * ncross m (spoke i))%R).
  { intros m. destruct Par as [A1 A2]. unfold ncross. change (num RA) with R in *.
    replace (s * (vx m * vy (spoke j) - vy m * vx (spoke j)))%R with (vx m * (s * vy (spoke j)) - vy m * (s * vx (spoke j)))%R by ring. rewrite A1, A2. ring. }
  pose proof (Cr (enorm e)) as C1. pose proof (Cr (enorm f)) as C2.
  assert (E1 : ncross (enorm e) (spoke i) = (- r)%R) by lra. assert (E2 : ncross (enorm f) (spoke j) = (- r)%R) by lra.
  rewrite E1 in C1. rewrite E2 in C2.
  pose proof (Rmult_le_pos _ _ (Rlt_le _ _ Hs) P1) as G1. assert (Hq : (0 <= q)%R) by lra. pose proof (Rmult_le_pos _ _ Hq Q1) as G2.
  assert (Eq : q = s). { apply (Rmult_eq_reg_r r); [|lra]. lra. }
  apply Hne. destruct Par as [A1 A2]. rewrite Eq in A1, A2. apply vec_ext; change (num RA) with R in *; apply (Rmult_eq_reg_l s); lra.
Qed.

(** ** the graph *)
Variables first nr : Z.
Hypothesis Hnr : (first + Z.of_nat n <= nr)%Z.
Hypothesis Hids : forall i e, nth_error c i = Some e -> ei1 e = (first + Z.of_nat i)%Z.
Variable order : list nat.
Hypothesis Hord : Permutation (seq 0 n) order.
Let sk : list (@subtree RA) := [Subtree (A := RA) x r (map (pnt c) order)].
Notation vid := (vid c first nr).
Notation rim := (rim c first nr).

Definition P v : pt := if Nat.ltb v n then pnt c v else x.

Lemma P_low v : v < n -> P v = pnt c v.
Proof. intros Hv. unfold P. destruct (Nat.ltb_spec v n); [auto|lia]. Qed.
Lemma P_top : P n = x.
Proof. unfold P. rewrite Nat.ltb_irrefl. auto. Qed.
Lemma vid_top : vid n = nr.
Proof. rewrite (vid_high Hc (v := n) first nr (Nat.le_refl _)). rewrite Nat.sub_diag. simpl. lia. Qed.

Definition spokes : list dart := map (fun v => (vid n, vid v)) order.
Notation E := (rim ++ spokes).

Lemma in_order i : In i order <-> i < n.
Proof.
  split; intros K.
  - apply (Permutation_in _ (Permutation_sym Hord)) in K. apply in_seq in K. lia.
  - apply (Permutation_in _ Hord). apply in_seq. lia.
Qed.

Lemma in_spokes a b : In (a, b) spokes <-> exists i, i < n /\ a = vid n /\ b = vid i.
Proof.
  unfold spokes. rewrite in_map_iff. split.
  - intros (i & K & Hi). injection K as <- <-. exists i. split; auto. apply in_order; auto.
  - intros (i & Hi & -> & ->). exists i. split; auto. apply in_order; auto.
Qed.

Lemma sink_corner i : i < n -> sink_index c sk nr (pnt c i) = vid i.
Proof.
  intros Hi. unfold sink_index.
  assert (Hp : forall j e, nth_error c j = Some e -> j < n /\ ep1 e = pnt c j).
  { intros j e Hj. assert (L : j < n) by (apply nth_error_Some; congruence). split; auto. unfold pnt, edge_at. fold n. rewrite Nat.mod_small, Hj by auto. auto. }
  destruct (nth_error c i) as [e|] eqn:Ee; [|apply nth_error_None in Ee; fold n in Ee; lia].
  destruct (@find_first _ (fun e => veq (ep1 e) (pnt c i)) c i e Ee) as [-> _].
  - apply veq_R. apply (Hp i e Ee).
  - intros j y Hj Hy. apply veq_R in Hy. destruct (Hp j y Hj) as [Lj K]. rewrite K in Hy. apply (pnt_distinct Hc); auto.
  - rewrite (vid_low Hc) by auto. apply Hids; auto.
Qed.

Lemma spokes_graph : skeleton_graph_edges c sk nr = spokes.
Proof.
  unfold skeleton_graph_edges, sk, spokes. cbn [enumerate length seq combine flat_map fst snd sinks]. rewrite app_nil_r, map_map.
  apply map_ext_in. intros v Hv. fold sk. rewrite sink_corner by (apply in_order; auto). rewrite vid_top. simpl. auto.
Qed.

Lemma pyramid_graph sw : build_graph sw first (Z.of_nat n) [] c sk nr = Ok (build sw E).
Proof. unfold build_graph. unfold n. rewrite (contour_graph Hc first nr). cbn [bind mapM concat app]. rewrite spokes_graph. reflexivity. Qed.

Let vinj u v : vid u = vid v -> u = v := vid_inj Hc Hnr (u := u) (v := v).

Lemma rim_low a b : In (a, b) rim -> (a < nr)%Z /\ (b < nr)%Z.
Proof. intros K. apply (in_rim Hc) in K as (i & Hi & -> & ->). split; apply (vid_lt Hc Hnr); auto using (pred_lt Hc). Qed.

Lemma simple : no_parallel_edges E.
Proof.
  assert (Hsf : forall a b, In (a, b) spokes -> a = nr /\ (b < nr)%Z).
  { intros a b K. apply in_spokes in K as (i & Hi & -> & ->). rewrite vid_top. split; auto. apply (vid_lt Hc Hnr); auto. }
  apply simple_pairs.
  - apply NoDup_app_iff. split; [|split].
    + apply NoDup_map_inj; [|apply seq_NoDup]. intros u v _ _ K. injection K as _ K. apply vinj in K. auto.
    + apply NoDup_map_inj; [|eapply Permutation_NoDup; [exact Hord|apply seq_NoDup]]. intros u v _ _ K. injection K as K. apply vinj in K. auto.
    + intros [a b] K1 K2. apply rim_low in K1. apply Hsf in K2. lia.
  - intros a b K1 K2. exfalso. apply in_app_iff in K1 as [K1|K1]; apply in_app_iff in K2 as [K2|K2].
    + apply (in_rim Hc) in K1 as (i & Hi & -> & ->). apply (in_rim Hc) in K2 as (j & Hj & K2 & K3). apply vinj in K2, K3. subst j. fold n in Hi, Hj, K2.
      apply (nx_ne_pv Hi). rewrite K2 at 1. apply nx_pv, pv_lt.
    + apply rim_low in K1. apply Hsf in K2. lia.
    + apply rim_low in K2. apply Hsf in K1. lia.
    + apply Hsf in K1. apply Hsf in K2. lia.
Qed.

Lemma edges_low i b : i < n -> (has_edge_between E (vid i) b <-> b = vid (pv i) \/ b = vid (nx i) \/ b = vid n).
Proof.
  intros Hi. assert (Hin : vid i <> vid n) by (intros K; apply vinj in K; lia). split.
  - intros [_ [K|K]]; apply in_app_iff in K as [K|K].
    + apply (in_rim Hc) in K as (j & Hj & K & ->). apply vinj in K. fold n in Hj, K |- *. subst i. rewrite nx_pv by auto. auto.
    + apply in_spokes in K as (j & Hj & K & ->). congruence.
    + apply (in_rim Hc) in K as (j & Hj & -> & K). apply vinj in K. fold n in Hj, K |- *. subst j. auto.
    + apply in_spokes in K as (j & Hj & -> & K). auto.
  - intros [->|[->| ->]].
    + split; [intros K; apply vinj in K; symmetry in K; apply (pv_ne Hi); auto|]. right. apply in_app_iff. left. apply (in_rim Hc). exists i. auto.
    + split; [intros K; apply vinj in K; symmetry in K; apply (nx_ne Hi); auto|]. left. apply in_app_iff. left. apply (in_rim Hc). exists (nx i). fold n.
      rewrite pv_nx by auto. split; auto. apply nx_lt.
    + split; auto. right. apply in_app_iff. right. apply in_spokes. exists i. auto.
Qed.

Lemma edges_top b : has_edge_between E (vid n) b <-> exists i, i < n /\ b = vid i.
Proof.
  split.
  - intros [_ [K|K]]; apply in_app_iff in K as [K|K].
    + apply rim_low in K. rewrite vid_top in K. lia.
    + apply in_spokes in K as (j & Hj & _ & ->). eauto.
    + apply rim_low in K. rewrite vid_top in K. lia.
    + apply in_spokes in K as (j & Hj & -> & K). apply vinj in K. lia.
  - intros (i & Hi & ->). split; [intros K; apply vinj in K; lia|]. left. apply in_app_iff. right. apply in_spokes. eauto.
Qed.

Lemma edges_from a b : has_edge_between E a b -> a = vid n \/ exists i, i < n /\ a = vid i.
Proof.
  intros [_ [K|K]]; apply in_app_iff in K as [K|K].
  - apply (in_rim Hc) in K as (i & Hi & -> & _). right. eexists. split; [|reflexivity]. apply (pred_lt Hc).
  - apply in_spokes in K as (i & Hi & -> & _). auto.
  - apply (in_rim Hc) in K as (i & Hi & _ & ->). eauto.
  - apply in_spokes in K as (i & Hi & _ & ->). eauto.
Qed.

Lemma around_low i sw : i < n -> Permutation (neighbours (build sw E) (vid i)) [vid (nx i); vid n; vid (pv i)].
Proof.
  intros Hi. pose proof (nx_lt i) as L1. pose proof (pv_lt i) as L2. apply NoDup_Permutation.
  - apply NoDup_neighbours, simple.
  - constructor; [simpl; intros [K|[K|[]]]; apply vinj in K; [lia|apply (nx_ne_pv Hi); auto]|]. constructor; [simpl; intros [K|[]]; apply vinj in K; lia|]. constructor; [simpl; tauto|constructor].
  - intros b. rewrite In_neighbours_build, edges_low by auto. simpl. split; [intros [->|[->| ->]]; auto|intros [<-|[<-|[<-|[]]]]; auto].
Qed.

Lemma around_top sw : Permutation (neighbours (build sw E) (vid n)) (map vid (seq 0 n)).
Proof.
  apply NoDup_Permutation.
  - apply NoDup_neighbours, simple.
  - apply NoDup_map_inj; [|apply seq_NoDup]. intros u v _ _ K. apply vinj in K. auto.
  - intros b. rewrite In_neighbours_build, edges_top, in_map_iff. split.
    + intros (i & Hi & ->). exists i. split; auto. apply in_seq. lia.
    + intros (i & <- & Hi). apply in_seq in Hi. exists i. split; auto. lia.
Qed.

(** ** the embedding *)
Variable vl : list (vec3 RA).
Variable o : pt.
Hypothesis Hvl : forall v, v < S n -> exists w, py_get vl (vid v) = Ok w /\ loc o (ground w) = P v.

Lemma sort_low i ns : i < n -> Permutation ns [vid (nx i); vid n; vid (pv i)] ->
  exists l, py_sorted (angle_lt vl (vid i)) ns = Ok l /\ rotation_succ l (vid (pv i)) (vid n) /\ rotation_succ l (vid n) (vid (nx i)) /\ rotation_succ l (vid (nx i)) (vid (pv i)).
Proof.
  intros Hi Hp. pose proof (nx_lt i) as L1. pose proof (pv_lt i) as L2.
  assert (I : forall a b, a <> b -> vid a <> vid b) by (intros a b K Eq; apply K, vinj, Eq).
  assert (O1 : (0 < orient (pnt c i) (pnt c (nx i)) x)%R).
  { destruct (wall Hi) as (e & l & _ & Hl & -> & ->). apply Rmult_lt_0_compat; auto. apply Ht. }
  assert (O2 : (0 < orient (pnt c (pv i)) (pnt c i) x)%R).
  { destruct (wall L2) as (e & l & _ & Hl & Ho & Hx). rewrite nx_pv in Ho by auto. rewrite Ho, Hx. apply Rmult_lt_0_compat; auto. apply Ht. }
  assert (O3 : (0 < orient (pnt c i) (pnt c (nx i)) (pnt c (pv i)))%R).
  { apply corner_in; auto; [apply pv_ne; auto|intros K; apply (nx_ne_pv Hi); auto]. }
  destruct (@sorted_three vl (vid i) (vid (nx i)) (vid n) (vid (pv i)) _ _ _ ns (I (nx i) n ltac:(lia)) (I n (pv i) ltac:(lia)) (I _ _ (nx_ne_pv Hi))
    (vid_rel Hvl (u := i) (v := nx i) ltac:(lia) ltac:(lia)) (vid_rel Hvl (u := i) (v := n) ltac:(lia) ltac:(lia)) (vid_rel Hvl (u := i) (v := pv i) ltac:(lia) ltac:(lia)) Hp) as (l & G1 & G2);
    cbn [wx wy]; rewrite ?P_top, ?(P_low Hi), ?(P_low L1), ?(P_low L2).
  - revert O1. unfold orient, sub, rvec. cbn [vx vy]. change (num RA) with R in *. lra.
  - revert O2. unfold orient, sub, rvec. cbn [vx vy]. change (num RA) with R in *. lra.
  - revert O3. unfold orient, sub, rvec. cbn [vx vy]. change (num RA) with R in *. lra.
  - exists l. split; auto. apply rot3; auto.
Qed.

Lemma sort_top ns : Permutation ns (map vid (seq 0 n)) ->
  exists l, py_sorted (angle_lt vl (vid n)) ns = Ok l /\ forall i, i < n -> rotation_succ l (vid (nx i)) (vid i).
Proof.
  intros Hp. apply (@hub_order vl (vid n) n vid (fun i => V3 (A := RA) (vx (spoke i)) (vy (spoke i)) 0%R) (fun i => nx i)); auto; cbn [wx wy].
  - intros i Hi. pose proof (vid_rel Hvl (u := n) (v := i) ltac:(lia) ltac:(lia)) as K. rewrite P_top, (P_low Hi) in K. exact K.
  - intros i _. apply nx_lt.
  - intros i Hi. apply (spoke_turn Hi).
  - intros i j Hi Hj. apply (spoke_gap Hi Hj).
  - intros i j Hi Hj. apply (spoke_apart Hi Hj).
Qed.

Definition pyramid_face i : list Z := [vid i; vid (nx i); vid n].

Theorem pyramid_embedded sw sch : exists emb fs, circular_embedding (build sw E) vl true = Ok emb /\
  graph_faces sch (build sw E) emb nr = Ok fs /\ Permutation fs (map pyramid_face (seq 0 n)).
Proof.
  set (g := build sw E).
  assert (K : forall u ns, In (u, ns) g -> dict_find g u = Some ns) by (intros; apply In_dict_find; auto; apply keys_build).
  destruct (@emb_total g vl) as (emb & He).
  { intros u ns Hin. pose proof (K u ns Hin) as Hd. destruct ns as [|b ns]; [exists []; reflexivity|].
    assert (Hb : In b (neighbours g u)) by (unfold neighbours; rewrite Hd; simpl; auto). apply In_neighbours_build in Hb. apply edges_from in Hb as [->|(i & Hi & ->)].
    - destruct (@sort_top (b :: ns)) as (l & L1 & _); eauto. pose proof (around_top sw) as Hp. fold g in Hp. unfold neighbours in Hp. rewrite Hd in Hp. auto.
    - destruct (@sort_low i (b :: ns) Hi) as (l & L1 & _); eauto. pose proof (around_low sw Hi) as Hp. fold g in Hp. unfold neighbours in Hp. rewrite Hd in Hp. auto. }
  set (nb := neighbours emb).
  assert (Slow : forall i, i < n -> rotation_succ (nb (vid i)) (vid (pv i)) (vid n) /\ rotation_succ (nb (vid i)) (vid n) (vid (nx i))).
  { intros i Hi. pose proof (around_low sw Hi) as Hp. fold g in Hp. destruct (dict_find g (vid i)) as [ns|] eqn:Hd.
    - unfold neighbours in Hp at 1. rewrite Hd in Hp. destruct (sort_low Hi Hp) as (l & L1 & L2 & L3 & _). unfold nb. rewrite (emb_find He Hd L1). auto.
    - unfold neighbours in Hp. rewrite Hd in Hp. apply Permutation_nil in Hp. discriminate. }
  assert (Stop : forall i, i < n -> rotation_succ (nb (vid n)) (vid (nx i)) (vid i)).
  { intros i Hi. pose proof (around_top sw) as Hp. fold g in Hp. destruct (dict_find g (vid n)) as [ns|] eqn:Hd.
    - unfold neighbours in Hp at 1. rewrite Hd in Hp. destruct (sort_top Hp) as (l & L1 & L2). unfold nb. rewrite (emb_find He Hd L1). auto.
    - unfold neighbours in Hp. rewrite Hd in Hp. apply Permutation_nil in Hp. apply (f_equal (@length Z)) in Hp. rewrite map_length, seq_length in Hp. clear - n3 Hp. simpl in Hp. lia. }
  assert (Hl : lists_neighbours E (neighbours emb)).
  { eapply perm_lists_neighbours; [apply simple|]. apply (circular_embedding_perm _ _ _ He). }
  destruct (@graph_faces_api sw E emb simple Hl sch nr) as (fs & Hfs & Hf & Hnd & Hall). exists emb, fs. split; auto. split; auto.
  assert (Vlow : forall i, i < n -> (vid i < nr)%Z) by (intros; apply (vid_lt Hc Hnr); auto).
  assert (Hin : forall i, i < n -> In (pyramid_face i) fs).
  { intros i Hi. unfold pyramid_face. set (u := vid i). set (v := vid (nx i)). set (t := vid n).
    assert (Lu : (u < nr)%Z) by (apply Vlow; auto). assert (Lv : (v < nr)%Z) by (apply Vlow, nx_lt). assert (Et : t = nr) by apply vid_top.
    assert (Huv : u <> v) by (intros Q; apply vinj in Q; symmetry in Q; apply (nx_ne Hi); auto).
    destruct (Hall [(u, v); (v, t); (t, u)]) as (f & Hfin & Hrot).
    - apply face_traced.
      + destruct (Slow (nx i) (nx_lt i)) as [Q _]. rewrite pv_nx in Q by auto. exact Q.
      + apply Stop; auto.
      + apply Slow; auto.
    - repeat constructor; simpl; intros G; repeat destruct G as [G|G]; try (injection G; intros; lia); auto.
    - intros a b [G|[G|[G|[]]]]; injection G as <- <-.
      + apply edges_low; auto.
      + apply edges_low; auto using nx_lt.
      + apply edges_top. exists i. auto.
    - exists t. split; [simpl; auto|lia].
    - destruct (Hf f Hfin) as (_ & _ & _ & Hst).
      assert (S : starts_on_footprint nr f).
      { apply Hst. exists (u, v). split; [|split; simpl; lia]. eapply Permutation_in; [apply rotation_of_perm; exact Hrot|simpl; auto]. }
      destruct S as (d & l & Hd & F1 & F2).
      assert (Eq : darts_of f = [(u, v); (v, t); (t, u)]).
      { destruct (rotation3 Hrot) as [Q|[Q|Q]]; auto; rewrite Q in Hd; injection Hd as <- _; simpl in *; lia. }
      replace [u; v; t] with f; auto. rewrite <- (map_fst_darts f), Eq. reflexivity. }
  assert (Hnn : forall f, In f fs -> darts_of f <> []).
  { intros f Hfin. destruct (Hf f Hfin) as ((Hne & _) & _). exact Hne. }
  assert (Huniq : forall f h d, In f fs -> In h fs -> In d (darts_of f) -> In d (darts_of h) -> f = h).
  { clear - Hnd. induction fs as [|h fs IH]; intros f k d Hfr Hgr Hdf Hdg; [destruct Hfr|]. simpl in Hnd.
    assert (Hsep : forall k d, In k fs -> In d (darts_of h) -> In d (darts_of k) -> False).
    { intros k' d' Hk H1 H2. apply (NoDup_app_disj Hnd H1). apply in_concat. exists (darts_of k'). split; auto. apply in_map; auto. }
    assert (Hnd' : NoDup (concat (map darts_of fs))).
    { clear - Hnd. induction (darts_of h); simpl in *; auto. inversion Hnd; auto. }
    destruct Hfr as [<-|Hfr], Hgr as [<-|Hgr]; auto; [exfalso; eauto|exfalso; eauto|eapply IH; eauto]. }
  apply NoDup_Permutation.
  - clear - Hnd Hnn. induction fs as [|h fs IH]; [constructor|]. simpl in Hnd. constructor.
    + intros Hin. destruct (darts_of h) as [|d t] eqn:Ed; [apply (Hnn h (or_introl eq_refl)); auto|].
      apply (@NoDup_app_disj _ _ _ d Hnd); [simpl; auto|]. apply in_concat. exists (darts_of h). split; [apply in_map; auto|rewrite Ed; simpl; auto].
    + apply IH; [|intros f Hf; apply Hnn; right; auto]. clear - Hnd. induction (darts_of h); simpl in *; auto. inversion Hnd; auto.
  - apply NoDup_map_inj; [|apply seq_NoDup]. intros u v _ _ Q. injection Q as Q _. apply vinj in Q. auto.
  - intros f. split.
    + intros Hfin. destruct (Hf f Hfin) as (_ & (v & Hv & Hvn) & Hedge & _).
      destruct (darts_of_from Hv) as (w & Hw). pose proof (Hedge _ _ Hw) as Hew.
      destruct (edges_from Hew) as [->|(i & Hi & ->)]; [|specialize (Vlow i Hi); lia].
      apply edges_top in Hew as (i & Hi & ->). apply in_map_iff. exists i. split; [|apply in_seq; lia].
      eapply Huniq; [apply Hin; exact Hi|exact Hfin| |exact Hw]. simpl. auto.
    + intros Q. apply in_map_iff in Q as (i & <- & Hi). apply in_seq in Hi. apply Hin. lia.
Qed.
End Graph.
