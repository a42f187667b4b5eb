(** * SimProofs: convex footprints of the same shape get roofs of the same shape (C65) *)

From Coq Require Import Permutation Reals Lra.
From Verif Require Import Py PyFacts Arith ArithR Euclid Graph Lav Cluster Poly PySort ClusterSpec GeoSpec GeoLines BisSpec BisProofs
  PatSpec PolyR PolyFaces TriSpec TriSkel TriRoof ConvexSpec ConvexGeo RoofSpec ConvexMove ConvexTile ConvexPoly SameSpec SameRing SameProofs SimSpec.
Set Implicit Arguments.
Unset Strict Implicit.
Local Open Scope nat_scope.

Section Map.
Variables a b tx ty k : R.
Variable flip : bool.
Hypothesis Hk : factor a b k.
Definition sg : R := if flip then (-1)%R else 1%R.
Definition sim (p : pt) : pt := rvec (a * vx p - sg * b * vy p + tx)%R (b * vx p + sg * a * vy p + ty)%R.
Definition unsim (p : pt) : pt := rvec ((a * (vx p - tx) + b * (vy p - ty)) / (k * k))%R (sg * (a * (vy p - ty) - b * (vx p - tx)) / (k * k))%R.

Lemma sg_sq : (sg * sg = 1)%R.
Proof. unfold sg. destruct flip; ring. Qed.

Lemma k_pos : (0 < k)%R.
Proof. apply Hk. Qed.

Lemma sim_unsim p : sim (unsim p) = p.
Proof.
  pose proof k_pos as K. destruct Hk as [_ E]. pose proof sg_sq as S. apply vec_ext; unfold sim, unsim; cbn [rvec vx vy]; change (num RA) with R in *.
  - transitivity ((a * a + sg * sg * (b * b)) * (vx p - tx) / (k * k) + (a * b - sg * sg * (a * b)) * (vy p - ty) / (k * k) + tx)%R; [field; lra|]. rewrite S, Rmult_1_l, <- E. field. lra.
  - transitivity ((b * b + sg * sg * (a * a)) * (vy p - ty) / (k * k) + (a * b - sg * sg * (a * b)) * (vx p - tx) / (k * k) + ty)%R; [field; lra|].
    rewrite S, Rmult_1_l. replace (b * b + a * a)%R with (k * k)%R by lra. field. lra.
Qed.

Lemma unsim_sim p : unsim (sim p) = p.
Proof.
  pose proof k_pos as K. destruct Hk as [_ E]. pose proof sg_sq as S. apply vec_ext; unfold sim, unsim; cbn [rvec vx vy]; change (num RA) with R in *.
  - transitivity ((a * a + b * b) * vx p / (k * k))%R; [field; lra|]. rewrite <- E. field. lra.
  - transitivity (sg * sg * (a * a + b * b) * vy p / (k * k))%R; [field; lra|]. rewrite S, <- E. field. lra.
Qed.

Lemma sim_inj p q : sim p = sim q -> p = q.
Proof. intros E. rewrite <- (unsim_sim p), <- (unsim_sim q), E. auto. Qed.

Lemma sim_orient p q r : orient (sim p) (sim q) (sim r) = (sg * (k * k) * orient p q r)%R.
Proof. destruct Hk as [_ ->]. unfold orient, sim. cbn [rvec vx vy]. change (num RA) with R in *. ring. Qed.

Lemma sim_dist p q : euclid_dist (sim p) (sim q) = (k * euclid_dist p q)%R.
Proof.
  pose proof k_pos as K. unfold euclid_dist. rewrite <- (sqrt_Rsqr k) at 1 by lra. rewrite <- sqrt_mult_alt by apply Rle_0_sqr. f_equal.
  unfold Rsqr. destruct Hk as [_ ->]. unfold sim. cbn [rvec vx vy]. change (num RA) with R in *. pose proof sg_sq as S.
  transitivity ((a * a + b * b) * ((vx p - vx q) * (vx p - vx q)) + sg * sg * (a * a + b * b) * ((vy p - vy q) * (vy p - vy q)))%R; [ring|]. rewrite S. ring.
Qed.

(** f is the wall e carried *)
Definition tw (e f : @edge2 RA) : Prop :=
  if flip then ep1 f = sim (ep2 e) /\ ep2 f = sim (ep1 e) else ep1 f = sim (ep1 e) /\ ep2 f = sim (ep2 e).

Lemma dist_sym (p q : pt) : euclid_dist p q = euclid_dist q p.
Proof. unfold euclid_dist, Rsqr. f_equal. ring. Qed.

Lemma orient_swap (p q r : pt) : orient q p r = (- orient p q r)%R.
Proof. unfold orient. change (num RA) with R in *. ring. Qed.

Lemma orient_rev (p q r : pt) : orient r q p = (- orient p q r)%R.
Proof. unfold orient. change (num RA) with R in *. ring. Qed.

Lemma tw_dist e f p : ep1 e <> ep2 e -> tw e f -> edge_dist f (sim p) = (k * edge_dist e p)%R.
Proof.
  intros N. pose proof k_pos as K. pose proof (dist_pos N) as D. unfold tw, edge_dist, signed_dist. remember flip as b0 eqn:Hb.
  destruct b0; intros [-> ->]; [rewrite (orient_swap (sim (ep1 e)) (sim (ep2 e)) (sim p)), (dist_sym (sim (ep2 e)) (sim (ep1 e)))|];
    rewrite sim_orient, sim_dist; unfold sg; rewrite <- Hb; field; lra.
Qed.

Lemma tw_eq e e' f f' : tw e f -> tw e' f' -> f = f' -> ep1 e = ep1 e' /\ ep2 e = ep2 e'.
Proof. unfold tw. destruct flip; intros [A B] [A' B'] <-; rewrite A in A'; rewrite B in B'; apply sim_inj in A'; apply sim_inj in B'; auto. Qed.

Lemma tw_eq' e f f' : tw e f -> tw e f' -> ep1 f = ep1 f' /\ ep2 f = ep2 f'.
Proof. unfold tw. destruct flip; intros [A B] [A' B']; split; congruence. Qed.

(** ** two footprints *)
Section Two.
Variables c d : edges.
Hypothesis Hc : convex_contour c.
Hypothesis Hd : convex_contour d.
Hypothesis Fwd : forall e, In e c -> exists f, In f d /\ tw e f.
Hypothesis Bwd : forall f, In f d -> exists e, In e c /\ tw e f.

Lemma tw_ne e e' f f' : In e c -> In e' c -> tw e f -> tw e' f' -> e <> e' -> f <> f'.
Proof. intros I I' T T' N E. destruct (tw_eq T T' E) as [E1 _]. apply N, (starts_differ Hc); auto. Qed.

Lemma tw_ne' e e' f f' : In f d -> In f' d -> tw e f -> tw e' f' -> f <> f' -> e <> e'.
Proof. intros I I' T T' N <-. destruct (tw_eq' T T') as [E1 _]. apply N, (starts_differ Hd); auto. Qed.

Lemma ends e : In e c -> ep1 e <> ep2 e.
Proof. intros I. apply (proj1 (proj2 (proj1 Hc)) e I). Qed.

Lemma equi_iff x h : equidistant c x h <-> equidistant d (sim x) (k * h).
Proof.
  pose proof k_pos as K. split.
  - intros (e1 & e2 & e3 & I1 & I2 & I3 & N1 & N2 & N3 & D1 & D2 & D3).
    destruct (Fwd I1) as (f1 & F1 & T1). destruct (Fwd I2) as (f2 & F2 & T2). destruct (Fwd I3) as (f3 & F3 & T3).
    exists f1, f2, f3. rewrite (tw_dist x (ends I1) T1), (tw_dist x (ends I2) T2), (tw_dist x (ends I3) T3).
    do 3 (split; [auto|]). split; [apply (tw_ne I1 I2 T1 T2); auto|]. split; [apply (tw_ne I2 I3 T2 T3); auto|]. split; [apply (tw_ne I1 I3 T1 T3); auto|].
    rewrite Rabs_mult, (Rabs_pos_eq k) by lra. rewrite D1, D2, D3. rewrite D1, D2. auto.
  - intros (f1 & f2 & f3 & F1 & F2 & F3 & N1 & N2 & N3 & D1 & D2 & D3).
    destruct (Bwd F1) as (e1 & I1 & T1). destruct (Bwd F2) as (e2 & I2 & T2). destruct (Bwd F3) as (e3 & I3 & T3).
    rewrite (tw_dist x (ends I1) T1), (tw_dist x (ends I2) T2), (tw_dist x (ends I3) T3) in *.
    exists e1, e2, e3. do 3 (split; [auto|]). split; [apply (tw_ne' F1 F2 T1 T2); auto|]. split; [apply (tw_ne' F2 F3 T2 T3); auto|]. split; [apply (tw_ne' F1 F3 T1 T3); auto|].
    rewrite Rabs_mult, (Rabs_pos_eq k) in D3 by lra. repeat split; apply (Rmult_eq_reg_l k); auto; lra.
Qed.

Lemma point_iff x h : roof_point c x h <-> roof_point d (sim x) (k * h).
Proof.
  pose proof k_pos as K. split; intros [E L]; (split; [apply equi_iff; auto|]).
  - intros f Hf. destruct (Bwd Hf) as (e & I & T). rewrite (tw_dist x (ends I) T). apply Rmult_le_compat_l; auto. lra.
  - intros e I. destruct (Fwd I) as (f & F & T). specialize (L f F). rewrite (tw_dist x (ends I) T) in L. apply (Rmult_le_reg_l k); auto.
Qed.

Lemma sim_ex y : exists x, y = sim x.
Proof. exists (unsim y). rewrite sim_unsim. auto. Qed.

Lemma scale_ex h : exists g, h = (k * g)%R.
Proof. pose proof k_pos. exists (h / k)%R. field. lra. Qed.

Lemma sim_simple : simple_roof c -> simple_roof d.
Proof.
  intros S y h f1 f2 f3 f4 Hy F1 F2 F3 F4 Hn (D1 & D2 & D3 & D4). apply nodup4 in Hn as (N1 & N2 & N3 & N4 & N5 & N6).
  destruct (sim_ex y) as (x & ->). destruct (scale_ex h) as (g & ->). pose proof k_pos as K.
  destruct (Bwd F1) as (e1 & I1 & T1). destruct (Bwd F2) as (e2 & I2 & T2). destruct (Bwd F3) as (e3 & I3 & T3). destruct (Bwd F4) as (e4 & I4 & T4).
  rewrite (tw_dist x (ends I1) T1) in D1. rewrite (tw_dist x (ends I2) T2) in D2. rewrite (tw_dist x (ends I3) T3) in D3. rewrite (tw_dist x (ends I4) T4) in D4.
  apply (S x g e1 e2 e3 e4); auto; [apply point_iff; auto| |repeat split; apply (Rmult_eq_reg_l k); auto; lra].
  pose proof (tw_ne' F1 F2 T1 T2 N1). pose proof (tw_ne' F1 F3 T1 T3 N2). pose proof (tw_ne' F1 F4 T1 T4 N3).
  pose proof (tw_ne' F2 F3 T2 T3 N4). pose proof (tw_ne' F2 F4 T2 T4 N5). pose proof (tw_ne' F3 F4 T3 T4 N6).
  apply nodup4. tauto.
Qed.

(** the direction of a carried wall *)
Lemma tw_norm e f : In e c -> In f d -> tw e f ->
  (vx (enorm f) * k = sg * (a * vx (enorm e) - sg * b * vy (enorm e)) /\ vy (enorm f) * k = sg * (b * vx (enorm e) + sg * a * vy (enorm e)))%R.
Proof.
  intros I F T. destruct (proj1 (proj2 (proj1 Hc)) e I) as (N & X & Y). destruct (proj1 (proj2 (proj1 Hd)) f F) as (_ & X' & Y').
  pose proof (dist_pos N) as D. change (num RA) with R in *.
  assert (E : (euclid_dist (ep1 f) (ep2 f) = k * euclid_dist (ep1 e) (ep2 e))%R).
  { unfold tw in T. destruct flip; destruct T as [-> ->]; rewrite sim_dist; auto. rewrite (dist_sym (ep2 e)). auto. }
  assert (P : (vx (ep2 f) - vx (ep1 f) = sg * (a * (vx (ep2 e) - vx (ep1 e)) - sg * b * (vy (ep2 e) - vy (ep1 e))) /\
               vy (ep2 f) - vy (ep1 f) = sg * (b * (vx (ep2 e) - vx (ep1 e)) + sg * a * (vy (ep2 e) - vy (ep1 e))))%R).
  { unfold tw in T. unfold sim, sg in *. destruct flip; destruct T as [-> ->]; cbn [rvec vx vy]; change (num RA) with R in *; split; ring. }
  destruct P as [P1 P2]. rewrite E in *. rewrite P1, <- X, <- Y in X'. rewrite P2, <- X, <- Y in Y'.
  split; apply (Rmult_eq_reg_r (euclid_dist (ep1 e) (ep2 e))); try lra.
Qed.

Lemma sim_blunt : blunt c -> blunt d.
Proof.
  intros B f1 f2 f3 F1 F2 F3 Hn. apply nodup3 in Hn as (N1 & N2 & N3). pose proof k_pos as K.
  destruct (Bwd F1) as (e1 & I1 & T1). destruct (Bwd F2) as (e2 & I2 & T2). destruct (Bwd F3) as (e3 & I3 & T3).
  assert (Q : NoDup [e1; e2; e3]) by (apply nodup3; pose proof (tw_ne' F1 F2 T1 T2 N1); pose proof (tw_ne' F1 F3 T1 T3 N2); pose proof (tw_ne' F2 F3 T2 T3 N3); auto).
  specialize (B e1 e2 e3 I1 I2 I3 Q). cbv zeta in *. destruct (tw_norm I1 F1 T1) as [X1 Y1]. destruct (tw_norm I2 F2 T2) as [X2 Y2]. destruct (tw_norm I3 F3 T3) as [X3 Y3].
  change (num RA) with R in *.
  set (x1 := vx (enorm e1)) in *. set (y1 := vy (enorm e1)) in *. set (x2 := vx (enorm e2)) in *. set (y2 := vy (enorm e2)) in *. set (x3 := vx (enorm e3)) in *. set (y3 := vy (enorm e3)) in *.
  set (u1 := vx (enorm f1)) in *. set (v1 := vy (enorm f1)) in *. set (u2 := vx (enorm f2)) in *. set (v2 := vy (enorm f2)) in *. set (u3 := vx (enorm f3)) in *. set (v3 := vy (enorm f3)) in *.
  assert (Go : forall p q r s p' q' r' s' : R, (p' * k = sg * (a * p - sg * b * q) -> q' * k = sg * (b * p + sg * a * q) ->
     r' * k = sg * (a * r - sg * b * s) -> s' * k = sg * (b * r + sg * a * s) -> p' * r' + q' * s' = p * r + q * s)%R).
  { intros p q r s p' q' r' s' E1 E2 E3 E4. apply (Rmult_eq_reg_r (k * k)); [|pose proof (Rmult_lt_0_compat _ _ K K); lra].
    transitivity ((p' * k) * (r' * k) + (q' * k) * (s' * k))%R; [ring|]. rewrite E1, E2, E3, E4, (proj2 Hk).
    transitivity (sg * sg * ((a * a + b * b) * (p * r) + sg * sg * (a * a + b * b) * (q * s)))%R; [ring|]. rewrite sg_sq. ring. }
  rewrite (Go (x2 - x1) (y2 - y1) (x3 - x2) (y3 - y2) (u2 - u1) (v2 - v1) (u3 - u2) (v3 - v2))%R by lra.
  rewrite (Go (x2 - x1) (y2 - y1) (x2 - x1) (y2 - y1) (u2 - u1) (v2 - v1) (u2 - u1) (v2 - v1))%R by lra.
  rewrite (Go (x3 - x2) (y3 - y2) (x3 - x2) (y3 - y2) (u3 - u2) (v3 - v2) (u3 - u2) (v3 - v2))%R by lra. auto.
Qed.

Lemma sim_slope hgt tan s s' : roof_slope c hgt tan s -> roof_slope d hgt tan s' -> (hgt = 0 /\ s' = s \/ hgt <> 0 /\ s = k * s')%R.
Proof.
  pose proof k_pos as K. intros [[Z E]|(Nz & x & m & Rx & Em & Max)] [[Z' E']|(Nz' & y & l & Ry & El & Max')]; try congruence; [left; split; congruence|right]. split; auto.
  destruct (sim_ex y) as (x' & ->). destruct (scale_ex l) as (g & ->). apply point_iff in Ry.
  assert (m = g). { apply Rle_antisym; [|apply (Max x'); auto]. apply point_iff, Max' in Rx. apply (Rmult_le_reg_l k); auto. }
  subst g. assert (m <> 0%R) by (intros ->; apply Nz; lra). apply (Rmult_eq_reg_r m); auto. lra.
Qed.
End Two.

(** ** outlines *)
Definition carry (l : list pt) : list pt := if flip then other_way (map sim l) else map sim l.
Definition carry_outline (l : list (option pt)) : list (option pt) := if flip then other_way (outline_carried sim l) else outline_carried sim l.
End Map.

Lemma other_way_map S T (g : S -> T) l : other_way (map g l) = map g (other_way l).
Proof. destruct l as [|x [|y t]]; auto. cbn [other_way map]. rewrite map_rev. auto. Qed.

Lemma other_way_perm T (l : list T) : Permutation (other_way l) l.
Proof. destruct l as [|x [|y t]]; auto. cbn [other_way]. rewrite perm_swap. do 2 constructor. symmetry. apply Permutation_rev. Qed.

Lemma nth_error_rev T (l : list T) i : i < length l -> nth_error (rev l) i = nth_error l (length l - S i).
Proof.
  intros Hi. destruct l as [|x0 l0]; [simpl in Hi; lia|]. set (l := x0 :: l0) in *.
  rewrite (nth_error_nth' (rev l) x0) by (rewrite rev_length; auto). rewrite (nth_error_nth' l x0) by lia. rewrite rev_nth by auto. auto.
Qed.

Lemma other_way_nth T (l : list T) i : 2 <= length l -> i < length l -> nth_error (other_way l) i = nth_error l ((length l + 1 - i) mod length l).
Proof.
  intros L2 Hi. destruct l as [|x [|y t]]; [simpl in L2; lia|simpl in L2; lia|]. cbn [length] in *. set (n := S (S (length t))) in *.
  destruct i as [|[|i]].
  - replace (n + 1 - 0) with (1 + 1 * n) by lia. rewrite Nat.mod_add, Nat.mod_small by lia. auto.
  - replace (n + 1 - 1) with (0 + 1 * n) by lia. rewrite Nat.mod_add, Nat.mod_small by lia. auto.
  - rewrite Nat.mod_small by lia. cbn [other_way nth_error]. rewrite nth_error_rev by lia. replace (n + 1 - S (S i)) with (S (S (length t - S i))) by lia. auto.
Qed.

Lemma ring_sim a b tx ty k flip l : factor a b k -> (3 <= length l) -> left_ring l -> left_ring (carry a b tx ty flip l).
Proof.
  intros Hk L3 [T S]. pose proof (k_pos Hk) as K. assert (K2 : (0 < k * k)%R) by (apply Rmult_lt_0_compat; auto). set (n := length l) in *.
  assert (Or := sim_orient tx ty flip Hk). unfold carry. destruct flip.
  - assert (Lo : length (other_way (map (sim a b tx ty true) l)) = n) by (rewrite (Permutation_length (other_way_perm _)), map_length; auto).
    assert (Nth : forall i x, i < n -> nth_error (other_way (map (sim a b tx ty true) l)) i = Some x -> exists p, x = sim a b tx ty true p /\ nth_error l ((n + 1 - i) mod n) = Some p).
    { intros i x Hi. rewrite other_way_nth by (rewrite map_length; fold n; lia). rewrite map_length. fold n. rewrite nth_error_map.
      destruct (nth_error l ((n + 1 - i) mod n)) as [p|]; [|discriminate]. cbn [option_map]. intros E. injection E as <-. eauto. }
    assert (Md : forall i, i mod n < n) by (intros i; apply Nat.mod_upper_bound; lia).
    assert (Ix : forall i j, i < n -> (n + 1 - (i + j) mod n) mod n = (n + n + 1 - i - j) mod n \/ 3 <= j).
    { intros i j Hi. destruct (Nat.lt_ge_cases j 3) as [Hj|Hj]; auto. left. destruct (Nat.lt_ge_cases (i + j) n) as [Q|Q].
      - rewrite (Nat.mod_small (i + j)) by auto. replace (n + n + 1 - i - j) with (n + 1 - (i + j) + 1 * n) by lia. rewrite Nat.mod_add by lia. auto.
      - replace (i + j) with ((i + j - n) + 1 * n) at 1 by lia. rewrite Nat.mod_add, (Nat.mod_small (i + j - n)) by lia. f_equal. lia. }
    split; rewrite Lo.
    + intros i x y z Hi Hx Hy Hz. apply Nth in Hx as (p & -> & Hp); auto. apply Nth in Hy as (q & -> & Hq); auto. apply Nth in Hz as (r & -> & Hr); auto.
      destruct (Ix i 1 Hi) as [E|E]; [|lia]. rewrite E in Hq. destruct (Ix i 2 Hi) as [E'|E']; [|lia]. rewrite E' in Hr.
      rewrite Or. unfold sg. rewrite (orient_rev r q p). assert (0 < orient r q p)%R; [|assert (0 < k * k * orient r q p)%R by (apply Rmult_lt_0_compat; auto); lra].
      apply (T ((n + n + 1 - i - 2) mod n)); auto.
      * rewrite Nat.add_mod_idemp_l by lia. rewrite <- Hq. f_equal. f_equal. lia.
      * rewrite Nat.add_mod_idemp_l by lia. rewrite <- Hp. f_equal. replace (n + n + 1 - i - 2 + 2) with (n + 1 - i + 1 * n) by lia. apply Nat.mod_add. lia.
    + intros i x y w Hi Hx Hy Hw. apply Nth in Hx as (p & -> & Hp); auto. apply Nth in Hy as (q & -> & Hq); auto. destruct (Ix i 1 Hi) as [E|E]; [|lia]. rewrite E in Hq.
      apply (Permutation_in _ (other_way_perm _)), in_map_iff in Hw as (r & <- & Hr). rewrite Or. unfold sg. rewrite (orient_swap q p r).
      assert (0 <= orient q p r)%R; [|assert (0 <= k * k * orient q p r)%R by (apply Rmult_le_pos; lra); lra].
      apply (S ((n + n + 1 - i - 1) mod n)); auto. rewrite Nat.add_mod_idemp_l by lia. rewrite <- Hp. f_equal. replace (n + n + 1 - i - 1 + 1) with (n + 1 - i + 1 * n) by lia. apply Nat.mod_add. lia.
  - assert (Nth : forall i x, nth_error (map (sim a b tx ty false) l) i = Some x -> exists p, x = sim a b tx ty false p /\ nth_error l i = Some p).
    { intros i x. rewrite nth_error_map. destruct (nth_error l i) as [p|]; [|discriminate]. cbn [option_map]. intros E. injection E as <-. eauto. }
    split; rewrite map_length; fold n.
    + intros i x y z Hi Hx Hy Hz. apply Nth in Hx as (p & -> & Hp); auto. apply Nth in Hy as (q & -> & Hq); auto. apply Nth in Hz as (r & -> & Hr); auto.
      rewrite Or. unfold sg. rewrite Rmult_1_l. apply Rmult_lt_0_compat; auto. apply (T i); auto.
    + intros i x y w Hi Hx Hy Hw. apply Nth in Hx as (p & -> & Hp); auto. apply Nth in Hy as (q & -> & Hq); auto. apply in_map_iff in Hw as (r & <- & Hr).
      rewrite Or. unfold sg. rewrite Rmult_1_l. apply Rmult_le_pos; [lra|]. apply (S i); auto.
Qed.

Lemma carry_in a b tx ty flip l p : In p (carry a b tx ty flip l) <-> exists q, p = sim a b tx ty flip q /\ In q l.
Proof.
  assert (G : In p (map (sim a b tx ty flip) l) <-> exists q, p = sim a b tx ty flip q /\ In q l) by (rewrite in_map_iff; split; intros (q & E & I); eauto).
  rewrite <- G. unfold carry. destruct flip; [|tauto]. split; apply Permutation_in; [|symmetry]; apply other_way_perm.
Qed.

Lemma carry_nodup a b tx ty k flip l : factor a b k -> NoDup l -> NoDup (carry a b tx ty flip l).
Proof.
  intros Hk N. assert (M : NoDup (map (sim a b tx ty flip) l)) by (apply FinFun.Injective_map_NoDup; auto; intros p q; apply (sim_inj Hk)).
  unfold carry. destruct flip; auto. apply (Permutation_NoDup (Permutation_sym (other_way_perm _))). auto.
Qed.

Lemma second_corner verts first (c : edges) nodes k e f l : (0 <= first)%Z -> footprint verts first c -> convex_contour c -> nth_error c k = Some e ->
  wall_face verts nodes first (length c) k c e f -> map (place verts nodes) f = map Some l -> nth_error l 1 = Some (ep2 e).
Proof.
  intros F1 F2 F3 He (rest & Ef & _) E. destruct (pnt_nth F3 He) as (Lk & _ & _ & P2). apply (f_equal (fun x => nth_error x 1)) in E. rewrite !nth_error_map, Ef in E. cbn [nth_error option_map] in E.
  rewrite (place_base F1 F2 F3 nodes) in E by (apply Nat.mod_upper_bound; lia). destruct l as [|p [|q t]]; [discriminate|discriminate|]. cbn [option_map nth_error] in *. congruence.
Qed.

Section Runs.
Variables a b tx ty k : R.
Variable flip : bool.
Hypothesis Hk : factor a b k.
Notation f := (sim a b tx ty flip).

Lemma outline_sim verts first (c : edges) z s nodes verts' first' (d : edges) z' s' nodes' :
  (0 <= first)%Z -> footprint verts first c -> convex_contour c -> NoDup (map ground nodes) -> (forall v, In v nodes -> on_roof c z s v) ->
  (forall x h, roof_point c x h -> exists v, In v nodes /\ ground v = x) ->
  (0 <= first')%Z -> footprint verts' first' d -> convex_contour d -> NoDup (map ground nodes') -> (forall v, In v nodes' -> on_roof d z' s' v) ->
  (forall x h, roof_point d x h -> exists v, In v nodes' /\ ground v = x) ->
  (forall e, In e c -> exists e', In e' d /\ tw a b tx ty flip e e') -> (forall e', In e' d -> exists e, In e c /\ tw a b tx ty flip e e') ->
  forall i e g j e' g', nth_error c i = Some e -> nth_error d j = Some e' -> tw a b tx ty flip e e' ->
  wall_face verts nodes first (length c) i c e g -> (forall p, under (verts ++ nodes) g p <-> nearest_wall c e p) ->
  wall_face verts' nodes' first' (length d) j d e' g' -> (forall p, under (verts' ++ nodes') g' p <-> nearest_wall d e' p) ->
  carry_outline a b tx ty flip (outline (verts ++ nodes) g) = outline (verts' ++ nodes') g' /\ hd None (outline (verts' ++ nodes') g') = Some (ep1 e').
Proof.
  intros F1 F2 F3 F4 F5 F6 G1 G2 G3 G4 G5 G6 Fwd Bwd i e g j e' g' He He' T W U W' U'. pose proof (nth_error_In _ _ He) as Ie. pose proof (k_pos Hk) as K.
  destruct (ring_of F1 F2 F3 F4 F5 F6 He W U) as (l & L1 & L2 & L3 & L4 & L5 & L6).
  destruct (ring_of G1 G2 G3 G4 G5 G6 He' W' U') as (m & M1 & M2 & M3 & M4 & M5 & M6).
  pose proof (second_corner F1 F2 F3 He W L1) as Ls.
  assert (E : carry a b tx ty flip l = m).
  { apply ring_unique; auto.
    - unfold carry. destruct flip; [rewrite (Permutation_length (other_way_perm _))|]; rewrite map_length; auto.
    - apply (carry_nodup tx ty flip Hk). auto.
    - apply (ring_sim tx ty flip Hk); auto.
    - intros p. rewrite M6, carry_in. destruct (sim_ex tx ty flip Hk p) as (x & ->).
      transitivity (corner_at c e x).
      { rewrite <- L6. split; [intros (q & E & I); apply (sim_inj Hk) in E; subst q; auto|eauto]. }
      unfold corner_at. rewrite (tw_dist Hk x (ends F3 Ie) T), <- (point_iff Hk F3 G3 Fwd Bwd).
      assert (J : forall p q, f p = f q <-> p = q) by (intros p q; split; [apply (sim_inj Hk)|congruence]).
      unfold tw in T. destruct flip; destruct T as [-> ->]; rewrite !J; tauto.
    - rewrite M3. destruct l as [|l0 [|l1 t]]; [discriminate|discriminate|]. injection L3 as ->. injection Ls as ->. unfold carry, tw in *.
      destruct flip; destruct T as [-> _]; auto. }
  change (outline (verts ++ nodes) g) with (map (place verts nodes) g). change (outline (verts' ++ nodes') g') with (map (place verts' nodes') g').
  rewrite L1, M1. split.
  - rewrite <- E. unfold carry_outline, carry, outline_carried. destruct flip; rewrite ?other_way_map, !map_map; auto.
  - destruct m; [discriminate|]. injection M3 as ->. auto.
Qed.

Theorem convex_similar (verts verts' : list (vec3 RA)) first first' (c d : edges) w0 w0' :
  (0 <= first)%Z -> (0 <= first')%Z -> footprint verts first c -> footprint verts' first' d -> convex_contour c -> convex_contour d ->
  (forall e, In e c -> exists e', In e' d /\ tw a b tx ty flip e e') -> (forall e', In e' d -> exists e, In e c /\ tw a b tx ty flip e e') ->
  separated c -> simple_roof c -> apart c -> blunt c -> separated d -> apart d -> py_get verts first = Ok w0 -> py_get verts' first' = Ok w0' ->
  forall fuel fuel' sw sw' sch sch' dbg dbg' holes holes' hgt tan r,
  length c + 2 * (length c - 2) < fuel -> length d + 2 * (length d - 2) < fuel' ->
  holes = None \/ holes = Some [] -> holes' = None \/ holes' = Some [] -> rise_factor hgt k r ->
  let o := polygonize fuel sw sch dbg verts first (Z.of_nat (length c)) holes hgt tan None None in
  let o' := polygonize fuel' sw' sch' dbg' verts' first' (Z.of_nat (length d)) holes' hgt tan None None in
  exists nodes nodes' fs fs', o_verts o = verts ++ nodes /\ o_verts o' = verts' ++ nodes' /\
    Permutation (map (node_carried f (wz w0) (wz w0') r) nodes) nodes' /\
    o_result o = Ok fs /\ o_result o' = Ok fs' /\ Permutation (map (carry_outline a b tx ty flip) (map (outline (o_verts o)) fs)) (map (outline (o_verts o')) fs').
Proof.
  intros F1 G1 F2 G2 F3 G3 Fwd Bwd S1 S2 S3 S4 S5 S6 E0 E0' fuel fuel' sw sw' sch sch' dbg dbg' holes holes' hgt tan r Hfu Hfu' Hh Hh' Hr o o'.
  pose proof (k_pos Hk) as K.
  destruct (convex_polygonize_all F1 F2 F3 S1 S2 S3 S4 sw sch dbg hgt tan None Hfu Hh) as (v0 & nodes & s & fs & face & A1 & A2 & A3 & A4 & A5 & A6 & A7 & A8 & A9 & A10 & A11).
  destruct (convex_polygonize_all G1 G2 G3 S5 (sim_simple Hk F3 G3 Fwd Bwd S2) S6 (sim_blunt Hk F3 G3 Bwd S4)
    sw' sch' dbg' hgt tan None Hfu' Hh') as (v0' & nodes' & s' & fs' & face' & B1 & B2 & B3 & B4 & B5 & B6 & B7 & B8 & B9 & B10 & B11).
  assert (v0 = w0) by congruence. assert (v0' = w0') by congruence. subst v0 v0'.
  assert (Es : forall h, (s' * (k * h) = r * (s * h))%R).
  { intros h. destruct (sim_slope Hk F3 G3 Fwd Bwd (slope_all A6 A7) (slope_all B6 B7)) as [[Q1 Q2]|[Q1 Q2]]; destruct Hr as [[R1 R2]|[R1 R2]]; try congruence; subst; ring. }
  fold o in A2, A11. fold o' in B2, B11.
  assert (Hp : Permutation (map (node_carried f (wz w0) (wz w0') r) nodes) nodes').
  { assert (Gv : forall v, ground (node_carried f (wz w0) (wz w0') r v) = f (ground v)) by (intros v; apply vec_ext; reflexivity).
    apply NoDup_Permutation; [|apply (NoDup_map_inv _ _ B4)|].
    - apply (NoDup_map_inv ground). rewrite map_map. erewrite map_ext; [|exact Gv]. rewrite <- (map_map ground f).
      apply FinFun.Injective_map_NoDup; auto. intros p q. apply (sim_inj Hk).
    - intros v. rewrite in_map_iff. split.
      + intros (u & <- & Iu). apply (node_iff B5 B6). apply (node_iff A5 A6) in Iu as (h & Rp & Wu). exists (k * h)%R. rewrite Gv. split; [apply (point_iff Hk F3 G3 Fwd Bwd); auto|].
        unfold node_carried. cbn [wz]. rewrite Wu, Es. change (num RA) with R in *. ring.
      + intros Iv. apply (node_iff B5 B6) in Iv as (h' & Rp & Wv). destruct (sim_ex tx ty flip Hk (ground v)) as (x & Ex). destruct (scale_ex Hk h') as (h & ->). rewrite Ex in Rp.
        apply (point_iff Hk F3 G3 Fwd Bwd) in Rp. destruct (A6 x h Rp) as (u & Iu & Gu). exists u. split; auto.
        apply (node_iff A5 A6) in Iu as (h'' & Rp' & Wu). rewrite Gu in Rp'. pose proof (roof_point_unique Rp' Rp). subst h''. rewrite Es in Wv.
        pose proof (Gv u) as Gw. rewrite Gu, <- Ex in Gw.
        apply vec3_ext; [exact (f_equal vx Gw)|exact (f_equal vy Gw)|]. unfold node_carried. cbn [wz]. rewrite Wv, Wu. change (num RA) with R in *. ring. }
  exists nodes, nodes', fs, fs'. do 5 (split; [auto|]). rewrite A2, B2.
  assert (Go : forall i, i < length c -> exists j, j < length d /\ carry_outline a b tx ty flip (outline (verts ++ nodes) (face i)) = outline (verts' ++ nodes') (face' j)).
  { intros i Li. destruct (nth_error c i) as [e|] eqn:He; [|apply nth_error_None in He; lia]. destruct (Fwd e (nth_error_In _ _ He)) as (e' & Ie & T).
    apply In_nth_error in Ie as (j & He'). exists j. split; [apply nth_error_Some; congruence|]. destruct (A9 i e He) as [W U]. destruct (B9 j e' He') as [W' U'].
    exact (proj1 (outline_sim F1 F2 F3 A4 A5 A6 G1 G2 G3 B4 B5 B6 Fwd Bwd He He' T W U W' U')). }
  assert (Back : forall j, j < length d -> exists i, i < length c /\ carry_outline a b tx ty flip (outline (verts ++ nodes) (face i)) = outline (verts' ++ nodes') (face' j) /\
    hd None (outline (verts' ++ nodes') (face' j)) = Some (pnt d j)).
  { intros j Lj. destruct (nth_error d j) as [e'|] eqn:He'; [|apply nth_error_None in He'; lia]. destruct (Bwd e' (nth_error_In _ _ He')) as (e & Ie & T).
    apply In_nth_error in Ie as (i & He). exists i. split; [apply nth_error_Some; congruence|]. destruct (A9 i e He) as [W U]. destruct (B9 j e' He') as [W' U'].
    destruct (pnt_nth G3 He') as (_ & _ & <- & _).
    exact (outline_sim F1 F2 F3 A4 A5 A6 G1 G2 G3 B4 B5 B6 Fwd Bwd He He' T W U W' U'). }
  transitivity (map (carry_outline a b tx ty flip) (map (outline (verts ++ nodes)) (map face (seq 0 (length c))))); [apply Permutation_map, Permutation_map; auto|].
  transitivity (map (outline (verts' ++ nodes')) (map face' (seq 0 (length d)))); [|apply Permutation_map, Permutation_sym; auto].
  rewrite !map_map.
  assert (Nd : NoDup (map (fun j => outline (verts' ++ nodes') (face' j)) (seq 0 (length d)))).
  { apply NoDup_nth_error. intros i j Li E. rewrite map_length, seq_length in Li.
    assert (Lj : j < length d).
    { destruct (Nat.lt_ge_cases j (length d)) as [Q|Q]; auto. exfalso. symmetry in E.
      assert (Q2 : nth_error (map (fun j => outline (verts' ++ nodes') (face' j)) (seq 0 (length d))) j = None) by (apply nth_error_None; rewrite map_length, seq_length; auto).
      pose proof (eq_trans (eq_sym E) Q2) as Q3; apply nth_error_None in Q3; rewrite map_length, seq_length in Q3. lia. }
    rewrite !nth_error_map in E. rewrite !(nth_error_nth' (seq 0 (length d)) 0), !seq_nth in E by (rewrite ?seq_length; auto). cbn [Nat.add] in E.
    cbn [option_map] in E. injection E as E. destruct (Back i Li) as (_ & _ & _ & Q). destruct (Back j Lj) as (_ & _ & _ & Q'). rewrite E, Q' in Q. injection Q as Q.
    symmetry in Q. exact (pnt_distinct G3 Li Lj Q). }
  assert (Len : length c = length d).
  { apply Permutation_length in Hp. rewrite map_length in Hp. pose proof (n_pos F3). pose proof (n_pos G3). lia. }
  apply Permutation_sym, NoDup_Permutation_bis; auto.
  - rewrite !map_length, !seq_length. lia.
  - intros x Hx. apply in_map_iff in Hx as (j & <- & Ij). apply in_seq in Ij. destruct (Back j ltac:(lia)) as (i & Li & E & _). rewrite <- E. apply in_map_iff. exists i. split; auto. apply in_seq. lia.
Qed.
End Runs.

(** ** moved, mirrored, enlarged *)
Lemma sim_moved a b tx ty p : sim a b tx ty false p = moved a b tx ty p.
Proof. unfold sim, moved, sg. apply vec_ext; cbn [rvec vx vy]; change (num RA) with R in *; ring. Qed.

Lemma sim_mirrored a b tx ty p : sim a b tx ty true p = mirrored a b tx ty p.
Proof. unfold sim, mirrored, moved, sg. apply vec_ext; cbn [rvec vx vy]; change (num RA) with R in *; ring. Qed.

Lemma carried_tw a b tx ty k (c d : edges) : factor a b k -> walls_carried (moved a b tx ty) c d ->
  (forall e, In e c -> exists e', In e' d /\ tw a b tx ty false e e') /\ (forall e', In e' d -> exists e, In e c /\ tw a b tx ty false e e').
Proof.
  intros Hk W. unfold tw. split.
  - intros e I. destruct (proj1 (W (ep1 e) (ep2 e))) as (e' & I' & E1 & E2); [exists e; auto|]. exists e'. rewrite !sim_moved. auto.
  - intros e' I. destruct (sim_ex tx ty false Hk (ep1 e')) as (p & Hp). destruct (sim_ex tx ty false Hk (ep2 e')) as (q & Hq). rewrite sim_moved in Hp, Hq.
    destruct (proj2 (W p q)) as (e & Ie & E1 & E2); [exists e'; auto|]. exists e. rewrite !sim_moved, E1, E2. auto.
Qed.

Lemma over_tw a b tx ty k (c d : edges) : factor a b k -> walls_turned_over (mirrored a b tx ty) c d ->
  (forall e, In e c -> exists e', In e' d /\ tw a b tx ty true e e') /\ (forall e', In e' d -> exists e, In e c /\ tw a b tx ty true e e').
Proof.
  intros Hk W. unfold tw. split.
  - intros e I. destruct (proj1 (W (ep1 e) (ep2 e))) as (e' & I' & E1 & E2); [exists e; auto|]. exists e'. rewrite !sim_mirrored. auto.
  - intros e' I. destruct (sim_ex tx ty true Hk (ep1 e')) as (p & Hp). destruct (sim_ex tx ty true Hk (ep2 e')) as (q & Hq). rewrite sim_mirrored in Hp, Hq.
    destruct (proj2 (W q p)) as (e & Ie & E1 & E2); [exists e'; auto|]. exists e. rewrite !sim_mirrored, E1, E2. auto.
Qed.

Lemma node_carried_ext f g z z' r v : f (ground v) = g (ground v) -> node_carried f z z' r v = node_carried g z z' r v.
Proof. intros E. unfold node_carried. rewrite E. auto. Qed.

Lemma outline_carried_ext f g l : (forall p, f p = g p) -> outline_carried f l = outline_carried g l.
Proof. intros E. apply map_ext. intros [p|]; cbn [option_map]; congruence. Qed.

Theorem convex_moved a b tx ty k (verts verts' : list (vec3 RA)) first first' (c d : edges) w0 w0' : factor a b k ->
  (0 <= first)%Z -> (0 <= first')%Z -> footprint verts first c -> footprint verts' first' d -> convex_contour c -> convex_contour d ->
  walls_carried (moved a b tx ty) c d ->
  separated c -> simple_roof c -> apart c -> blunt c -> separated d -> apart d -> py_get verts first = Ok w0 -> py_get verts' first' = Ok w0' ->
  forall fuel fuel' sw sw' sch sch' dbg dbg' holes holes' hgt tan r,
  length c + 2 * (length c - 2) < fuel -> length d + 2 * (length d - 2) < fuel' ->
  holes = None \/ holes = Some [] -> holes' = None \/ holes' = Some [] -> rise_factor hgt k r ->
  let o := polygonize fuel sw sch dbg verts first (Z.of_nat (length c)) holes hgt tan None None in
  let o' := polygonize fuel' sw' sch' dbg' verts' first' (Z.of_nat (length d)) holes' hgt tan None None in
  exists nodes nodes' fs fs', o_verts o = verts ++ nodes /\ o_verts o' = verts' ++ nodes' /\
    Permutation (map (node_carried (moved a b tx ty) (wz w0) (wz w0') r) nodes) nodes' /\
    o_result o = Ok fs /\ o_result o' = Ok fs' /\
    Permutation (map (outline_carried (moved a b tx ty)) (map (outline (o_verts o)) fs)) (map (outline (o_verts o')) fs').
Proof.
  intros Hk F1 G1 F2 G2 F3 G3 W S1 S2 S3 S4 S5 S6 E0 E0' fuel fuel' sw sw' sch sch' dbg dbg' holes holes' hgt tan r Hfu Hfu' Hh Hh' Hr o o'.
  destruct (carried_tw Hk W) as [Fwd Bwd].
  destruct (convex_similar Hk F1 G1 F2 G2 F3 G3 Fwd Bwd S1 S2 S3 S4 S5 S6 E0 E0' sw sw' sch sch' dbg dbg' tan Hfu Hfu' Hh Hh' Hr) as (nodes & nodes' & fs & fs' & A1 & A2 & A3 & A4 & A5 & A6).
  exists nodes, nodes', fs, fs'. fold o o' in A1, A2, A4, A5, A6. do 2 (split; [auto|]). split.
  { erewrite map_ext; [exact A3|]. intros v. apply node_carried_ext. symmetry. apply sim_moved. }
  do 2 (split; [auto|]). erewrite map_ext; [exact A6|]. intros l. unfold carry_outline. apply outline_carried_ext. intros p. symmetry. apply sim_moved.
Qed.

Theorem convex_mirrored a b tx ty k (verts verts' : list (vec3 RA)) first first' (c d : edges) w0 w0' : factor a b k ->
  (0 <= first)%Z -> (0 <= first')%Z -> footprint verts first c -> footprint verts' first' d -> convex_contour c -> convex_contour d ->
  walls_turned_over (mirrored a b tx ty) c d ->
  separated c -> simple_roof c -> apart c -> blunt c -> separated d -> apart d -> py_get verts first = Ok w0 -> py_get verts' first' = Ok w0' ->
  forall fuel fuel' sw sw' sch sch' dbg dbg' holes holes' hgt tan r,
  length c + 2 * (length c - 2) < fuel -> length d + 2 * (length d - 2) < fuel' ->
  holes = None \/ holes = Some [] -> holes' = None \/ holes' = Some [] -> rise_factor hgt k r ->
  let o := polygonize fuel sw sch dbg verts first (Z.of_nat (length c)) holes hgt tan None None in
  let o' := polygonize fuel' sw' sch' dbg' verts' first' (Z.of_nat (length d)) holes' hgt tan None None in
  exists nodes nodes' fs fs', o_verts o = verts ++ nodes /\ o_verts o' = verts' ++ nodes' /\
    Permutation (map (node_carried (mirrored a b tx ty) (wz w0) (wz w0') r) nodes) nodes' /\
    o_result o = Ok fs /\ o_result o' = Ok fs' /\
    Permutation (map (fun l => other_way (outline_carried (mirrored a b tx ty) l)) (map (outline (o_verts o)) fs)) (map (outline (o_verts o')) fs').
Proof.
  intros Hk F1 G1 F2 G2 F3 G3 W S1 S2 S3 S4 S5 S6 E0 E0' fuel fuel' sw sw' sch sch' dbg dbg' holes holes' hgt tan r Hfu Hfu' Hh Hh' Hr o o'.
  destruct (over_tw Hk W) as [Fwd Bwd].
  destruct (convex_similar Hk F1 G1 F2 G2 F3 G3 Fwd Bwd S1 S2 S3 S4 S5 S6 E0 E0' sw sw' sch sch' dbg dbg' tan Hfu Hfu' Hh Hh' Hr) as (nodes & nodes' & fs & fs' & A1 & A2 & A3 & A4 & A5 & A6).
  exists nodes, nodes', fs, fs'. fold o o' in A1, A2, A4, A5, A6. do 2 (split; [auto|]). split.
  { erewrite map_ext; [exact A3|]. intros v. apply node_carried_ext. symmetry. apply sim_mirrored. }
  do 2 (split; [auto|]). erewrite map_ext; [exact A6|]. intros l. unfold carry_outline. f_equal. apply outline_carried_ext. intros p. symmetry. apply sim_mirrored.
Qed.

(** an enlarged footprint, or its mirror image, is in general position if the footprint is *)
Section Larger.
Variables tx ty k : R.
Variable flip : bool.
Hypothesis Hk1 : (1 <= k)%R.
Variables c d : edges.
Hypothesis Hc : convex_contour c.
Hypothesis Hd : convex_contour d.
Hypothesis Fwd : forall e, In e c -> exists f, In f d /\ tw k 0 tx ty flip e f.
Hypothesis Bwd : forall f, In f d -> exists e, In e c /\ tw k 0 tx ty flip e f.

Lemma larger_factor : factor k 0 k.
Proof. split; [lra|ring]. Qed.

Lemma larger_separated : separated c -> separated d.
Proof.
  intros S y h z g Hy Hz. destruct (sim_ex tx ty flip larger_factor y) as (x & ->). destruct (sim_ex tx ty flip larger_factor z) as (w & ->).
  destruct (scale_ex larger_factor h) as (h' & ->). destruct (scale_ex larger_factor g) as (g' & ->).
  apply (equi_iff larger_factor Hc Hd Fwd Bwd) in Hy. apply (equi_iff larger_factor Hc Hd Fwd Bwd) in Hz.
  destruct (S x h' w g' Hy Hz) as [->|Q]; auto. right. replace (k * h' - k * g')%R with (k * (h' - g'))%R by ring. rewrite Rabs_mult, (Rabs_pos_eq k) by lra.
  pose proof (Rmult_le_compat_r _ _ _ (Rabs_pos (h' - g')) Hk1). lra.
Qed.

Lemma larger_apart : apart c -> apart d.
Proof.
  intros S y h z g Hy Hz. destruct (sim_ex tx ty flip larger_factor y) as (x & ->). destruct (sim_ex tx ty flip larger_factor z) as (w & ->).
  destruct (scale_ex larger_factor h) as (h' & ->). destruct (scale_ex larger_factor g) as (g' & ->).
  apply (point_iff larger_factor Hc Hd Fwd Bwd) in Hy. apply (point_iff larger_factor Hc Hd Fwd Bwd) in Hz.
  destruct (S x h' w g' Hy Hz) as [->|Q]; auto. right. unfold sim. cbn [rvec vx vy]. change (num RA) with R in *.
  match goal with |- (_ <= Rabs ?p + Rabs ?q)%R => replace p with (k * (vx x - vx w))%R by ring; replace q with (sg flip * (k * (vy x - vy w)))%R by ring end.
  assert (Sg : Rabs (sg flip) = 1%R) by (unfold sg, Rabs; destruct flip; destruct Rcase_abs; lra).
  rewrite !Rabs_mult, Sg, (Rabs_pos_eq k) by lra.
  pose proof (Rmult_le_compat_r _ _ _ (Rabs_pos (vx x - vx w)) Hk1). pose proof (Rmult_le_compat_r _ _ _ (Rabs_pos (vy x - vy w)) Hk1). change (num RA) with R in *. lra.
Qed.
End Larger.

Theorem convex_enlarged tx ty k (verts verts' : list (vec3 RA)) first first' (c d : edges) w0 w0' : (1 <= k)%R ->
  (0 <= first)%Z -> (0 <= first')%Z -> footprint verts first c -> footprint verts' first' d -> convex_contour c -> convex_contour d ->
  walls_carried (moved k 0 tx ty) c d ->
  separated c -> simple_roof c -> apart c -> blunt c -> py_get verts first = Ok w0 -> py_get verts' first' = Ok w0' ->
  forall fuel fuel' sw sw' sch sch' dbg dbg' holes holes' hgt tan r,
  length c + 2 * (length c - 2) < fuel -> length d + 2 * (length d - 2) < fuel' ->
  holes = None \/ holes = Some [] -> holes' = None \/ holes' = Some [] -> rise_factor hgt k r ->
  let o := polygonize fuel sw sch dbg verts first (Z.of_nat (length c)) holes hgt tan None None in
  let o' := polygonize fuel' sw' sch' dbg' verts' first' (Z.of_nat (length d)) holes' hgt tan None None in
  exists nodes nodes' fs fs', o_verts o = verts ++ nodes /\ o_verts o' = verts' ++ nodes' /\
    Permutation (map (node_carried (moved k 0 tx ty) (wz w0) (wz w0') r) nodes) nodes' /\
    o_result o = Ok fs /\ o_result o' = Ok fs' /\
    Permutation (map (outline_carried (moved k 0 tx ty)) (map (outline (o_verts o)) fs)) (map (outline (o_verts o')) fs').
Proof.
  intros Hk1 F1 G1 F2 G2 F3 G3 W S1 S2 S3 S4 E0 E0' fuel fuel' sw sw' sch sch' dbg dbg' holes holes' hgt tan r Hfu Hfu' Hh Hh' Hr.
  destruct (carried_tw (larger_factor Hk1) W) as [Fwd Bwd].
  exact (convex_moved (larger_factor Hk1) F1 G1 F2 G2 F3 G3 W S1 S2 S3 S4 (larger_separated Hk1 F3 G3 Fwd Bwd S1) (larger_apart Hk1 F3 G3 Fwd Bwd S3) E0 E0'
    sw sw' sch sch' dbg dbg' tan Hfu Hfu' Hh Hh' Hr).
Qed.

Theorem convex_mirror_image tx ty (verts verts' : list (vec3 RA)) first first' (c d : edges) w0 w0' :
  (0 <= first)%Z -> (0 <= first')%Z -> footprint verts first c -> footprint verts' first' d -> convex_contour c -> convex_contour d ->
  walls_turned_over (mirrored 1 0 tx ty) c d ->
  separated c -> simple_roof c -> apart c -> blunt c -> py_get verts first = Ok w0 -> py_get verts' first' = Ok w0' ->
  forall fuel fuel' sw sw' sch sch' dbg dbg' holes holes' hgt tan,
  length c + 2 * (length c - 2) < fuel -> length d + 2 * (length d - 2) < fuel' ->
  holes = None \/ holes = Some [] -> holes' = None \/ holes' = Some [] ->
  let o := polygonize fuel sw sch dbg verts first (Z.of_nat (length c)) holes hgt tan None None in
  let o' := polygonize fuel' sw' sch' dbg' verts' first' (Z.of_nat (length d)) holes' hgt tan None None in
  exists nodes nodes' fs fs', o_verts o = verts ++ nodes /\ o_verts o' = verts' ++ nodes' /\
    Permutation (map (node_carried (mirrored 1 0 tx ty) (wz w0) (wz w0') 1) nodes) nodes' /\
    o_result o = Ok fs /\ o_result o' = Ok fs' /\
    Permutation (map (fun l => other_way (outline_carried (mirrored 1 0 tx ty) l)) (map (outline (o_verts o)) fs)) (map (outline (o_verts o')) fs').
Proof.
  intros F1 G1 F2 G2 F3 G3 W S1 S2 S3 S4 E0 E0' fuel fuel' sw sw' sch sch' dbg dbg' holes holes' hgt tan Hfu Hfu' Hh Hh'.
  assert (Hk1 : (1 <= 1)%R) by lra. destruct (over_tw (larger_factor Hk1) W) as [Fwd Bwd].
  assert (Hr : rise_factor hgt 1 1) by (unfold rise_factor; destruct (Req_dec hgt 0); auto).
  exact (convex_mirrored (larger_factor Hk1) F1 G1 F2 G2 F3 G3 W S1 S2 S3 S4 (larger_separated Hk1 F3 G3 Fwd Bwd S1) (larger_apart Hk1 F3 G3 Fwd Bwd S3) E0 E0'
    sw sw' sch sch' dbg dbg' tan Hfu Hfu' Hh Hh' Hr).
Qed.
