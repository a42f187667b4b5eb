(** * TestProofs: what the tests of the project assert, for every convex footprint (C66) *)

From Coq Require Import Permutation Reals Lra.
From Verif Require Import Py PyFacts Arith ArithR Euclid Graph GraphSpec GraphProofs Lav Cluster Poly PySort ClusterSpec GeoSpec GeoLines BisSpec BisProofs BisStart
  PatSpec PolyR PolyFaces TriSpec TriSkel TriRoof ConvexSpec ConvexGeo ConvexWave RoofSpec ConvexComb ConvexTree ConvexPost ConvexFaces ConvexGraph ConvexClean ConvexMove ConvexTile ConvexPoly TurnCases TestSpec.
Set Implicit Arguments.
Unset Strict Implicit.
Local Open Scope R_scope.

Section Links.
Variable c : list (@edge2 RA).
Hypothesis Hc : convex_contour c.
Let n := length c.
Variables (out : list (@subtree RA)) (M : nat) (wp wl A B U : nat -> nat) (F : nat -> list nat) (P : nat -> pt) (H : nat -> R).
Hypothesis Hr : roof c out M wp wl A B U F P H.
Let n3 : (3 <= n)%nat := n_pos Hc.
Let Ht : tree n M wp wl A B U F := r_tree Hr.

Definition inside (p q : pt) t : pt := rvec (vx p + t * (vx q - vx p)) (vy p + t * (vy q - vy p)).

Lemma affine_inside f p q t : affine f -> f (inside p q t) = (1 - t) * f p + t * f q.
Proof. intros (a & b & d & Hf). rewrite !Hf. unfold inside, rvec. cbn [vx vy]. change (num RA) with R in *. ring. Qed.

(** a link separates two walls *)
Lemma link_walls v : (v < M)%nat -> exists i j, (i < n)%nat /\ (j < n)%nat /\ i <> j /\
  forall x, x = v \/ x = U v -> wd c i (P x) = H x /\ wd c j (P x) = H x.
Proof.
  intros Hv. destruct (t_dart Ht Hv) as (i & j & Hi & Hj & Di & Dj).
  apply (proj1 (face_dart n3 Ht v Hi)) in Di. apply (proj2 (face_dart n3 Ht v Hj)) in Dj. exists i, j. split; auto. split; auto. split.
  - intros <-. destruct (face_inner Hc Hr Hi) as (q & Q). pose proof (Q _ _ Di). pose proof (Q _ _ Dj) as K. rewrite orient_swap in K. lra.
  - intros x Hx. apply cyc_In in Di as [I1 I2]. apply cyc_In in Dj as [J1 J2]. destruct Hx as [-> | ->]; split; apply (face_H Hc Hr); auto.
Qed.

Lemma walls_apart i j : (i < n)%nat -> (j < n)%nat -> i <> j -> ~ forall p, wd c i p = wd c j p.
Proof.
  intros Hi Hj N E. destruct (wd_orient Hc Hr Hi) as (l & Hl & K). fold n in K. pose proof (K (P i)) as K1. pose proof (K (P (S i mod n))) as K2.
  assert (Z1 : wd c i (P i) = 0). { assert (Z : l * wd c i (P i) = 0) by (rewrite <- K1; unfold orient; change (num RA) with R in *; ring). apply Rmult_integral in Z as [Z|Z]; lra. }
  assert (Z2 : wd c i (P (S i mod n)) = 0). { assert (Z : l * wd c i (P (S i mod n)) = 0) by (rewrite <- K2; unfold orient; change (num RA) with R in *; ring). apply Rmult_integral in Z as [Z|Z]; lra. }
  destruct (walls_differ Hc Hr Hi Hj ltac:(auto)) as [G|G]; fold n in G; rewrite <- E in G; lra.
Qed.

(** a third wall is further than the two of a link at every point inside the link *)
Lemma third_wall v i j k t : (v < M)%nat -> (i < n)%nat -> (j < n)%nat -> i <> j ->
  (forall x, x = v \/ x = U v -> wd c i (P x) = H x /\ wd c j (P x) = H x) ->
  (k < n)%nat -> k <> i -> k <> j -> 0 < t < 1 -> wd c i (inside (P v) (P (U v)) t) < wd c k (inside (P v) (P (U v)) t).
Proof.
  intros Hv Hi Hj N E Hk N1 N2 T. destruct (t_up Ht Hv) as (Hu & Nu & _).
  destruct (E v (or_introl eq_refl)) as [Ei Ej]. destruct (E (U v) (or_intror eq_refl)) as [Fi Fj].
  pose proof (nearest Hc Hr Hk Hv) as L1. pose proof (nearest Hc Hr Hk Hu) as L2.
  destruct (Rle_lt_dec (wd c k (inside (P v) (P (U v)) t)) (wd c i (inside (P v) (P (U v)) t))) as [L|L]; auto. exfalso.
  rewrite !affine_inside, Ei, Fi in L by apply (affine_wd Hc).
  assert (0 <= (1 - t) * (wd c k (P v) - H v)) by (apply Rmult_le_pos; lra).
  assert (0 <= t * (wd c k (P (U v)) - H (U v))) by (apply Rmult_le_pos; lra).
  assert (Z1 : (1 - t) * (wd c k (P v) - H v) = 0) by lra. assert (Z2 : t * (wd c k (P (U v)) - H (U v)) = 0) by lra.
  apply Rmult_integral in Z1 as [Z1|Z1]; [lra|]. apply Rmult_integral in Z2 as [Z2|Z2]; [lra|].
  apply Nu. apply (r_dist Hr); auto. symmetry. apply (meet_once Hc Hi Hj Hk); auto; lra.
Qed.

Lemma links_meet v w r s : (v < M)%nat -> (w < M)%nat -> 0 < r < 1 -> 0 < s < 1 ->
  inside (P v) (P (U v)) r = inside (P w) (P (U w)) s ->
  (vx (P (U v)) - vx (P v)) * (vy (P (U w)) - vy (P w)) = (vy (P (U v)) - vy (P v)) * (vx (P (U w)) - vx (P w)).
Proof.
  intros Hv Hw Tr Ts E. destruct (link_walls Hv) as (i & j & Hi & Hj & Nij & Ev). destruct (link_walls Hw) as (k & l & Hk & Hl & Nkl & Ew).
  assert (Both : forall x, (x < n)%nat -> x = k \/ x = l -> wd c x (inside (P v) (P (U v)) r) = wd c i (inside (P v) (P (U v)) r)).
  { assert (Q : wd c k (inside (P v) (P (U v)) r) = wd c l (inside (P v) (P (U v)) r)).
    { rewrite E, !affine_inside by apply (affine_wd Hc). destruct (Ew w (or_introl eq_refl)) as [-> ->]. destruct (Ew (U w) (or_intror eq_refl)) as [-> ->]. auto. }
    assert (Q' : wd c i (inside (P v) (P (U v)) r) = wd c j (inside (P v) (P (U v)) r)).
    { rewrite !affine_inside by apply (affine_wd Hc). destruct (Ev v (or_introl eq_refl)) as [-> ->]. destruct (Ev (U v) (or_intror eq_refl)) as [-> ->]. auto. }
    assert (le1 : wd c i (inside (P v) (P (U v)) r) <= wd c k (inside (P v) (P (U v)) r)).
    { destruct (Nat.eq_dec k i) as [->|N1]; [lra|]. destruct (Nat.eq_dec k j) as [->|N2]; [lra|]. apply Rlt_le, (@third_wall v i j k r); auto. }
    assert (le2 : wd c k (inside (P v) (P (U v)) r) <= wd c i (inside (P v) (P (U v)) r)).
    { rewrite E. destruct (Nat.eq_dec i k) as [->|N1]; [lra|]. destruct (Nat.eq_dec i l) as [->|N2]; [rewrite <- E; lra|]. apply Rlt_le, (@third_wall w k l i s); auto. }
    intros x _ [-> | ->]; lra. }
  assert (In2 : forall x, (x < n)%nat -> x = k \/ x = l -> x = i \/ x = j).
  { intros x Lx Hx. destruct (Nat.eq_dec x i) as [->|N1]; auto. destruct (Nat.eq_dec x j) as [->|N2]; auto. exfalso.
    pose proof (@third_wall v i j x r Hv Hi Hj Nij Ev Lx N1 N2 Tr) as G. rewrite (Both x Lx Hx) in G. lra. }
  assert (Same : forall x, x = w \/ x = U w -> wd c i (P x) = wd c j (P x)).
  { intros x Hx. destruct (Ew x Hx) as [K1 K2]. destruct (In2 k Hk (or_introl eq_refl)) as [-> | ->]; destruct (In2 l Hl (or_intror eq_refl)) as [-> | ->]; congruence. }
  destruct (affine_wd Hc i) as (a & b & d & Gi). destruct (affine_wd Hc j) as (a' & b' & d' & Gj).
  destruct (Ev v (or_introl eq_refl)) as [V1 V2]. destruct (Ev (U v) (or_intror eq_refl)) as [V3 V4].
  pose proof (Same w (or_introl eq_refl)) as W1. pose proof (Same (U w) (or_intror eq_refl)) as W2.
  pose proof (walls_apart Hi Hj Nij) as Ne.
  rewrite Gi, ?Gj in *. rewrite <- V1 in V2. rewrite <- V3 in V4. clear V1 V3.
  change (num RA) with R in *.
  set (x1 := vx (P v)) in *. set (y1 := vy (P v)) in *. set (x2 := vx (P (U v))) in *. set (y2 := vy (P (U v))) in *.
  set (x3 := vx (P w)) in *. set (y3 := vy (P w)) in *. set (x4 := vx (P (U w))) in *. set (y4 := vy (P (U w))) in *.
  clearbody x1 y1 x2 y2 x3 y3 x4 y4.
  assert (D1 : (a - a') * (x2 - x1) + (b - b') * (y2 - y1) = 0) by lra.
  assert (D2 : (a - a') * (x4 - x3) + (b - b') * (y4 - y3) = 0) by lra.
  destruct (Req_dec ((x2 - x1) * (y4 - y3)) ((y2 - y1) * (x4 - x3))) as [|N]; auto. exfalso.
  assert (Za : (a - a') * ((x2 - x1) * (y4 - y3) - (y2 - y1) * (x4 - x3)) = 0).
  { transitivity ((y4 - y3) * ((a - a') * (x2 - x1) + (b - b') * (y2 - y1)) - (y2 - y1) * ((a - a') * (x4 - x3) + (b - b') * (y4 - y3))); [ring|rewrite D1, D2; ring]. }
  assert (Zb : (b - b') * ((x2 - x1) * (y4 - y3) - (y2 - y1) * (x4 - x3)) = 0).
  { transitivity ((x2 - x1) * ((a - a') * (x4 - x3) + (b - b') * (y4 - y3)) - (x4 - x3) * ((a - a') * (x2 - x1) + (b - b') * (y2 - y1))); [ring|rewrite D1, D2; ring]. }
  apply Rmult_integral in Za as [Za|Za]; [|lra]. apply Rmult_integral in Zb as [Zb|Zb]; [|lra].
  apply Ne. intros p. rewrite Gi, Gj. assert (a = a') by lra. assert (b = b') by lra. subst a' b'. lra.
Qed.

(** the edges of the skeleton are links *)
Lemma skeleton_link e : In e (skeleton_edges out) -> exists v, (v < M)%nat /\ e = (P (U v), P v).
Proof.
  intros He. unfold skeleton_edges in He. apply in_flat_map in He as (a & Ia & He). apply in_map_iff in He as (q & <- & Hq).
  apply In_nth_error in Ia as (k & Hk). destruct (out_node Hr Hk) as (L & S1 & _). fold n in L, S1. rewrite S1. clear S1.
  assert (Hx : (n <= n + k < M)%nat) by lia. destruct (t_node Ht Hx) as (A1 & A2 & A3 & A4 & A5 & _).
  destruct (Nat.eq_dec (S (n + k)) M) as [E|E].
  - destruct (r_peak Hr E) as (l & Pl & K). fold n in K, Pl. rewrite K in Hk. injection Hk as <-. cbn [sinks] in Hq. apply in_map_iff in Hq as (v & <- & Hv).
    apply (Permutation_in _ Pl) in Hv. simpl in Hv. destruct Hv as [<-|[<-|[<-|[]]]].
    + exists (A (n + k)%nat). rewrite A4. split; auto. lia.
    + exists (B (n + k)%nat). rewrite A5. split; auto. lia.
    + exists (U (n + k)%nat). destruct (t_peak Ht) as (p & C & Ep & _ & U1 & U2 & _). assert (Epx : p = (n + k)%nat) by lia. rewrite Epx in *. clear p Epx Ep. rewrite U1, U2. split; auto.
      rewrite <- U1. apply (t_up Ht). lia.
  - pose proof (r_out Hr (k := k)) as K. fold n in K. rewrite K in Hk by lia. injection Hk as <-. cbn [sinks] in Hq. simpl in Hq. destruct Hq as [<-|[<-|[]]].
    + exists (A (n + k)%nat). rewrite A4. split; auto. lia.
    + exists (B (n + k)%nat). rewrite A5. split; auto. lia.
Qed.

Lemma no_crossing e f : In e (skeleton_edges out) -> In f (skeleton_edges out) -> ~ GeoSpec.crossing 0 e f.
Proof.
  intros He Hf. apply skeleton_link in He as (v & Hv & ->). apply skeleton_link in Hf as (w & Hw & ->).
  intros (N & r & s & Tr & Ts & X & Y). apply N. rewrite Rminus_0_r in *.
  assert (E : inside (P v) (P (U v)) (1 - r) = inside (P w) (P (U w)) (1 - s)).
  { unfold inside, rvec. f_equal; change (num RA) with R in *; lra. }
  pose proof (@links_meet v w (1 - r) (1 - s) Hv Hw ltac:(lra) ltac:(lra) E) as G. change (num RA) with R in *. lra.
Qed.

Lemma crossing_weaken eps e f : 0 <= eps -> GeoSpec.crossing eps e f -> GeoSpec.crossing 0 e f.
Proof.
  intros He. destruct e as [p1 p2], f as [q1 q2]. intros (N & r & s & Tr & Ts & X). split; auto. exists r, s. split; [lra|]. split; [lra|auto].
Qed.

Lemma check_none : checkEdgeCrossing out = 0%nat.
Proof.
  destruct (checkEdgeCrossing_R out) as (L & _ & <- & G). destruct L as [|(i, j) L]; auto. exfalso.
  destruct (proj1 (G i j) (or_introl eq_refl)) as (_ & e & f & Ee & Ef & K). apply nth_error_In in Ee, Ef. rewrite <- flat_map_concat_map in Ee, Ef.
  apply (@no_crossing e f); auto. apply (@crossing_weaken (1 / 100000)); auto. lra.
Qed.
End Links.

Lemma link_edge (A : arith) (sk : list (@subtree A)) e : link sk e <-> In e (skeleton_edges sk).
Proof.
  unfold link, skeleton_edges. rewrite in_flat_map. split.
  - intros (a & Ia & E & Is). exists a. split; auto. apply in_map_iff. exists (snd e). split; auto. rewrite <- E. destruct e; auto.
  - intros (a & Ia & He). apply in_map_iff in He as (q & <- & Hq). exists a. auto.
Qed.

Section Convex.
Local Open Scope nat_scope.
Variable verts : list (vec3 RA).
Variable first : Z.
Hypothesis Hfirst : (0 <= first)%Z.
Variable c : list (@edge2 RA).
Hypothesis Hfoot : footprint verts first c.
Hypothesis Hc : convex_contour c.
Hypothesis Hsep : separated c.
Hypothesis Hsimple : simple_roof c.
Hypothesis Hapart : apart c.
Hypothesis Hblunt : blunt c.
Let n := length c.

Theorem convex_passes fuel sw sch holes hgt tan : n + 2 * (n - 2) < fuel -> holes = None \/ holes = Some [] ->
  let o := polygonize fuel sw sch true verts first (Z.of_nat n) holes hgt tan None None in
  passes o /\ forall sk, o_debug o = Some sk -> links_clear sk.
Proof.
  intros Hfu Hh o.
  destruct (convex_polygonize Hfirst Hfoot Hc Hsep Hsimple Hapart Hblunt sw sch true hgt tan None Hfu Hh) as (w0 & nodes & s & fs & face & _ & _ & _ & _ & _ & _ & Hp & Hf & _ & Ho).
  fold n in Ho. fold o in Ho. fold n in Hp.
  destruct (convex_prepare Hc Hfoot Hh) as (w0' & center & c' & G0 & Hpr & Hz & Hm & Hid). fold n in Hpr.
  pose proof (proj1 Hm) as Hlen. pose proof (moved_convex Hm Hc) as Hc'. fold n in Hlen.
  destruct (@convex_tree c' Hc' (moved_separated Hm Hc Hsep) (moved_simple Hm Hc Hsimple) fuel) as (out & wp & wl & A & B & U & F & P & H & Hraw & Lout & Hr); [rewrite Hlen; auto|].
  pose proof (post_none Hc' (moved_apart Hm Hc Hapart) (moved_blunt Hm Hc Hblunt) Hr Hraw) as Hsk.
  assert (Hd : o_debug o = Some out) by (unfold o; eapply debug_node; [exact Hpr|exact Hsk]).
  split.
  - exists fs, out. split; auto. split; auto. split.
    + intros f If. apply (Permutation_in _ Hp) in If. apply in_map_iff in If as (k & <- & Ik). apply in_seq in Ik.
      destruct (nth_error c k) as [e|] eqn:E; [|apply nth_error_None in E; fold n in E; lia].
      destruct (Hf k e E) as [(rest & Er & Nd & Ne & _) _]. split; auto. rewrite Er. destruct rest; [congruence|]. simpl. lia.
    + exact (check_none Hc' Hr).
  - intros sk K. rewrite Hd in K. injection K as <-. intros e f Le Lf. apply link_edge in Le, Lf. exact (no_crossing Hc' Hr Le Lf).
Qed.
End Convex.
