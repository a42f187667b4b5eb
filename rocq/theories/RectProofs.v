(** * RectProofs: the hip roof of a rectangle (C51) *)

From Coq Require Import Permutation Reals Lra.
From Verif Require Import Py PyFacts Arith ArithR RSpec Euclid Graph Lav Cluster Poly ClusterSpec GeoSpec BisSpec BisProofs TriSpec TriRoof ConvexSpec RoofSpec RectSpec ConvexPoly WholeCases.
Set Implicit Arguments.
Unset Strict Implicit.
Local Open Scope R_scope.

Lemma rvec_eq a b c d : a = c -> b = d -> rvec a b = rvec c d.
Proof. intros -> ->. auto. Qed.

Lemma frame_zero (p u : vec RA) : p = in_frame p u 0 0.
Proof. destruct p as [x y]. unfold in_frame, rvec. cbn [vx vy]. change (num RA) with R in *. f_equal; ring. Qed.

Section Rect.
Variables (o u : vec RA) (a b : R).
Hypothesis Hu : vx u * vx u + vy u * vy u = 1.
Hypothesis Hb : 0 < b.
Hypothesis Hab : b <= a.

Definition walls : list (@edge2 RA) :=
  [Edge 0 (in_frame o u 0 0) (in_frame o u a 0) (rvec (vx u) (vy u)) 0 0;
   Edge 1 (in_frame o u a 0) (in_frame o u a b) (rvec (- vy u) (vx u)) 0 0;
   Edge 2 (in_frame o u a b) (in_frame o u 0 b) (rvec (- vx u) (- vy u)) 0 0;
   Edge 3 (in_frame o u 0 b) (in_frame o u 0 0) (rvec (vy u) (- vx u)) 0 0].

(** coordinates of a point *)
Definition fx (q : vec RA) : R := (vx q - vx o) * vx u + (vy q - vy o) * vy u.
Definition fy (q : vec RA) : R := (vy q - vy o) * vx u - (vx q - vx o) * vy u.

Lemma frame_of q : q = in_frame o u (fx q) (fy q).
Proof.
  destruct q as [x y]. unfold in_frame, fx, fy, rvec. cbn [vx vy]. f_equal; change (num RA) with R in *.
  - transitivity (vx o + (x - vx o) * (vx u * vx u + vy u * vy u)); [rewrite Hu; ring|ring].
  - transitivity (vy o + (y - vy o) * (vx u * vx u + vy u * vy u)); [rewrite Hu; ring|ring].
Qed.
Lemma fx_frame x y : fx (in_frame o u x y) = x.
Proof. unfold fx, in_frame, rvec. cbn [vx vy]. change (num RA) with R in *. transitivity (x * (vx u * vx u + vy u * vy u)); [ring|rewrite Hu; ring]. Qed.
Lemma fy_frame x y : fy (in_frame o u x y) = y.
Proof. unfold fy, in_frame, rvec. cbn [vx vy]. change (num RA) with R in *. transitivity (y * (vx u * vx u + vy u * vy u)); [ring|rewrite Hu; ring]. Qed.

Lemma frame_orient x0 y0 x1 y1 x2 y2 : orient (in_frame o u x0 y0) (in_frame o u x1 y1) (in_frame o u x2 y2) = (x1 - x0) * (y2 - y0) - (y1 - y0) * (x2 - x0).
Proof.
  unfold orient, in_frame, rvec. cbn [vx vy]. change (num RA) with R in *.
  transitivity (((x1 - x0) * (y2 - y0) - (y1 - y0) * (x2 - x0)) * (vx u * vx u + vy u * vy u)); [ring|rewrite Hu; ring].
Qed.

Lemma frame_dist x0 y0 x1 y1 l : 0 <= l -> (x1 - x0) * (x1 - x0) + (y1 - y0) * (y1 - y0) = l * l -> euclid_dist (in_frame o u x0 y0) (in_frame o u x1 y1) = l.
Proof.
  intros Hl E. unfold euclid_dist. rewrite <- (sqrt_square l Hl). f_equal. rewrite <- E. unfold in_frame, rvec, Rsqr. cbn [vx vy]. change (num RA) with R in *.
  transitivity (((x1 - x0) * (x1 - x0) + (y1 - y0) * (y1 - y0)) * (vx u * vx u + vy u * vy u)); [ring|rewrite Hu; ring].
Qed.

Lemma walls_directed e : In e walls -> directed e.
Proof.
  assert (N : forall x0 y0 x1 y1, x0 <> x1 \/ y0 <> y1 -> in_frame o u x0 y0 <> in_frame o u x1 y1).
  { intros x0 y0 x1 y1 K E. pose proof (f_equal fx E) as E1. pose proof (f_equal fy E) as E2. rewrite !fx_frame in E1. rewrite !fy_frame in E2. destruct K; auto. }
  intros [<-|[<-|[<-|[<-|[]]]]]; unfold directed; cbn [ep1 ep2 enorm].
  - split; [apply N; left; lra|]. rewrite (@frame_dist 0 0 a 0 a) by lra. unfold in_frame, rvec; cbn [vx vy]; change (num RA) with R in *; split; ring.
  - split; [apply N; right; lra|]. rewrite (@frame_dist a 0 a b b) by lra. unfold in_frame, rvec; cbn [vx vy]; change (num RA) with R in *; split; ring.
  - split; [apply N; left; lra|]. rewrite (@frame_dist a b 0 b a) by lra. unfold in_frame, rvec; cbn [vx vy]; change (num RA) with R in *; split; ring.
  - split; [apply N; right; lra|]. rewrite (@frame_dist 0 b 0 0 b) by lra. unfold in_frame, rvec; cbn [vx vy]; change (num RA) with R in *; split; ring.
Qed.

(** distances from the walls *)
Definition wall_dists q : list R := [fy q; a - fx q; b - fy q; fx q].
Lemma wall_dist k e q : nth_error walls k = Some e -> nth_error (wall_dists q) k = Some (edge_dist e q).
Proof.
  intros He. assert (D : directed e) by (apply walls_directed; eapply nth_error_In; eauto). rewrite (edge_dist_n _ D). clear D. unfold ndist.
  destruct k as [|[|[|[|k]]]]; simpl in He; [| | | |destruct k; discriminate]; injection He as <-; cbn [wall_dists nth_error ep1 enorm]; f_equal;
    unfold fx, fy, in_frame, rvec; cbn [vx vy]; change (num RA) with R in *.
  - ring.
  - transitivity (a * (vx u * vx u + vy u * vy u) - ((vx q - vx o) * vx u + (vy q - vy o) * vy u)); [rewrite Hu; ring|ring].
  - transitivity (b * (vx u * vx u + vy u * vy u) - ((vy q - vy o) * vx u - (vx q - vx o) * vy u)); [rewrite Hu; ring|ring].
  - ring.
Qed.

Lemma walls_in e : In e walls -> exists k, (k < 4)%nat /\ nth_error walls k = Some e.
Proof. intros K. apply In_nth_error in K as (k & K). exists k. split; auto. assert (L : (k < length walls)%nat) by (apply nth_error_Some; congruence). exact L. Qed.

Lemma walls_convex : convex_contour walls.
Proof.
  split; [|split].
  - split; [discriminate|]. split; [exact walls_directed|].
    intros e1 e2 (j & Hj & N1 & N2). simpl in Hj. destruct j as [|[|[|[|j]]]]; simpl in N1, N2; [| | | |lia]; injection N1 as <-; injection N2 as <-; reflexivity.
  - simpl. lia.
  - intros i j k e f g Hi Hj Na Nb Nd. assert (k < 4)%nat by (assert (K : nth_error walls k <> None) by congruence; apply nth_error_Some in K; exact K).
    assert (M : 0 < a * b) by (apply Rmult_lt_0_compat; lra).
    destruct i as [|[|i]]; [| |lia]; destruct j as [|[|[|j]]]; try lia; destruct k as [|[|[|[|k]]]]; try lia; simpl in Na, Nb, Nd;
      injection Na as <-; injection Nb as <-; injection Nd as <-; cbn [ep1]; rewrite frame_orient; lra.
Qed.

(** three of the walls *)
Lemma three_walls q d : equidistant walls q d -> exists i j k x y z, (i < j < k)%nat /\ (k < 4)%nat /\
  nth_error (wall_dists q) i = Some x /\ nth_error (wall_dists q) j = Some y /\ nth_error (wall_dists q) k = Some z /\ x = y /\ y = z /\ d = Rabs x.
Proof.
  intros (e1 & e2 & e3 & H1 & H2 & H3 & N1 & N2 & N3 & D1 & D2 & ->).
  apply walls_in in H1 as (i & Li & Hi). apply walls_in in H2 as (j & Lj & Hj). apply walls_in in H3 as (k & Lk & Hk).
  assert (Nij : i <> j) by congruence. assert (Njk : j <> k) by congruence. assert (Nik : i <> k) by congruence.
  apply (wall_dist q) in Hi, Hj, Hk. rewrite <- D2, <- D1 in Hk. rewrite <- D1 in Hj. set (x := edge_dist e1 q) in *. clearbody x. clear - Li Lj Lk Hi Hj Hk Nij Njk Nik.
  assert (S : forall i j k, nth_error (wall_dists q) i = Some x -> nth_error (wall_dists q) j = Some x -> nth_error (wall_dists q) k = Some x -> (i < j < k)%nat -> (k < 4)%nat ->
    exists i j k x0 y z, (i < j < k)%nat /\ (k < 4)%nat /\ nth_error (wall_dists q) i = Some x0 /\ nth_error (wall_dists q) j = Some y /\ nth_error (wall_dists q) k = Some z /\ x0 = y /\ y = z /\ Rabs x = Rabs x0).
  { intros i' j' k' A1 A2 A3 A4 A5. exists i', j', k', x, x, x. do 7 (split; auto). }
  destruct (Nat.lt_ge_cases i j); destruct (Nat.lt_ge_cases j k); destruct (Nat.lt_ge_cases i k).
  - apply (S i j k); auto.
  - apply (S i j k); auto.
  - apply (S i k j); auto; lia.
  - apply (S k i j); auto; lia.
  - apply (S j i k); auto; lia.
  - apply (S j k i); auto; lia.
  - apply (S k j i); auto; lia.
  - apply (S k j i); auto; lia.
Qed.

Lemma walls_dist q d : equidistant walls q d -> d = b / 2 \/ d = a / 2.
Proof.
  intros K. apply three_walls in K as (i & j & k & x & y & z & L & L4 & Hi & Hj & Hk & -> & -> & ->).
  assert (C : (i = 0 /\ j = 1 /\ k = 2 \/ i = 0 /\ j = 1 /\ k = 3 \/ i = 0 /\ j = 2 /\ k = 3 \/ i = 1 /\ j = 2 /\ k = 3)%nat) by lia.
  destruct C as [(-> & -> & ->)|[(-> & -> & ->)|[(-> & -> & ->)|(-> & -> & ->)]]]; cbn [wall_dists nth_error] in *; injection Hi as Hi; injection Hj as Hj; injection Hk as Hk;
    (rewrite Rabs_right; lra).
Qed.

Hypothesis Hgap : b + 1 / 10 <= a.

Lemma walls_points q h : roof_point walls q h -> h = b / 2 /\ (q = in_frame o u (b / 2) (b / 2) \/ q = in_frame o u (a - b / 2) (b / 2)).
Proof.
  intros [He Hn]. assert (A : forall k x, nth_error (wall_dists q) k = Some x -> h <= x).
  { intros k x Hk. assert (L : (k < 4)%nat) by (assert (K : nth_error (wall_dists q) k <> None) by congruence; apply nth_error_Some in K; exact K).
    destruct (nth_error walls k) as [e|] eqn:E; [|apply nth_error_None in E; simpl in E; lia]. pose proof (wall_dist q E) as W. rewrite Hk in W. injection W as ->. apply Hn. eapply nth_error_In; eauto. }
  pose proof (A 0%nat _ eq_refl) as A0. pose proof (A 1%nat _ eq_refl) as A1. pose proof (A 2%nat _ eq_refl) as A2. pose proof (A 3%nat _ eq_refl) as A3. clear A Hn.
  apply three_walls in He as (i & j & k & x & y & z & L & L4 & Hi & Hj & Hk & -> & -> & Eh).
  assert (Z0 : 0 <= z). { pose proof (Rabs_pos z). destruct (Rle_dec 0 z); auto. exfalso. rewrite Rabs_left in * by lra. 
    assert (C : nth_error (wall_dists q) k = Some z -> - z <= z) by (intros _; clear - A0 A1 A2 A3 Eh Hk L4; destruct k as [|[|[|[|k]]]]; try lia; simpl in Hk; injection Hk as Hk; lra). specialize (C Hk). lra. }
  rewrite Rabs_right in Eh by lra. subst h. rewrite (frame_of q). 
  assert (C : (i = 0 /\ j = 1 /\ k = 2 \/ i = 0 /\ j = 1 /\ k = 3 \/ i = 0 /\ j = 2 /\ k = 3 \/ i = 1 /\ j = 2 /\ k = 3)%nat) by lia.
  destruct C as [(-> & -> & ->)|[(-> & -> & ->)|[(-> & -> & ->)|(-> & -> & ->)]]]; cbn [wall_dists nth_error] in *; injection Hi as Hi; injection Hj as Hj; injection Hk as Hk.
  - split; [lra|right; f_equal; lra].
  - exfalso; lra.
  - split; [lra|left; f_equal; lra].
  - exfalso; lra.
Qed.

Lemma walls_separated : separated walls.
Proof. intros x d y d' H1 H2. destruct (walls_dist H1) as [-> | ->]; destruct (walls_dist H2) as [-> | ->]; auto; right; unfold Rabs; destruct (Rcase_abs _); lra. Qed.

Lemma walls_simple : simple_roof walls.
Proof.
  intros x h e1 e2 e3 e4 Hx H1 H2 H3 H4 Hn (D1 & D2 & D3 & D4).
  assert (K : forall e, In e walls -> edge_dist e x = h).
  { intros e He. assert (I : In e [e1; e2; e3; e4]).
    { apply (@NoDup_length_incl _ [e1; e2; e3; e4] walls Hn); auto. intros e0 [<-|[<-|[<-|[<-|[]]]]]; auto. }
    destruct I as [<-|[<-|[<-|[<-|[]]]]]; auto. }
  assert (G : forall k d, nth_error (wall_dists x) k = Some d -> (k < 4)%nat -> d = h).
  { intros k d Hk L. destruct (nth_error walls k) as [e|] eqn:E; [|apply nth_error_None in E; simpl in E; lia]. pose proof (wall_dist x E) as W. rewrite Hk in W. injection W as ->. apply K. eapply nth_error_In; eauto. }
  pose proof (G 0%nat _ eq_refl ltac:(lia)). pose proof (G 1%nat _ eq_refl ltac:(lia)). pose proof (G 2%nat _ eq_refl ltac:(lia)). pose proof (G 3%nat _ eq_refl ltac:(lia)). lra.
Qed.

Lemma walls_apart : RoofSpec.apart walls.
Proof.
  assert (U : 1 <= Rabs (vx u) + Rabs (vy u)).
  { pose proof (Rabs_pos (vx u)) as P1. pose proof (Rabs_pos (vy u)) as P2. pose proof (Rmult_le_pos _ _ P1 P2) as P3.
    assert (S1 : Rabs (vx u) * Rabs (vx u) = vx u * vx u) by (rewrite <- Rabs_mult; apply Rabs_right; change (num RA) with R in *; nra).
    assert (S2 : Rabs (vy u) * Rabs (vy u) = vy u * vy u) by (rewrite <- Rabs_mult; apply Rabs_right; change (num RA) with R in *; nra).
    change (num RA) with R in *. set (p := Rabs (vx u)) in *. set (q := Rabs (vy u)) in *. 
    destruct (Rle_dec 1 (p + q)) as [|N]; auto. exfalso. assert ((p + q) * (p + q) < 1) by nra. nra. }
  assert (G : forall x y x', Rabs (vx (in_frame o u x y) - vx (in_frame o u x' y)) + Rabs (vy (in_frame o u x y) - vy (in_frame o u x' y)) = Rabs (x - x') * (Rabs (vx u) + Rabs (vy u))).
  { intros x y x'. unfold in_frame, rvec. cbn [vx vy]. change (num RA) with R in *. rewrite Rmult_plus_distr_l, <- !Rabs_mult. f_equal; f_equal; ring. }
  intros x h y k Hx Hy. destruct (walls_points Hx) as [_ [-> | ->]]; destruct (walls_points Hy) as [_ [-> | ->]]; auto; right; rewrite G; auto.
  - rewrite Rabs_left by lra. nra.
  - rewrite Rabs_right by lra. nra.
Qed.

Lemma walls_blunt : blunt walls.
Proof.
  intros e1 e2 e3 H1 H2 H3 Hn. unfold walls in *. cbn [In] in *.
  destruct H1 as [<-|[<-|[<-|[<-|[]]]]]; destruct H2 as [<-|[<-|[<-|[<-|[]]]]];
    (try (exfalso; apply NoDup_cons_iff in Hn as [Hn _]; apply Hn; simpl; tauto));
    destruct H3 as [<-|[<-|[<-|[<-|[]]]]];
    (try (exfalso; apply NoDup_cons_iff in Hn as [Hn _]; apply Hn; simpl; tauto));
    (try (exfalso; apply NoDup_cons_iff in Hn as [_ Hn]; apply NoDup_cons_iff in Hn as [Hn _]; apply Hn; simpl; tauto));
    clear Hn; cbn [enorm rvec vx vy]; cbv zeta; change (num RA) with R in *; apply below_roots; try nra; first [left; nra].
Qed.
End Rect.

Section Roof.
Variables (verts : list (vec3 RA)) (first : Z) (w : vec3 RA) (u : vec RA) (a b : R).
Hypothesis Hfirst : (0 <= first)%Z.
Hypothesis Hrect : rectangle verts first w u a b.
Hypothesis Hlong : / 10 ^ 35 < b * b.
Hypothesis Hb : 0 < b.
Hypothesis Hab : b <= a.
Let o := ground w.
Let Hu : vx u * vx u + vy u * vy u = 1 := proj1 Hrect.
Let c := walls o u a b.
Let N := Z.of_nat (length verts).

Lemma ground0 : ground w = in_frame o u 0 0.
Proof. apply frame_zero. Qed.

Lemma rect_foot : footprint verts first c.
Proof.
  pose proof (proj2 Hrect) as (G0 & w1 & w2 & w3 & G1 & E1 & G2 & E2 & G3 & E3). fold o in E1, E2, E3.
  assert (L : forall x0 y0 x1 y1, / 10 ^ 35 < (x1 - x0) * (x1 - x0) + (y1 - y0) * (y1 - y0) -> long_enough (in_frame o u x0 y0) (in_frame o u x1 y1)).
  { intros x0 y0 x1 y1 K. unfold long_enough, in_frame, rvec. cbn [vx vy]. change (num RA) with R in *.
    match goal with |- _ < ?x => replace x with (((x1 - x0) * (x1 - x0) + (y1 - y0) * (y1 - y0)) * (vx u * vx u + vy u * vy u)) by ring end. rewrite Hu, Rmult_1_r. auto. }
  assert (La : / 10 ^ 35 < a * a) by nra.
  intros i e Hi. destruct i as [|[|[|[|i]]]]; simpl in Hi; [| | | |destruct i; discriminate]; injection Hi as <-; cbn [ep1 ep2].
  - split; [apply L; nra|]. exists w. rewrite Z.add_0_r. split; auto. symmetry. apply ground0.
  - split; [apply L; nra|]. exists w1. auto.
  - split; [apply L; nra|]. exists w2. auto.
  - split; [apply L; nra|]. exists w3. auto.
Qed.

Hypothesis Hgap : b + 1 / 10 <= a.

Lemma ground_split (v : vec3 RA) p z : ground v = p -> wz v = z -> v = V3 (A := RA) (vx p) (vy p) z.
Proof. intros <- <-. destruct v; auto. Qed.

Lemma two_nodes (T : Type) (l : list T) : length l = 2%nat -> exists x y, l = [x; y].
Proof. destruct l as [|x [|y [|z l]]]; try discriminate. eauto. Qed.

Lemma one_of (T : Type) (x : T) l : (forall y, In y l -> y = x) -> NoDup l -> l <> [] -> l = [x].
Proof.
  intros H1 H2 H3. destruct l as [|y [|z l]]; [congruence| |].
  - f_equal. apply H1; simpl; auto.
  - exfalso. apply NoDup_cons_iff in H2 as [H2 _]. apply H2. rewrite (H1 y), (H1 z); simpl; auto.
Qed.

Lemma two_of (T : Type) (x y : T) l : (forall z, In z l <-> z = x \/ z = y) -> x <> y -> NoDup l -> l = [x; y] \/ l = [y; x].
Proof.
  intros H1 H2 H3. assert (P : Permutation [x; y] l).
  { apply NoDup_Permutation; auto. constructor; [simpl; intuition|constructor; [simpl; tauto|constructor]]. intros z. rewrite H1. simpl. intuition. }
  apply Permutation_length_2_inv in P. destruct P as [-> | ->]; auto.
Qed.

Definition Lp := in_frame o u (b / 2) (b / 2).
Definition Rp := in_frame o u (a - b / 2) (b / 2).

Section Faces.
Variables (nodes : list (vec3 RA)) (il ir : nat) (vl vr : vec3 RA).
Hypothesis Hil : nth_error nodes il = Some vl.
Hypothesis Hir : nth_error nodes ir = Some vr.
Hypothesis Hne : il <> ir.
Hypothesis Hall : forall i v, nth_error nodes i = Some v -> i = il \/ i = ir.
Hypothesis Gl : ground vl = Lp.
Hypothesis Gr : ground vr = Rp.
Hypothesis Rl : roof_point c Lp (b / 2).
Hypothesis Rr : roof_point c Rp (b / 2).
Let l := (N + Z.of_nat il)%Z.
Let r := (N + Z.of_nat ir)%Z.

Lemma dist_at k e q d : nth_error c k = Some e -> nth_error (wall_dists o u a b q) k = Some d -> edge_dist e q = d.
Proof. intros He Hd. pose proof (wall_dist (o := o) Hu Hb Hab q He) as K. rewrite Hd in K. injection K as ->. auto. Qed.

Lemma only_half q d : roof_point c q d -> d = b / 2.
Proof. intros K. destruct (walls_points (o := o) Hu Hb Hab Hgap K) as [-> _]. auto. Qed.

Lemma rest_cases k e f : nth_error c k = Some e -> wall_face verts nodes first 4 k c e f ->
  exists rest, f = ((first + Z.of_nat k) :: (first + Z.of_nat (S k mod 4)) :: rest)%Z /\
  ((edge_dist e Lp = b / 2 -> edge_dist e Rp = b / 2 -> rest = [l; r] \/ rest = [r; l]) /\
   (edge_dist e Lp = b / 2 -> edge_dist e Rp <> b / 2 -> rest = [l]) /\
   (edge_dist e Lp <> b / 2 -> edge_dist e Rp = b / 2 -> rest = [r])).
Proof.
  intros He (rest & Ef & Hnd & Hr0 & Hin & _). exists rest. split; auto. rewrite Ef in Hnd. apply NoDup_cons_iff in Hnd as [_ Hnd]. apply NoDup_cons_iff in Hnd as [_ Hnd].
  assert (K : forall j, In j rest <-> j = l /\ edge_dist e Lp = b / 2 \/ j = r /\ edge_dist e Rp = b / 2).
  { intros j. rewrite Hin. split.
    - intros (i & v & -> & Hv & Rv). destruct (Hall Hv) as [-> | ->].
      + left. split; auto. rewrite Hil in Hv. assert (E : vl = v) by congruence. rewrite <- E, Gl in Rv. apply only_half in Rv. auto.
      + right. split; auto. rewrite Hir in Hv. assert (E : vr = v) by congruence. rewrite <- E, Gr in Rv. apply only_half in Rv. auto.
    - intros [[-> E]|[-> E]]; [exists il, vl|exists ir, vr]; (split; [auto|split; auto]); [rewrite Gl|rewrite Gr]; rewrite E; auto. }
  split; [|split].
  - intros E1 E2. apply two_of; auto. intros z. rewrite K. tauto. unfold l, r. lia.
  - intros E1 E2. apply one_of; auto. intros z Hz. apply K in Hz. tauto.
  - intros E1 E2. apply one_of; auto. intros z Hz. apply K in Hz. tauto.
Qed.

Lemma node_l : py_get (verts ++ nodes) l = Ok vl.
Proof. unfold l, N. rewrite PolyFaces.py_get_app_node by (apply nth_error_Some; congruence). rewrite Hil. auto. Qed.
Lemma node_r : py_get (verts ++ nodes) r = Ok vr.
Proof. unfold r, N. rewrite PolyFaces.py_get_app_node by (apply nth_error_Some; congruence). rewrite Hir. auto. Qed.

Lemma rect_faces face : (forall k e, nth_error c k = Some e -> wall_face verts nodes first 4 k c e (face k)) ->
  face 0%nat = [first; first + 1; r; l]%Z /\ face 1%nat = [first + 1; first + 2; r]%Z /\ face 2%nat = [first + 2; first + 3; l; r]%Z /\ face 3%nat = [first + 3; first; l]%Z.
Proof.
  intros H8. pose proof (proj2 Hrect) as (G0 & w1 & w2 & w3 & G1 & E1 & G2 & E2 & G3 & E3). fold o in E1, E2, E3.
  assert (T : forall k e f x y z vx vy vz, nth_error c k = Some e -> face k = f -> corner f x y z -> py_get (verts ++ nodes) x = Ok vx ->
     py_get (verts ++ nodes) y = Ok vy -> py_get (verts ++ nodes) z = Ok vz -> 0 < orient (ground vx) (ground vy) (ground vz)).
  { intros k e f x y z vx vy vz He Ef Hk Gx Gy Gz. destruct (H8 k e He) as (rest & _ & _ & _ & _ & Hl). rewrite <- Ef in Hk.
    destruct (Hl x y z Hk) as (va & vb & vd & A1 & A2 & A3 & A4). rewrite Gx in A1. rewrite Gy in A2. rewrite Gz in A3. apply Ok_inj in A1, A2, A3. subst. auto. }
  assert (Lx : fx o u Lp = b / 2) by (apply fx_frame; auto). assert (Ly : fy o u Lp = b / 2) by (apply fy_frame; auto).
  assert (Rx : fx o u Rp = a - b / 2) by (apply fx_frame; auto). assert (Ry : fy o u Rp = b / 2) by (apply fy_frame; auto).
  split; [|split; [|split]].
  - destruct (nth_error c 0) as [e|] eqn:He; [|discriminate]. destruct (rest_cases He (H8 _ _ He)) as (rest & Ef & C & _ & _).
    change (first + Z.of_nat 0)%Z with (first + 0)%Z in Ef. rewrite Z.add_0_r in Ef. change (first + Z.of_nat (1 mod 4))%Z with (first + 1)%Z in Ef.
    destruct C as [-> | ->]; auto.
    + rewrite (dist_at He (d := fy o u Lp) eq_refl). auto.
    + rewrite (dist_at He (d := fy o u Rp) eq_refl). auto.
    + exfalso. pose proof (T 0%nat e _ (first + 1)%Z l r w1 vl vr He Ef) as K. rewrite E1, Gl, Gr in K. unfold Lp, Rp in K. rewrite frame_orient in K by auto.
      assert (Q : 0 < b / 2 * (b - a)); [|nra]. specialize (K ltac:(exists 1%nat; simpl; auto) ltac:(apply py_get_app_l; auto; lia) node_l node_r). nra.
  - destruct (nth_error c 1) as [e|] eqn:He; [|discriminate]. destruct (rest_cases He (H8 _ _ He)) as (rest & Ef & _ & _ & C).
    change (first + Z.of_nat 1)%Z with (first + 1)%Z in Ef. change (first + Z.of_nat (2 mod 4))%Z with (first + 2)%Z in Ef. rewrite Ef, C; auto.
    + rewrite (dist_at He (d := a - fx o u Lp) eq_refl). lra.
    + rewrite (dist_at He (d := a - fx o u Rp) eq_refl). lra.
  - destruct (nth_error c 2) as [e|] eqn:He; [|discriminate]. destruct (rest_cases He (H8 _ _ He)) as (rest & Ef & C & _ & _).
    change (first + Z.of_nat 2)%Z with (first + 2)%Z in Ef. change (first + Z.of_nat (3 mod 4))%Z with (first + 3)%Z in Ef.
    destruct C as [-> | ->]; auto.
    + rewrite (dist_at He (d := b - fy o u Lp) eq_refl). lra.
    + rewrite (dist_at He (d := b - fy o u Rp) eq_refl). lra.
    + exfalso. pose proof (T 2%nat e _ (first + 3)%Z r l w3 vr vl He Ef) as K. rewrite E3, Gl, Gr in K. unfold Lp, Rp in K. rewrite frame_orient in K by auto.
      assert (Q : 0 < b / 2 * (b - a)); [|nra]. specialize (K ltac:(exists 1%nat; simpl; auto) ltac:(apply py_get_app_l; auto; lia) node_r node_l). nra.
  - destruct (nth_error c 3) as [e|] eqn:He; [|discriminate]. destruct (rest_cases He (H8 _ _ He)) as (rest & Ef & _ & C & _).
    change (first + Z.of_nat 3)%Z with (first + 3)%Z in Ef. change (first + Z.of_nat (4 mod 4))%Z with (first + 0)%Z in Ef. rewrite Z.add_0_r in Ef. rewrite Ef, C; auto.
    + rewrite (dist_at He (d := fx o u Lp) eq_refl). lra.
    + rewrite (dist_at He (d := fx o u Rp) eq_refl). lra.
Qed.
End Faces.

Lemma rect_hip fuel sw sch dbg holes hgt tan faces : (8 < fuel)%nat -> holes = None \/ holes = Some [] ->
  let out := polygonize fuel sw sch dbg verts first 4 holes hgt tan faces None in
  exists l r fs h, ridge hgt tan b (wz w) h /\ (l = N /\ r = N + 1 \/ l = N + 1 /\ r = N)%Z /\
    (exists v1 v2, o_verts out = verts ++ [v1; v2]) /\
    (forall L, L = in_frame (ground w) u (b / 2) (b / 2) -> py_get (o_verts out) l = Ok (V3 (A := RA) (vx L) (vy L) h)) /\
    (forall R, R = in_frame (ground w) u (a - b / 2) (b / 2) -> py_get (o_verts out) r = Ok (V3 (A := RA) (vx R) (vy R) h)) /\
    Permutation fs [[first; first + 1; r; l]; [first + 1; first + 2; r]; [first + 2; first + 3; l; r]; [first + 3; first; l]]%Z /\
    o_faces out = option_map (fun old => old ++ fs) faces /\
    o_result out = Ok (match faces with Some old => old ++ fs | None => fs end).
Proof.
  intros Hfu Hh out.
  destruct (@convex_polygonize_faces verts first Hfirst c rect_foot (walls_convex o Hu Hb Hab) (walls_separated (o := o) Hu Hb Hab Hgap) (walls_simple (o := o) Hu Hb Hab Hgap)
    (walls_apart (o := o) Hu Hb Hab Hgap) (@walls_blunt o u a b) fuel sw sch dbg holes hgt tan faces) as (w0 & nodes & s & fs & face & H1 & H2 & H3 & H4 & H5 & H6 & H7 & H8 & H9 & H10); auto.
  change (Z.of_nat (length c)) with 4%Z in *. fold out in H2, H9, H10.
  assert (E0 : w0 = w) by (pose proof (proj1 (proj2 Hrect)) as K; rewrite K in H1; apply Ok_inj in H1; auto). subst w0.
  destruct (two_nodes H3) as (v1 & v2 & En). set (h := wz w + s * (b / 2)).
  assert (Hn : forall v, In v nodes -> roof_point c (ground v) (b / 2) /\ (ground v = Lp \/ ground v = Rp) /\ wz v = h).
  { intros v Hv. destruct (H5 v Hv) as (d & _ & Rv & Zv). destruct (walls_points (o := o) Hu Hb Hab Hgap Rv) as [-> K]. auto. }
  assert (Hri : ridge hgt tan b (wz w) h).
  { destruct H6 as [[K ->]|(K & v & m & _ & Rv & Sm & _)]; [left; auto|]. right. split; auto. destruct (walls_points (o := o) Hu Hb Hab Hgap Rv) as [-> _]. unfold h. lra. }
  destruct (Hn v1) as (R1 & P1 & Z1); [rewrite En; simpl; auto|]. destruct (Hn v2) as (R2 & P2 & Z2); [rewrite En; simpl; auto|].
  assert (Nd : ground v1 <> ground v2) by (rewrite En in H4; apply NoDup_cons_iff in H4 as [H4 _]; simpl in H4; auto).
  assert (C : exists il ir vl vr, (il = 0 /\ ir = 1 \/ il = 1 /\ ir = 0)%nat /\ nth_error nodes il = Some vl /\ nth_error nodes ir = Some vr /\ ground vl = Lp /\ ground vr = Rp /\
    roof_point c Lp (b / 2) /\ roof_point c Rp (b / 2) /\ wz vl = h /\ wz vr = h).
  { destruct P1 as [P1|P1]; destruct P2 as [P2|P2]; try congruence; rewrite P1 in *; rewrite P2 in *.
    - exists 0%nat, 1%nat, v1, v2. rewrite En. do 8 (split; auto).
    - exists 1%nat, 0%nat, v2, v1. rewrite En. do 8 (split; auto). }
  destruct C as (il & ir & vl & vr & I & Hil & Hir & Gl & Gr & Rl & Rr & Zl & Zr).
  assert (Hne : il <> ir) by lia.
  assert (Hall : forall i v, nth_error nodes i = Some v -> i = il \/ i = ir).
  { intros i v K. assert (L : (i < length nodes)%nat) by (apply nth_error_Some; congruence). rewrite H3 in L. change (length c - 2)%nat with 2%nat in L. lia. }
  destruct (rect_faces Hil Hir Hne Hall Gl Gr Rl Rr H8) as (F0 & F1 & F2 & F3).
  exists (N + Z.of_nat il)%Z, (N + Z.of_nat ir)%Z, fs, h. split; auto. split; [lia|]. split; [exists v1, v2; rewrite H2, En; auto|].
  split; [|split; [|split; auto]].
  - intros L ->. rewrite H2, (node_l Hil). f_equal. apply ground_split; auto.
  - intros R0 ->. rewrite H2, (node_r Hir). f_equal. apply ground_split; auto.
  - change (map face (seq 0 (length c))) with [face 0%nat; face 1%nat; face 2%nat; face 3%nat] in H7. rewrite F0, F1, F2, F3 in H7. exact H7.
Qed.
End Roof.

Theorem rect_roof verts first w u a b : (0 <= first)%Z -> rectangle verts first w u a b -> / 10 ^ 35 < b * b -> 0 < b -> b + 1 / 10 <= a ->
  forall fuel sw sch dbg holes hgt tan faces, (8 < fuel)%nat -> holes = None \/ holes = Some [] ->
  let out := polygonize fuel sw sch dbg verts first 4 holes hgt tan faces None in
  let N := Z.of_nat (length verts) in
  exists l r fs h, ridge hgt tan b (wz w) h /\ (l = N /\ r = N + 1 \/ l = N + 1 /\ r = N)%Z /\
    (exists v1 v2, o_verts out = verts ++ [v1; v2]) /\
    (forall L, L = in_frame (ground w) u (b / 2) (b / 2) -> py_get (o_verts out) l = Ok (V3 (A := RA) (vx L) (vy L) h)) /\
    (forall R, R = in_frame (ground w) u (a - b / 2) (b / 2) -> py_get (o_verts out) r = Ok (V3 (A := RA) (vx R) (vy R) h)) /\
    Permutation fs [[first; first + 1; r; l]; [first + 1; first + 2; r]; [first + 2; first + 3; l; r]; [first + 3; first; l]]%Z /\
    o_faces out = option_map (fun old => old ++ fs) faces /\
    o_result out = Ok (match faces with Some old => old ++ fs | None => fs end).
Proof. intros H1 H2 H3 H4 H5 fuel sw sch dbg holes hgt tan faces. apply rect_hip with (a := a); auto. lra. Qed.
