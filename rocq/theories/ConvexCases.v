(** * ConvexCases: a trapezoid (case for C47) *)

From Coq Require Import Reals Lra ZArith.
From Verif Require Import Py Arith ArithR RSpec Euclid Lav Cluster ClusterSpec GeoSpec BisSpec ConvexSpec.
Set Implicit Arguments.
Unset Strict Implicit.
Local Open Scope nat_scope.

Definition trap : list (@edge2 RA) :=
  [Edge 0 (rvec 0 0) (rvec 10 0) (rvec 1 0) 0 0; Edge 1 (rvec 10 0) (rvec 7 4) (rvec (-3 / 5) (4 / 5)) 0 0;
   Edge 2 (rvec 7 4) (rvec 3 4) (rvec (-1) 0) 0 0; Edge 3 (rvec 3 4) (rvec 0 0) (rvec (-3 / 5) (-4 / 5)) 0 0].

Lemma trap_convex : convex_contour trap.
Proof.
  split; [|split].
  - split; [discriminate|]. split.
    + assert (S10 : sqrt (10 * 10) = 10%R) by (apply sqrt_square; lra).
      assert (S5 : sqrt (5 * 5) = 5%R) by (apply sqrt_square; lra).
      assert (S4 : sqrt (4 * 4) = 4%R) by (apply sqrt_square; lra).
      intros e [<-|[<-|[<-|[<-|[]]]]]; unfold directed, euclid_dist, Rsqr; cbn [ep1 ep2 enorm rvec vx vy]; simpl;
        (split; [intros K; pose proof (f_equal (@vx RA) K) as K1; pose proof (f_equal (@vy RA) K) as K2; simpl in K1, K2; lra|]).
      * match goal with |- context [sqrt ?x] => replace x with (10 * 10)%R by (simpl; ring) end. rewrite S10. split; lra.
      * match goal with |- context [sqrt ?x] => replace x with (5 * 5)%R by (simpl; ring) end. rewrite S5. split; lra.
      * match goal with |- context [sqrt ?x] => replace x with (4 * 4)%R by (simpl; ring) end. rewrite S4. split; lra.
      * match goal with |- context [sqrt ?x] => replace x with (5 * 5)%R by (simpl; ring) end. rewrite S5. split; lra.
    + intros e1 e2 (j & Hj & N1 & N2). simpl in Hj.
      destruct j as [|[|[|[|j]]]]; simpl in N1, N2; [| | | |lia]; injection N1 as <-; injection N2 as <-; reflexivity.
  - simpl. lia.
  - intros i j k a b d Hi Hj Na Nb Nd.
    assert (k < 4) by (assert (K : nth_error trap k <> None) by congruence; apply nth_error_Some in K; exact K).
    destruct i as [|[|i]]; [| |lia]; destruct j as [|[|[|j]]]; try lia; destruct k as [|[|[|[|k]]]]; try lia; simpl in Na, Nb, Nd;
      injection Na as <-; injection Nb as <-; injection Nd as <-; unfold orient; simpl; lra.
Qed.
