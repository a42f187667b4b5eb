(** * ConvexRoofCases: the distances at which three walls of the trapezoid meet (case for C48) *)

From Coq Require Import Reals Lra ZArith.
From Verif Require Import Py Arith ArithR RSpec Euclid Lav Cluster ClusterSpec GeoSpec BisSpec BisProofs ConvexSpec ConvexCases ConvexSep.
Set Implicit Arguments.
Unset Strict Implicit.
Local Open Scope R_scope.

Lemma trap_dist q d : equidistant trap q d -> d = 2 \/ d = 5 / 2 \/ d = 4.
Proof.
  intros (e1 & e2 & e3 & H1 & H2 & H3 & N1 & N2 & N3 & D1 & D2 & ->).
  destruct trap_convex as ((_ & Hd & _) & _).
  rewrite !edge_dist_n in * by auto.
  assert (P2 : Rabs 2 = 2) by (apply Rabs_right; lra). assert (P5 : Rabs (5 / 2) = 5 / 2) by (apply Rabs_right; lra).
  assert (P4 : Rabs 4 = 4) by (apply Rabs_right; lra). clear Hd.
  destruct q as [x y]. cbn [trap In] in *.
  destruct H1 as [<-|[<-|[<-|[<-|[]]]]]; destruct H2 as [<-|[<-|[<-|[<-|[]]]]]; try congruence;
    destruct H3 as [<-|[<-|[<-|[<-|[]]]]]; try congruence; clear N1 N2 N3; unfold ndist in *; cbn [ep1 enorm rvec vx vy] in *; change (num RA) with R in *;
    first [left; transitivity (Rabs 2); [f_equal; lra|auto]|right; left; transitivity (Rabs (5 / 2)); [f_equal; lra|auto]|right; right; transitivity (Rabs 4); [f_equal; lra|auto]].
Qed.

Lemma trap_separated : separated trap.
Proof.
  intros x d y d' H1 H2. destruct (trap_dist H1) as [-> |[-> | ->]]; destruct (trap_dist H2) as [-> |[-> | ->]]; auto; right; unfold Rabs;
    destruct (Rcase_abs _); lra.
Qed.
