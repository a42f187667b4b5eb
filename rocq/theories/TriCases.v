(** * TriCases: the right triangle with sides 3, 4, 5 *)

From Coq Require Import Permutation Reals Lra Lia.
From Verif Require Import Py Arith ArithR Euclid Poly ClusterSpec GeoSpec BisSpec TriSpec TriSkel TriRoof UnitProofs.
Set Implicit Arguments.
Unset Strict Implicit.
Local Open Scope R_scope.

Definition t0 : vec3 RA := V3 (A := RA) 10 20 7.
Definition t1 : vec3 RA := V3 (A := RA) 14 20 7.
Definition t2 : vec3 RA := V3 (A := RA) 10 23 7.

Lemma dist_of (a b : vec RA) (l : R) : 0 <= l -> (vx a - vx b) * (vx a - vx b) + (vy a - vy b) * (vy a - vy b) = l * l -> euclid_dist a b = l.
Proof. intros Hl H. unfold euclid_dist, Rsqr. simpl in *. rewrite H. apply sqrt_square; auto. Qed.

Lemma sides345 : euclid_dist (ground t0) (ground t1) = 4 /\ euclid_dist (ground t1) (ground t2) = 5 /\ euclid_dist (ground t2) (ground t0) = 3.
Proof. repeat split; apply dist_of; simpl; lra. Qed.

Lemma long345 : long_enough (ground t0) (ground t1) /\ long_enough (ground t1) (ground t2) /\ long_enough (ground t2) (ground t0).
Proof.
  assert (T : / 10 ^ 35 < 1) by (rewrite <- Rinv_1; apply Rinv_lt_contravar; [rewrite Rmult_1_l; apply pow_lt; lra|apply Rlt_pow_R1; [lra|lia]]).
  unfold long_enough. cbn [ground rvec t0 t1 t2 vx vy wx wy]. simpl in T |- *. repeat split; lra.
Qed.

Lemma orient345 : orient (ground t0) (ground t1) (ground t2) = 12.
Proof. unfold orient; simpl; lra. Qed.

Lemma center345 : incenter (ground t0) (ground t1) (ground t2) = rvec 11 21 /\ inradius (ground t0) (ground t1) (ground t2) = 1.
Proof.
  unfold incenter, inradius, perimeter. rewrite orient345. destruct sides345 as (-> & -> & ->). split; [|lra].
  unfold rvec. f_equal; match goal with |- @eq _ ?a ?b => change (@eq R a b) end; simpl; lra.
Qed.

(** a roof of height 2 *)
Lemma roof345 sw sch : exists fs, Permutation fs [[0; 1; 3]; [1; 2; 3]; [2; 0; 3]]%Z /\
  let o := polygonize (A := RA) 2 sw sch false [t0; t1; t2] 0 3 None 2 0 None None in
  o_verts o = [t0; t1; t2; V3 (A := RA) 11 21 9] /\ o_result o = Ok fs.
Proof.
  destruct long345 as (L0 & L1 & L2).
  destruct (@tri_roof [t0; t1; t2] 0%Z ltac:(lia) t0 t1 t2 eq_refl eq_refl eq_refl) with (fuel := 2%nat) (sw := sw) (sch := sch) (dbg := false)
    (holes := @None (list (Z * Z))) (hgt := 2) (tan := 0) (faces := @None (list (list Z))) (h := 2) as (V & fs & F & _ & R); auto.
  - rewrite orient345. lra.
  - exists fs. split; auto. cbv zeta. split; auto. rewrite V. destruct center345 as (-> & _). unfold apex, rvec. cbn [vx vy app].
    do 3 f_equal. f_equal. match goal with |- V3 _ _ ?a = V3 _ _ ?b => replace a with b; [reflexivity|] end. simpl. lra.
Qed.
