(** * SameCases: the trapezoid with another first corner, and a footprint whose roof depends on the first corner (cases for C63) *)

From Coq Require Import Reals Lra ZArith Lia.
From Verif Require Import Py Arith ArithR ArithF Euclid Poly TriSpec GeoSpec RoofSpec FootSpec FootCases ConvexCases WholeCases SameSpec.
Set Implicit Arguments.
Unset Strict Implicit.
Local Open Scope R_scope.

(** the trapezoid of C49, beginning with its second corner, at index 0 of another list *)
Definition trap_verts1 : list (vec3 RA) :=
  [V3 (A := RA) 10 0 3; V3 (A := RA) 7 4 3; V3 (A := RA) 3 4 3; V3 (A := RA) 0 0 3; V3 (A := RA) (-5) 2 8].

Lemma trap_foot1 : footprint trap_verts1 0 (rot 1 trap).
Proof.
  assert (T : / 10 ^ 35 < 1) by (rewrite <- Rinv_1; apply Rinv_lt_contravar; [|apply Rlt_pow_R1; [lra|lia]]; rewrite Rmult_1_l; apply pow_lt; lra).
  intros i e Hi. destruct i as [|[|[|[|i]]]]; simpl in Hi; [| | | |destruct i; discriminate]; injection Hi as <-;
    (split; [unfold long_enough; cbn [ep1 ep2 rvec vx vy]; change (num RA) with R in *; lra|eexists; split; [reflexivity|reflexivity]]).
Qed.

Lemma trap_level : exists w w', py_get trap_verts 1 = Ok w /\ py_get trap_verts1 0 = Ok w' /\ wz w = wz w'.
Proof. exists (V3 (A := RA) 0 0 3), (V3 (A := RA) 10 0 3). repeat split. Qed.

Local Open Scope Z_scope.
(** in binary64: the same walls, the same faces up to numbers *)
Lemma trap_faces1 : faces_of 1 (rot 1 trap_ints) = [[3; 0; 5; 4]; [2; 3; 4]; [0; 1; 5]; [1; 2; 4; 5]].
Proof. vm_compute. reflexivity. Qed.

(** ** a T-shaped footprint *)
Definition tee : list (Z * Z) := [(7, 4); (13, 4); (13, 6); (0, 6); (0, 4); (5, 4); (5, 0); (7, 0)].

Lemma tee_simple : simple_foot tee /\ simple_foot (rot 1 tee).
Proof. split; apply simpleb_spec; vm_compute; reflexivity. Qed.

Lemma tee_faces : faces_of 1 tee = [[7; 0; 8; 10]; [6; 7; 10]; [0; 1; 9; 8]; [1; 2; 9]; [2; 3; 11; 8; 9]; [3; 4; 11]; [4; 5; 8; 11]; [5; 6; 10; 8]] /\
  faces_of 1 (rot 1 tee) = [[7; 0; 8; 1; 2; 9; 3; 4; 11]; [6; 7; 11; 10]; [0; 1; 8]; [2; 3; 9]; [4; 5; 10; 11]; [5; 6; 10]].
Proof. split; vm_compute; reflexivity. Qed.

Lemma faces_all den ps f l : faces_of den ps = f :: l -> o_result (roof_of den ps) = Ok (f :: l).
Proof. unfold faces_of. destruct (o_result (roof_of den ps)) as [fs|x]; [intros ->; exact eq_refl|discriminate]. Qed.

Lemma tee_start : exists ps r fs fs', simple_foot ps /\ simple_foot (rot r ps) /\
  o_result (roof_of 1 ps) = Ok fs /\ o_result (roof_of 1 (rot r ps)) = Ok fs' /\ length fs = length ps /\ (length fs' < length ps)%nat.
Proof.
  exists tee, 1%nat. eexists. eexists. split; [exact (proj1 tee_simple)|]. split; [exact (proj2 tee_simple)|].
  split; [exact (faces_all (proj1 tee_faces))|]. split; [exact (faces_all (proj2 tee_faces))|]. split; [reflexivity|]. cbn. lia.
Qed.
