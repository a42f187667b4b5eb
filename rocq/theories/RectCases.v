(** * RectCases: two rectangles (cases for C51) *)

From Coq Require Import Reals Lra ZArith.
From Verif Require Import Py Arith ArithR ArithF TriSpec RectSpec FootSpec FootCases.
Set Implicit Arguments.
Unset Strict Implicit.
Local Open Scope R_scope.

Definition hall : list (vec3 RA) := [V3 (A := RA) 100 100 0; V3 (A := RA) 1 2 3; V3 (A := RA) 11 2 3; V3 (A := RA) 11 6 3; V3 (A := RA) 1 6 3].
Definition turned : list (vec3 RA) := [V3 (A := RA) 0 0 3; V3 (A := RA) 6 8 3; V3 (A := RA) 2 11 3; V3 (A := RA) (-4) 3 3].

Lemma long_side b : 1 < b -> / 10 ^ 35 < b * b.
Proof.
  intros Hb. assert (T : / 10 ^ 35 < 1) by (rewrite <- Rinv_1; apply Rinv_lt_contravar; [|apply Rlt_pow_R1; [lra|lia]]; rewrite Rmult_1_l; apply pow_lt; lra). nra.
Qed.

Lemma hall_ok : rectangle hall 1 (V3 (A := RA) 1 2 3) (rvec 1 0) 10 4 /\ / 10 ^ 35 < 4 * 4 /\ 0 < 4 /\ 4 + 1 / 10 <= 10.
Proof.
  split; [|split; [apply long_side; lra|lra]]. unfold rectangle, ground, in_frame, rvec. cbn [vx vy wx wy wz]. change (num RA) with R in *.
  split; [ring|]. split; [reflexivity|]. exists (V3 (A := RA) 11 2 3), (V3 (A := RA) 11 6 3), (V3 (A := RA) 1 6 3). cbn [wx wy]. change (num RA) with R in *.
  split; [reflexivity|]. split; [f_equal; ring|]. split; [reflexivity|]. split; [f_equal; ring|]. split; [reflexivity|f_equal; ring].
Qed.

Lemma turned_ok : rectangle turned 0 (V3 (A := RA) 0 0 3) (rvec (3 / 5) (4 / 5)) 10 5 /\ / 10 ^ 35 < 5 * 5 /\ 0 < 5 /\ 5 + 1 / 10 <= 10.
Proof.
  split; [|split; [apply long_side; lra|lra]]. unfold rectangle, ground, in_frame, rvec. cbn [vx vy wx wy wz]. change (num RA) with R in *.
  split; [field|]. split; [reflexivity|]. exists (V3 (A := RA) 6 8 3), (V3 (A := RA) 2 11 3), (V3 (A := RA) (-4) 3 3). cbn [wx wy]. change (num RA) with R in *.
  split; [reflexivity|]. split; [f_equal; field|]. split; [reflexivity|]. split; [f_equal; field|]. split; [reflexivity|f_equal; field].
Qed.

(** the first one in binary64 *)
Definition hall_ints : list (Z * Z) := [(1, 2); (11, 2); (11, 6); (1, 6)]%Z.
Lemma hall_faces : faces_of 1 hall_ints = [[3; 0; 4]; [2; 3; 4; 5]; [0; 1; 5; 4]; [1; 2; 5]]%Z.
Proof. vm_compute. reflexivity. Qed.
