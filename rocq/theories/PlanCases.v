(** * PlanCases: concrete roofs at several levels and slopes (C64) *)

From Coq Require Import ZArith List.
From Verif Require Import Py Arith ArithF Euclid Poly FootSpec SameCases PlanSpec.
Set Implicit Arguments.
Unset Strict Implicit.
Local Open Scope Z_scope.

Notation f64 z := (lit (a := F64) z 1).

(** corners at given levels *)
Definition at_levels (ps : list (Z * Z)) (zs : list Z) : list (vec3 F64) :=
  map (fun pz => let v := corner3 1 (fst pz) in V3 (wx v) (wy v) (f64 (snd pz))) (combine ps zs).

Definition leveled (ps : list (Z * Z)) (zs : list Z) (hgt tan : Z) : outcome (A := F64) :=
  polygonize 300 (fun _ _ => false) (fun _ _ => O) false (at_levels ps zs) 0 (Z.of_nat (length ps)) None (f64 hgt) (f64 tan) None None.

Lemma levels_plan ps zs zs' : length zs = length ps -> length zs' = length ps -> same_plan (at_levels ps zs) (at_levels ps zs').
Proof.
  revert zs zs'. induction ps as [|p ps IH]; intros [|z zs] [|z' zs'] E E'; cbn [length] in *; try discriminate; constructor.
  - split; exact eq_refl.
  - apply IH; congruence.
Qed.

Definition rough : list Z := [2; 7; 1; 8; 2; 8; 1; 8].

Lemma tee_plan : same_plan (at_levels tee (repeat 0 8)) (at_levels tee rough).
Proof. exact (@levels_plan tee (repeat 0 8) rough eq_refl eq_refl). Qed.

Definition tee_roof : list (list Z) :=
  [[7; 0; 8; 10]; [6; 7; 10]; [0; 1; 9; 8]; [1; 2; 9]; [2; 3; 11; 8; 9]; [3; 4; 11]; [4; 5; 8; 11]; [5; 6; 10; 8]].

Lemma tee_leveled : o_result (leveled tee (repeat 0 8) 0 1) = Ok tee_roof /\ o_result (leveled tee rough 0 3) = Ok tee_roof /\
  o_result (leveled tee rough 5 0) = Ok tee_roof.
Proof. vm_compute. auto. Qed.

(** a square listed clockwise, and a folded contour *)
Definition clockwise : list (Z * Z) := [(0, 0); (0, 4); (4, 4); (4, 0)].
Definition folded : list (Z * Z) := [(0, 0); (0, 1); (0, 0); (1, 0)].

Lemma clockwise_runs : o_result (leveled clockwise [0; 0; 0; 0] 0 1) = Ok [] /\ o_result (leveled clockwise [0; 0; 0; 0] 5 1) = Err ValueError.
Proof. vm_compute. auto. Qed.

Lemma folded_runs : (exists fs, o_result (leveled folded [0; 0; 0; 0] 0 1) = Ok fs) /\ o_result (leveled folded [0; 0; 0; 0] 5 1) = Err ZeroDivisionError.
Proof. split; [eexists; vm_compute; exact eq_refl|vm_compute; exact eq_refl]. Qed.
