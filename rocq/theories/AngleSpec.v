(** * AngleSpec: polar angles and clockwise order (specification side) *)

From Coq Require Import Reals.
From Verif Require Import Py Arith ArithR.
Set Implicit Arguments.
Local Open Scope R_scope.

(** th is the polar angle, in [0, 2 pi), of the plane part of d *)
Definition polar (d : vec3 RA) (th : R) : Prop :=
  0 <= th < 2 * PI /\ exists r, 0 < r /\ wx d = r * cos th /\ wy d = r * sin th.

(** th is the polar angle of the direction from vertex c to vertex v *)
Definition direction (vl : list (vec3 RA)) (c v : Z) (th : R) : Prop :=
  exists pc pv (d : vec3 RA), py_get vl c = Ok pc /\ py_get vl v = Ok pv /\ wx d = wx pv - wx pc /\ wy d = wy pv - wy pc /\ polar d th.

(** the clockwise turn, in [0, 2 pi), that takes the direction a to the direction b *)
Definition clockwise_turn (a b t : R) : Prop := 0 <= t < 2 * PI /\ exists k : Z, a - b = t + IZR k * (2 * PI).
