(** * SameSpec: the same footprint, given in another way (specification side, C63) *)

From Coq Require Import Reals.
From Verif Require Import Py Arith ArithR Euclid TriSpec RoofSpec.
Set Implicit Arguments.
Open Scope R_scope.

(** c and d have the same walls, possibly in another order *)
Definition same_walls (c d : list (@edge2 RA)) : Prop := forall p q,
  (exists e, In e c /\ ep1 e = p /\ ep2 e = q) <-> (exists e, In e d /\ ep1 e = p /\ ep2 e = q).

(** the slope asked for, from the footprint alone: the highest point of the roof rises by hgt, or, if hgt is 0, the slope is tan *)
Definition roof_slope (c : list (@edge2 RA)) (hgt tan s : R) : Prop :=
  hgt = 0 /\ s = tan \/
  hgt <> 0 /\ exists x m, roof_point c x m /\ s * m = hgt /\ forall y k, roof_point c y k -> k <= m.

(** the places over which the corners of the face f stand, in order *)
Definition outline (vl : list (vec3 RA)) (f : list Z) : list (option (vec RA)) :=
  map (fun i => match py_get vl i with Ok v => Some (ground v) | Err _ => None end) f.
