(** * PlanSpec: plan and levels of a roof (specification side, C64) *)

From Verif Require Import Py Arith Euclid Poly.
Set Implicit Arguments.
Unset Strict Implicit.

(** the same places in plan, at any levels *)
Definition same_plan {A : arith} (l l' : list (vec3 A)) : Prop := Forall2 (fun v w => wx v = wx w /\ wy v = wy w) l l'.

Definition same_plan_opt {A : arith} (o o' : option (list (vec3 A))) : Prop :=
  match o, o' with Some l, Some l' => same_plan l l' | None, None => True | _, _ => False end.

(** two calls with the same result, the same effect on the list of faces, the same skeleton for debugging, and vertices at the same places *)
Definition same_in_plan {A : arith} (o o' : outcome (A := A)) : Prop :=
  o_result o = o_result o' /\ o_faces o = o_faces o' /\ o_debug o = o_debug o' /\ same_plan (o_verts o) (o_verts o').
