(** * ArithQ: an instance over the rational numbers.  It computes, and == is equality, so it serves for the concrete
    cases beside theorems that assume exact equality.  Square roots are rounded down to a rational. *)

From Coq Require Import QArith Qcanon Qabs.
From Verif Require Import Py Arith.
Local Open Scope Qc_scope.

Definition Qcltb (x y : Qc) : bool := match x ?= y with Lt => true | _ => false end.
Definition Qcleb (x y : Qc) : bool := match x ?= y with Gt => false | _ => true end.
Definition Qcsqrt (x : Qc) : Qc := Q2Qc (Qmake (Z.sqrt (Qnum x * Zpos (Qden x))) (Qden x)).

Definition QA : arith := {|
  num := Qc;
  nadd := Qcplus; nsub := Qcminus; nmul := Qcmult; ndiv := Qcdiv;
  nneg := Qcopp; nabs := fun x => Q2Qc (Qabs x); nsqrt := Qcsqrt;
  nltb := Qcltb; nleb := Qcleb; neqb := fun x y => if Qc_eq_dec x y then true else false;
  lit := fun n d => Q2Qc (Qmake n d);
  rnd := fun x => x; veqc := fun x y => if Qc_eq_dec x y then true else false |}.
