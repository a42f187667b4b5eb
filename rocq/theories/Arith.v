(** * Arith: the numbers and vectors the code computes with.

    The model is parametric in the arithmetic.  Theorems quantified over every
    [arith] hold for IEEE floats (with all their rounding, NaNs and infinities);
    theorems about geometry are stated for the instance over the reals
    ([ArithR.v]); concrete runs use the IEEE instance ([ArithF.v]:
    binary64 Python floats, binary32 storage inside mathutils.Vector). *)

From Verif Require Import Py.
Set Implicit Arguments.

Record arith : Type := mkArith {
  num : Type;
  nadd : num -> num -> num;      (* Python float + *)
  nsub : num -> num -> num;
  nmul : num -> num -> num;
  ndiv : num -> num -> num;      (* only used on a non-zero divisor, see pdiv *)
  nneg : num -> num;
  nabs : num -> num;
  nsqrt : num -> num;
  nltb : num -> num -> bool;     (* Python < *)
  nleb : num -> num -> bool;     (* Python <= *)
  neqb : num -> num -> bool;     (* Python == *)
  lit : Z -> positive -> num;    (* the literal n/d *)
  rnd : num -> num;              (* storing a Python float in a C float (Vector component) *)
  veqc : num -> num -> bool      (* component test of mathutils Vector == (1 ULP there) *)
}.

Arguments nadd {_}. Arguments nsub {_}. Arguments nmul {_}. Arguments ndiv {_}.
Arguments nneg {_}. Arguments nabs {_}. Arguments nsqrt {_}.
Arguments nltb {_}. Arguments nleb {_}. Arguments neqb {_}.
Arguments lit {_}. Arguments rnd {_}. Arguments veqc {_}.

Record vec (A : arith) : Type := V2 { vx : num A; vy : num A }.
Record vec3 (A : arith) : Type := V3 { wx : num A; wy : num A; wz : num A }.
Arguments V2 {A}. Arguments vx {A}. Arguments vy {A}.
Arguments V3 {A}. Arguments wx {A}. Arguments wy {A}. Arguments wz {A}.

Section Ops.
Context {A : arith}.
Notation num := (num A).
Notation vec := (vec A).
Notation vec3 := (vec3 A).

Definition zeroN : num := lit 0 1.
Definition oneN : num := lit 1 1.
Definition twoN : num := lit 2 1.

(** Python [>] and [>=] *)
Definition ngtb (x y : num) : bool := nltb y x.
Definition ngeb (x y : num) : bool := nleb y x.
(** truth value of a float: [if x] *)
Definition ntruth (x : num) : bool := negb (neqb x zeroN).
(** builtin max(a,b), min(a,b): the first one unless the second is strictly better *)
Definition nmax (a b : num) : num := if ngtb b a then b else a.
Definition nmin (a b : num) : num := if nltb b a then b else a.
(** Python [/]: raises on a zero divisor *)
Definition pdiv (x y : num) : res num :=
  if neqb y zeroN then Err ZeroDivisionError else Ok (ndiv x y).
Definition nofZ (z : Z) : num := lit z 1.

(** mathutils.Vector((x, y)): components are stored as C floats *)
Definition mkvec (x y : num) : vec := V2 (rnd x) (rnd y).
Definition mkvec3 (x y z : num) : vec3 := V3 (rnd x) (rnd y) (rnd z).
(** Vector + Vector, Vector - Vector, -Vector, Vector * float (componentwise, C float) *)
Definition vadd (a b : vec) : vec := mkvec (nadd (vx a) (vx b)) (nadd (vy a) (vy b)).
Definition vsub (a b : vec) : vec := mkvec (nsub (vx a) (vx b)) (nsub (vy a) (vy b)).
Definition vneg (a : vec) : vec := V2 (nneg (vx a)) (nneg (vy a)).
Definition vscale (a : vec) (s : num) : vec :=
  mkvec (nmul (vx a) (rnd s)) (nmul (vy a) (rnd s)).
(** Vector.dot: float products, accumulated in double from the last component *)
Definition vdot (a b : vec) : num :=
  nadd (nadd zeroN (rnd (nmul (vy a) (vy b)))) (rnd (nmul (vx a) (vx b))).
(** Vector.cross of 2D vectors: a C float *)
Definition vcross (a b : vec) : num :=
  rnd (nsub (rnd (nmul (vx a) (vy b))) (rnd (nmul (vy a) (vx b)))).
(** Vector.length_squared, Vector.magnitude = Vector.length *)
Definition vlen2 (a : vec) : num := vdot a a.
Definition vlen (a : vec) : num := nsqrt (vlen2 a).
(** Vector.normalized(): the zero vector if the squared length is not above 1e-35 *)
Definition vnormalized (a : vec) : vec :=
  if ngtb (vlen2 a) (lit 1 (10^35)%positive)
  then vscale a (rnd (ndiv oneN (rnd (vlen a))))
  else V2 (rnd zeroN) (rnd zeroN).
(** Vector == Vector *)
Definition veq (a b : vec) : bool := veqc (vx a) (vx b) && veqc (vy a) (vy b).
(** 3D: + and - , and the swizzle .xy *)
Definition w_add (a b : vec3) : vec3 :=
  mkvec3 (nadd (wx a) (wx b)) (nadd (wy a) (wy b)) (nadd (wz a) (wz b)).
Definition w_sub (a b : vec3) : vec3 :=
  mkvec3 (nsub (wx a) (wx b)) (nsub (wy a) (wy b)) (nsub (wz a) (wz b)).
Definition w_xy (a : vec3) : vec := V2 (wx a) (wy a).

End Ops.
