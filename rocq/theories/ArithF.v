(** * ArithF: IEEE arithmetic.  Python floats are binary64; mathutils.Vector
    stores binary32.  Built on Coq.Floats.SpecFloat (pure Gallina, no axioms). *)

From Coq Require Import Floats.SpecFloat.
From Verif Require Import Py Arith.

Definition f64 := spec_float.
Definition norm64 (m e : Z) (sz : bool) : f64 := binary_normalize 53 1024 m e sz.

Definition to_prec (prec emax : Z) (x : f64) : f64 :=
  match x with
  | S754_finite s m e => binary_normalize prec emax (if s then Zneg m else Zpos m) e s
  | _ => x
  end.

(** double -> float -> double *)
Definition rnd32 (x : f64) : f64 := to_prec 53 1024 (to_prec 24 128 x).

(** the 32-bit pattern of a binary32 value, as the signed integer that
    EXPP_FloatsAreEqual (mathutils.c) compares; negative values run downwards *)
Definition bits31 (x : f64) : Z :=
  match to_prec 24 128 x with
  | S754_zero _ => 0
  | S754_infinity _ => 255 * 2^23
  | S754_nan => 255 * 2^23 + 2^22
  | S754_finite _ m e =>
    if (Zpos m <? 2^23)%Z then Zpos m                       (* subnormal *)
    else ((e + 149 + 1) * 2^23 + (Zpos m - 2^23))%Z
  end.
Definition sign_of (x : f64) : bool :=
  match x with
  | S754_zero s => s | S754_infinity s => s | S754_nan => false | S754_finite s _ _ => s
  end.
Definition ord32 (x : f64) : Z := if sign_of x then (- bits31 x - 1)%Z else bits31 x.
Definition ulp_eq (x y : f64) : bool := (Z.abs (ord32 x - ord32 y) <=? 1)%Z.

Definition F64 : arith := {|
  num := f64;
  nadd := SFadd 53 1024; nsub := SFsub 53 1024; nmul := SFmul 53 1024; ndiv := SFdiv 53 1024;
  nneg := SFopp; nabs := SFabs; nsqrt := SFsqrt 53 1024;
  nltb := SFltb; nleb := SFleb; neqb := SFeqb;
  lit := fun n d => SFdiv 53 1024 (norm64 n 0 false) (norm64 (Zpos d) 0 false);
  rnd := rnd32; veqc := ulp_eq |}.
