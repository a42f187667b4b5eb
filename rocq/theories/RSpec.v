(** * RSpec: vocabulary for the statements over the real numbers *)

From Coq Require Import Reals.
From Verif Require Import Py Arith ArithR Euclid Lav.
Set Implicit Arguments.
Open Scope R_scope.

(** mean of a list of numbers *)
Definition Rsum (l : list R) : R := fold_right Rplus 0 l.
Definition Rmean (l : list R) : R := Rsum l / INR (length l).

(** the vertices of a block *)
Definition block_verts (verts : list (vec3 RA)) (first cnt : Z) (l : list (vec3 RA)) : Prop :=
  length l = Z.to_nat cnt /\
  forall k, (k < length l)%nat -> nth_error l k = nth_error verts (Z.to_nat first + k).

(** the slope used *)
Definition slope_spec (sk : list (@subtree RA)) (hgt tan ta : R) : Prop :=
  (hgt = 0 -> ta = tan) /\
  (hgt <> 0 -> exists m, (exists a, In a sk /\ height a = m) /\ (forall a, In a sk -> height a <= m) /\
                         m <> 0 /\ ta = hgt / m).

(** the directed edges of the ring of a block: (first, first+1), ..., (first+cnt-1, first) *)
Definition block_edges (first cnt : Z) : list (Z * Z) :=
  let n := Z.to_nat cnt in
  map (fun k => (first + Z.of_nat k, first + Z.of_nat ((k + 1) mod n))%Z) (seq 0 n).

(** u is, in plan, the unit vector along an edge; the edge is longer than the square root of 1e-35 *)
Definition unit_along (verts : list (vec3 RA)) (e : Z * Z) (u : vec3 RA) : Prop :=
  exists a b, py_get verts (fst e) = Ok a /\ py_get verts (snd e) = Ok b /\
    let dx := wx b - wx a in let dy := wy b - wy a in let len := sqrt (dx * dx + dy * dy) in
    / 10 ^ 35 < dx * dx + dy * dy /\ wx u * len = dx /\ wy u * len = dy.

(** the point v moved by d *)
Definition moved (d v : vec3 RA) : vec3 RA := V3 (A := RA) (wx v + wx d) (wy v + wy d) (wz v + wz d).
