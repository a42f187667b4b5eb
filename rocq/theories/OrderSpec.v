(** * OrderSpec: faces that differ only in their order and in the corner they begin with *)

From Coq Require Import ZArith List Permutation.
From Verif Require Import Py Arith ArithF Graph GraphSpec Poly BorderSpec FootSpec.
Set Implicit Arguments.

(** the same faces, listed in another order and each read from some corner *)
Definition same_faces (F F' : list (list Z)) : Prop :=
  exists F'', Permutation F' F'' /\ Forall2 (@rotation_of Z) F F''.

(** no face visits a vertex twice, and none folds back onto itself *)
Definition plain_faces {A : arith} (verts : list (vec3 A)) (F : list (list Z)) : Prop :=
  forall f, In f F -> NoDup f /\ forall p t n, consecutive f p t n -> ~ spiky verts p t n.

(** the lines of a roof: the sides of the footprint and of the holes, and the links *)
Definition lines_of_roof (first cnt : Z) (holes : list (Z * Z)) (links : list (Z * Z)) : list (Z * Z) :=
  darts_of (zrange first (first + cnt)) ++ concat (map (fun h => darts_of (zrange (fst h) (fst h + snd h))) holes) ++ links.

(** what polygonize does for a footprint with the corners ps in units of 1/den, without holes, with a slope of 45 degrees, when
    Python's sets are iterated over as sw and sch say *)
Definition ordered (sw : Z -> Z -> bool) (sch : schedule) (den : positive) (ps : list (Z * Z)) : @outcome F64 :=
  polygonize (A := F64) 300 sw sch true (map (corner3 den) ps) 0 (Z.of_nat (length ps)) None (lit (a := F64) 0 1) (lit (a := F64) 1 1) None None.
