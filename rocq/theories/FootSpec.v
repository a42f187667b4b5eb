(** * FootSpec: footprints with integer coordinates (specification side of the counterexamples) *)

From Coq Require Import ZArith List Lia.
From Verif Require Import Py Arith ArithF Poly.
Import ListNotations.
Set Implicit Arguments.
Local Open Scope Z_scope.

Definition orientZ (a b c : Z * Z) : Z :=
  (fst b - fst a) * (snd c - snd a) - (snd b - snd a) * (fst c - fst a).

(** at least three points, any three of them turn left when visited in order *)
Definition convex_foot (ps : list (Z * Z)) : Prop :=
  (3 <= length ps)%nat /\
  forall i j k a b c, (i < j)%nat -> (j < k)%nat ->
    nth_error ps i = Some a -> nth_error ps j = Some b -> nth_error ps k = Some c -> 0 < orientZ a b c.

(** the segments ab and cd have no point in common: their boxes are apart, or one lies on one side of the other *)
Definition apart (a b c d : Z * Z) : Prop :=
  Z.max (fst a) (fst b) < Z.min (fst c) (fst d) \/ Z.max (fst c) (fst d) < Z.min (fst a) (fst b) \/
  Z.max (snd a) (snd b) < Z.min (snd c) (snd d) \/ Z.max (snd c) (snd d) < Z.min (snd a) (snd b) \/
  0 < orientZ a b c * orientZ a b d \/ 0 < orientZ c d a * orientZ c d b.

Definition cyc {T} (ps : list T) (i : nat) : option T := nth_error ps (i mod length ps).

Definition area2 (ps : list (Z * Z)) : Z :=
  fold_right Z.add 0 (map (fun ab => fst (fst ab) * snd (snd ab) - snd (fst ab) * fst (snd ab)) (combine ps (skipn 1 ps ++ firstn 1 ps))).

(** a simple polygon, counterclockwise, consecutive points not collinear *)
Definition simple_foot (ps : list (Z * Z)) : Prop :=
  (3 <= length ps)%nat /\ 0 < area2 ps /\
  (forall i a b c, (i < length ps)%nat -> cyc ps i = Some a -> cyc ps (i + 1) = Some b -> cyc ps (i + 2) = Some c -> orientZ a b c <> 0) /\
  (forall i j a b c d, (i + 1 < j)%nat -> (j < length ps)%nat -> (j + 1 < i + length ps)%nat ->
     cyc ps i = Some a -> cyc ps (i + 1) = Some b -> cyc ps j = Some c -> cyc ps (j + 1) = Some d -> apart a b c d).

(** the corner of a footprint, in units of 1/den *)
Definition corner3 (den : positive) (p : Z * Z) : vec3 F64 :=
  V3 (lit (a := F64) (fst p) den) (lit (a := F64) (snd p) den) (lit (a := F64) 0 1).

(** polygonize with a slope of 45 degrees *)
Definition roof_of (den : positive) (ps : list (Z * Z)) :=
  polygonize (A := F64) 300 (fun _ _ => false) (fun _ _ => O) false (map (corner3 den) ps) 0 (Z.of_nat (length ps)) None
    (lit (a := F64) 0 1) (lit (a := F64) 1 1) None None.

(** the face f contains wall i of a footprint with n corners *)
Definition has_wall (n i : Z) (f : list Z) : Prop :=
  exists k, cyc f k = Some i /\ cyc f (k + 1) = Some ((i + 1) mod n).
