(** * PropsRect: the roof of a rectangle (property C51) *)

From Coq Require Import Reals Permutation.
From Verif Require Import Py Arith ArithR Euclid Graph Poly TriSpec RectSpec RectProofs RectCases FootCases.
Set Implicit Arguments.

(** ** C51 *)
(** A rectangle, in any position and direction, at least 0.1 longer than wide, gets a hip roof: a ridge of two nodes l and
    r over the middle line, half the width away from the short walls, four faces: triangles over the short walls,
    quadrilaterals over the long ones. *)
Theorem C51_rectangle_roof :
  forall (verts : list (vec3 RA)) (first : Z) (w : vec3 RA) (u : vec RA) (a b : R), (0 <= first)%Z ->
  rectangle verts first w u a b -> (/ 10 ^ 35 < b * b)%R -> (0 < b)%R -> (b + 1 / 10 <= a)%R ->
  forall (fuel : nat) (sw : Z -> Z -> bool) (sch : schedule) (dbg : bool) (holes : option (list (Z * Z)))
    (hgt tan : R) (faces : option (list (list Z))),
  (8 < fuel)%nat -> holes = None \/ holes = Some [] ->
  let out := polygonize fuel sw sch dbg verts first 4 holes hgt tan faces None in
  let N := Z.of_nat (length verts) in
  exists l r fs h, ridge hgt tan b (wz w) h /\ (l = N /\ r = N + 1 \/ l = N + 1 /\ r = N)%Z /\
    (exists v1 v2, o_verts out = verts ++ [v1; v2]) /\
    (forall L, L = in_frame (ground w) u (b / 2) (b / 2) -> py_get (o_verts out) l = Ok (V3 (A := RA) (vx L) (vy L) h)) /\
    (forall R, R = in_frame (ground w) u (a - b / 2) (b / 2) -> py_get (o_verts out) r = Ok (V3 (A := RA) (vx R) (vy R) h)) /\
    Permutation fs [[first; first + 1; r; l]; [first + 1; first + 2; r]; [first + 2; first + 3; l; r]; [first + 3; first; l]]%Z /\
    o_faces out = option_map (fun old => old ++ fs) faces /\
    o_result out = Ok (match faces with Some old => old ++ fs | None => fs end).
Proof. exact rect_roof. Qed.
Print Assumptions C51_rectangle_roof.

Example C51_hall : rectangle hall 1 (V3 (A := RA) 1 2 3) (rvec 1 0) 10 4 /\ (/ 10 ^ 35 < 4 * 4)%R /\ (0 < 4)%R /\ (4 + 1 / 10 <= 10)%R.
Proof. exact hall_ok. Qed.

Example C51_turned : rectangle turned 0 (V3 (A := RA) 0 0 3) (rvec (3 / 5) (4 / 5)) 10 5 /\ (/ 10 ^ 35 < 5 * 5)%R /\ (0 < 5)%R /\ (5 + 1 / 10 <= 10)%R.
Proof. exact turned_ok. Qed.

(** the first one in binary64: the faces are those of the theorem with l = 4 and r = 5 *)
Example C51_hall_run : faces_of 1 hall_ints = [[3; 0; 4]; [2; 3; 4; 5]; [0; 1; 5; 4]; [1; 2; 5]]%Z.
Proof. exact hall_faces. Qed.
