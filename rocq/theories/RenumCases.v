(** * RenumCases: a square with a hole, alone and between other vertices *)

From Coq Require Import ZArith List Lia.
From Verif Require Import Py Arith ArithF Euclid Lav Graph Poly TurnSpec RenumSpec.
Set Implicit Arguments.
Unset Strict Implicit.

Definition pt (x y : Z) : vec3 F64 := V3 (A := F64) (lit (a := F64) x 1) (lit (a := F64) y 1) (lit (a := F64) 2 1).

Definition yard : list (vec3 F64) := [pt 8 8; pt 8 12; pt 12 12; pt 12 8; pt 0 0; pt 24 0; pt 24 20; pt 0 20].
Definition others : list (vec3 F64) := [pt 77 5; pt 0 0; pt 3 3].
Definition more : list (vec3 F64) := [pt 24 20; pt (-1) 9].

Definition roof_of (verts : list (vec3 F64)) (first hole : Z) :=
  polygonize (A := F64) 60 (fun _ _ => false) (fun _ _ => O) false verts first 4 (Some [(hole, 4%Z)]) (lit (a := F64) 3 1) (lit (a := F64) 1 1) None None.

Lemma yard_blocks : block_in (length yard) (4, 4)%Z /\ Forall (block_in (length yard)) [(0, 4)%Z].
Proof. unfold block_in. cbn. repeat constructor; cbn; lia. Qed.

Lemma yard_roof :
  o_result (roof_of yard 4 0) = Ok [[7; 4; 11; 9]; [6; 7; 9; 10; 13]; [4; 5; 12; 8; 11]; [5; 6; 13; 12]; [3; 0; 11; 8]; [2; 3; 8; 12; 13; 10]; [0; 1; 9; 11]; [1; 2; 10; 9]]%Z /\
  o_result (roof_of (others ++ yard ++ more) 7 3) =
    Ok [[10; 7; 16; 14]; [9; 10; 14; 15; 18]; [7; 8; 17; 13; 16]; [8; 9; 18; 17]; [6; 3; 16; 13]; [5; 6; 13; 17; 18; 15]; [3; 4; 14; 16]; [4; 5; 15; 14]]%Z.
Proof. vm_compute. auto. Qed.

(** two vertices: the first vertex of the footprint in the joined face is at position 3, which is not below 2; with two vertices before them it is below 4 *)
Lemma joined_faces :
  merge_faces 2 [7; 8; 9; 1; 0]%Z [4; 8; 7]%Z 7 4 = Err StopIteration /\
  merge_faces 4 (map (moved 2 2 0) [7; 8; 9; 1; 0]%Z) (map (moved 2 2 0) [4; 8; 7]%Z) (moved 2 2 0 7) (moved 2 2 0 4) = Ok [3; 2; 10; 9; 9; 10; 11]%Z.
Proof. vm_compute. auto. Qed.

Lemma joined_refuted : exists (n p : nat) (rf lf : list Z) (a b : Z) (f : list Z),
  merge_faces (Z.of_nat n) rf lf a b = Err StopIteration /\
  merge_faces (Z.of_nat (n + p)) (map (moved n p 0) rf) (map (moved n p 0) lf) (moved n p 0 a) (moved n p 0 b) = Ok f.
Proof. exists 2%nat, 2%nat, [7; 8; 9; 1; 0]%Z, [4; 8; 7]%Z, 7%Z, 4%Z, [3; 2; 10; 9; 9; 10; 11]%Z. exact joined_faces. Qed.
