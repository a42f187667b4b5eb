(** * PropsRenum: property C60, a footprint inside a longer list of vertices *)

From Coq Require Import ZArith List.
From Verif Require Import Py Arith ArithF Euclid Lav Cluster Graph Poly TurnSpec RenumSpec RenumLav RenumPoly RenumCases.
Set Implicit Arguments.
Unset Strict Implicit.

(** The skeleton depends on where the corners are, not on the numbers that the vertices have. *)
Theorem C60_skeleton_ignores_numbers :
  forall (A : arith) fuel (number : Z -> Z) (contours : list (list (@edge2 A))),
  skeletonize fuel (map (map (fun e => Edge (eid e) (ep1 e) (ep2 e) (enorm e) (number (ei1 e)) (number (ei2 e)))) contours) = skeletonize fuel contours.
Proof. exact (@skeleton_renumbered). Qed.
Print Assumptions C60_skeleton_ignores_numbers.

(** Vertices put before and behind the vertices of the caller only change the numbers in the faces: whatever order the sets of the call with
    the longer list are walked in, there is an order for the other call with the same nodes and the same faces up to numbering. *)
Theorem C60_longer_list_same_roof :
  forall (A : arith) (pre verts post : list (vec3 A)) fuel sw' sch' debug first cnt holes hgt tan faces us,
  block_in (length verts) (first, cnt) -> Forall (block_in (length verts)) (match holes with Some h => h | None => [] end) ->
  exists sw sch, same_roof verts pre post
    (polygonize fuel sw sch debug verts first cnt holes hgt tan faces us)
    (polygonize fuel sw' sch' debug (pre ++ verts ++ post) (first + Z.of_nat (length pre)) cnt (option_map (map (block_behind (length pre))) holes) hgt tan
       (option_map (map (map (moved (length verts) (length pre) (length post)))) faces) us).
Proof. exact (@moved_down). Qed.
Print Assumptions C60_longer_list_same_roof.

(** And conversely. *)
Theorem C60_shorter_list_same_roof :
  forall (A : arith) (pre verts post : list (vec3 A)) fuel sw sch debug first cnt holes hgt tan faces us,
  block_in (length verts) (first, cnt) -> Forall (block_in (length verts)) (match holes with Some h => h | None => [] end) ->
  exists sw' sch', same_roof verts pre post
    (polygonize fuel sw sch debug verts first cnt holes hgt tan faces us)
    (polygonize fuel sw' sch' debug (pre ++ verts ++ post) (first + Z.of_nat (length pre)) cnt (option_map (map (block_behind (length pre))) holes) hgt tan
       (option_map (map (map (moved (length verts) (length pre) (length post)))) faces) us).
Proof. exact (@moved_up). Qed.
Print Assumptions C60_shorter_list_same_roof.

(** The exception for StopIteration is needed where two faces are joined: the step looks for a vertex of the footprint at a position below the
    number of vertices passed in, so it can fail for a short list and succeed with more vertices in front. *)
Theorem C60_joining_faces_refuted :
  exists (n p : nat) (rf lf : list Z) (a b : Z) (f : list Z),
  merge_faces (Z.of_nat n) rf lf a b = Err StopIteration /\
  merge_faces (Z.of_nat (n + p)) (map (moved n p 0) rf) (map (moved n p 0) lf) (moved n p 0 a) (moved n p 0 b) = Ok f.
Proof. exact joined_refuted. Qed.
Print Assumptions C60_joining_faces_refuted.

(** A rectangle behind the square hole in it, alone and with three vertices before and two behind. *)
Example C60_case_blocks : block_in (length yard) (4, 4)%Z /\ Forall (block_in (length yard)) [(0, 4)%Z].
Proof. exact yard_blocks. Qed.

Example C60_case_roof :
  o_result (roof_of yard 4 0) = Ok [[7; 4; 11; 9]; [6; 7; 9; 10; 13]; [4; 5; 12; 8; 11]; [5; 6; 13; 12]; [3; 0; 11; 8]; [2; 3; 8; 12; 13; 10]; [0; 1; 9; 11]; [1; 2; 10; 9]]%Z /\
  o_result (roof_of (others ++ yard ++ more) 7 3) =
    Ok [[10; 7; 16; 14]; [9; 10; 14; 15; 18]; [7; 8; 17; 13; 16]; [8; 9; 18; 17]; [6; 3; 16; 13]; [5; 6; 13; 17; 18; 15]; [3; 4; 14; 16]; [4; 5; 15; 14]]%Z.
Proof. exact yard_roof. Qed.
