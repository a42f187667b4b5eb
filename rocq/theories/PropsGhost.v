(** * PropsGhost: property C56, what removeGhosts does to the links of a skeleton *)

From Coq Require Import Reals ZArith.
From Verif Require Import Py Arith ArithR ArithF Euclid Lav Cluster Poly GhostSpec GhostFacts GhostCases PropsLav.
Set Implicit Arguments.
Local Open Scope nat_scope.

(** ** C56 *)
Theorem C56_ghosts_resolved :
  forall (A : arith) (sk sk' : list (@subtree A)), removeGhosts sk = Ok sk' ->
  exists sk0 m, Forall2 unlooped sk sk0 /\ resolved (seq 0 (length sk)) m sk0 sk' /\
                length (links sk0) = m + length (links sk').
Proof. exact (@removeGhosts_links). Qed.
Print Assumptions C56_ghosts_resolved.

(** the last node has no ghost left, up to the first blocked pair *)
Theorem C56_last_node_settled :
  forall (A : arith) (sk sk' : list (@subtree A)), sk <> [] -> removeGhosts sk = Ok sk' -> settled (length sk - 1) sk'.
Proof. exact (@removeGhosts_last). Qed.
Print Assumptions C56_last_node_settled.

(** nothing happens to nodes whose links lead into different directions *)
Theorem C56_clean_skeleton_unchanged :
  forall sk : list (@subtree RA),
  (forall a, In a sk -> ~ In (source a) (sinks a) /\
     forall p q, In (p, q) (pairs_of (sinks a)) ->
       (vdot (vsub p (source a)) (vsub q (source a)) <= 99 / 100 * (vlen (vsub p (source a)) * vlen (vsub q (source a))))%R) ->
  removeGhosts sk = Ok sk.
Proof. exact removeGhosts_clean. Qed.
Print Assumptions C56_clean_skeleton_unchanged.

(** two points joined by a link of the skeleton may be in different parts of it afterwards *)
Theorem C56_stays_connected_refuted :
  exists (verts : list (vec3 F64)) mg sk p q,
  length verts = 7 /\ ghost_run 300 verts 7 mg sk /\ length (links mg) = 11 /\ length (links sk) = 10 /\
  In (p, q) (links mg) /\ ~ connected sk p q.
Proof. exact hepta_torn. Qed.
Print Assumptions C56_stays_connected_refuted.

(** ghosts may be left *)
Theorem C56_no_ghost_left_refuted :
  exists (sk sk' : list (@subtree F64)) a p q n,
  removeGhosts sk = Ok sk' /\ In a sk' /\ In (p, q) (pairs_of (sinks a)) /\ ghost sk' (source a) p q p q n.
Proof. exact chain_left. Qed.
Print Assumptions C56_no_ghost_left_refuted.

(** ** a footprint with a ghost: two walls get one face *)
Example ex_hepta : hepta = [P3 10 4; P3 12 4; P3 10 8; P3 8 11; P3 1 10; P3 4 7; P3 1 6].
Proof. reflexivity. Qed.
Example ex_hepta_roof :
  o_result (polygonize 300 (fun _ _ => false) (fun _ _ => O) false hepta 0 7 None (fq 0) (fq 1) None None)
  = Ok [[6; 0; 7; 9; 8]; [5; 6; 8]; [0; 1; 7]; [1; 2; 3; 10; 9; 7]; [3; 4; 10]; [4; 5; 8; 9; 10]]%Z.
Proof. exact hepta_roof. Qed.
(** a skeleton over exact arithmetic that stays as it is *)
Example ex_clean : removeGhosts clean_case = Ok clean_case.
Proof. exact clean_case_ok. Qed.
