(** * RenumSpec: a footprint inside a longer list of vertices *)

From Coq Require Import ZArith List.
From Verif Require Import Py Arith Lav Poly TurnSpec.
Set Implicit Arguments.

(** the number under which vertex i is found when p vertices are put before, and q vertices behind, the first n ones;
    -1 marks a link that ends nowhere and stays *)
Definition moved (n p q : nat) (i : Z) : Z :=
  if (i <? 0)%Z then i
  else if (i <? Z.of_nat n)%Z then (i + Z.of_nat p)%Z
  else (i + Z.of_nat p + Z.of_nat q)%Z.

(** the block of vertices first, first + 1, ..., first + cnt - 1 lies in a list of n vertices *)
Definition block_in (n : nat) (b : Z * Z) : Prop := (0 <= fst b /\ 1 <= snd b /\ fst b + snd b <= Z.of_nat n)%Z.

Definition block_behind (p : nat) (b : Z * Z) : Z * Z := ((fst b + Z.of_nat p)%Z, snd b).

(** o' is what o is, found between the vertices pre and post.  A call that ends in StopIteration is left out: while
    removing spikes the code compares a position in a face with the number of vertices passed in. *)
Definition same_roof {A : arith} (verts pre post : list (vec3 A)) (o o' : @outcome A) : Prop :=
  let m := moved (length verts) (length pre) (length post) in
  o_debug o' = o_debug o /\
  (exists nodes, o_verts o = verts ++ nodes /\ o_verts o' = pre ++ verts ++ post ++ nodes) /\
  (o_result o <> Err StopIteration ->
     o_result o' = res_map (map (map m)) (o_result o) /\ o_faces o' = option_map (map (map m)) (o_faces o)).
