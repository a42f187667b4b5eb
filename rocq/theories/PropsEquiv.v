(** * PropsEquiv: properties C06 (translations) and C08 (unit vectors), over the real numbers *)

From Coq Require Import Reals Lra.
From Verif Require Import Py Arith ArithR ArithF RSpec Euclid Graph Lav Cluster Poly UnitProofs ShiftProofs.
Set Implicit Arguments.
Unset Strict Implicit.

(** ** C06 *)
Theorem C06_translation :
  forall (d : vec3 RA) fuel sw sch dbg verts first cnt holes hgt tan faces us, (1 <= cnt)%Z ->
  let o := polygonize fuel sw sch dbg verts first cnt holes hgt tan faces us in
  let o' := polygonize fuel sw sch dbg (map (moved d) verts) first cnt holes hgt tan faces us in
  o_verts o' = map (moved d) (o_verts o) /\ o_faces o' = o_faces o /\ o_debug o' = o_debug o /\ o_result o' = o_result o.
Proof. exact polygonize_shift. Qed.
Print Assumptions C06_translation.

(** ** C08 *)
Theorem C08_unit_vectors :
  forall fuel sw sch dbg verts first cnt holes hgt tan faces us, (1 <= cnt)%Z ->
  let hs := match holes with Some h => h | None => [] end in
  (forall h, In h hs -> 1 <= snd h)%Z ->
  Forall2 (unit_along verts) (block_edges first cnt ++ concat (map (fun h => block_edges (fst h) (snd h)) hs)) us ->
  polygonize fuel sw sch dbg verts first cnt holes hgt tan faces (Some us) =
  polygonize fuel sw sch dbg verts first cnt holes hgt tan faces None.
Proof. exact polygonize_unit. Qed.
Print Assumptions C08_unit_vectors.

(** ** concrete cases *)

(** a square with a triangular hole: the list of its unit vectors *)
Definition r3 (x y z : R) : vec3 RA := V3 (A := RA) x y z.
Definition sq_verts : list (vec3 RA) :=
  [r3 0 0 0; r3 10 0 0; r3 10 10 0; r3 0 10 0; r3 1 1 0; r3 1 4 0; r3 5 1 0]%R.
Definition sq_units : list (vec3 RA) :=
  [r3 1 0 0; r3 0 1 0; r3 (-1) 0 0; r3 0 (-1) 0; r3 0 1 0; r3 (4 / 5) (- 3 / 5) 0; r3 (-1) 0 0]%R.

Example ex_units :
  Forall2 (unit_along sq_verts) (block_edges 0 4 ++ concat (map (fun h => block_edges (fst h) (snd h)) [(4, 3)%Z])) sq_units.
Proof.
  unfold block_edges, sq_units. simpl.
  repeat constructor.
  1-4: eapply unit_along_intro with (l := 10%R); [reflexivity|reflexivity| | | |]; lra.
  - eapply unit_along_intro with (l := 3%R); [reflexivity|reflexivity| | | |]; lra.
  - eapply unit_along_intro with (l := 5%R); [reflexivity|reflexivity| | | |]; lra.
  - eapply unit_along_intro with (l := 4%R); [reflexivity|reflexivity| | | |]; lra.
Qed.

(** a rectangle in IEEE arithmetic: moved, and with its unit vectors *)
Definition f3 (x y z : Z) : vec3 F64 := mkvec3 (A := F64) (lit (a := F64) x 1) (lit (a := F64) y 1) (lit (a := F64) z 1).
Definition run_rect (vs : list (vec3 F64)) (us : option (list (vec3 F64))) : list (list Z) :=
  match o_result (polygonize 100 (fun _ _ => false) (fun _ _ => O) false vs 0 4 None (lit (a := F64) 2 1) (lit (a := F64) 0 1) None us) with
  | Ok fs => fs | Err _ => [] end.
Example ex_rect :
  run_rect [f3 0 0 0; f3 10 0 0; f3 10 6 0; f3 0 6 0] None = [[3; 0; 4]; [2; 3; 4; 5]; [0; 1; 5; 4]; [1; 2; 5]]%Z /\
  run_rect [f3 0 0 0; f3 10 0 0; f3 10 6 0; f3 0 6 0] (Some [f3 1 0 0; f3 0 1 0; f3 (-1) 0 0; f3 0 (-1) 0]) =
  run_rect [f3 64 32 5; f3 74 32 5; f3 74 38 5; f3 64 38 5] None.
Proof. split; vm_compute; reflexivity. Qed.
