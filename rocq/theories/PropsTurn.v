(** * PropsTurn: property C59, turned footprints *)

From Coq Require Import ZArith List Reals.
From Verif Require Import Py Arith ArithR ArithF Euclid Lav Cluster Graph Poly TriCases TurnSpec SymLav TurnCluster TurnPoly TurnCases.
Set Implicit Arguments.
Unset Strict Implicit.
Local Open Scope R_scope.

(** Turning the contours turns what the event loop produces: same heights, turned nodes and links, same exception if there is one. *)
Theorem C59_event_loop_turns :
  forall c s : R, c * c + s * s = 1 ->
  forall fuel (contours : list (list (@edge2 RA))),
  raw_skeleton fuel (map (map (turned_edge c s)) contours) = res_map (map (turned_node c s)) (raw_skeleton fuel contours).
Proof. exact t_raw. Qed.
Print Assumptions C59_event_loop_turns.

(** The same holds after nodes have been merged and ghost links resolved, for multiples of a right angle, and for every angle if the
    nodes of the event loop that are in different places are at least a tenth apart. *)
Theorem C59_skeleton_turns :
  forall c s : R, c * c + s * s = 1 ->
  forall fuel (contours : list (list (@edge2 RA))),
  quarter_turn c s \/ (forall raw, raw_skeleton fuel contours = Ok raw -> nodes_apart raw) ->
  skeletonize fuel (map (map (turned_edge c s)) contours) = res_map (map (turned_node c s)) (skeletonize fuel contours).
Proof. exact t_skeleton. Qed.
Print Assumptions C59_skeleton_turns.

(** Turning the vertices (and the unit vectors, if given) turns the vertices that polygonize appends, whatever else is passed. *)
Theorem C59_roof_turns :
  forall c s : R, c * c + s * s = 1 ->
  forall fuel sw sch dbg (verts : list (vec3 RA)) first cnt holes hgt tan faces us,
  quarter_turn c s \/ (forall z ctr contours raw, prepare verts first cnt holes us = Ok (z, ctr, contours) -> raw_skeleton fuel contours = Ok raw -> nodes_apart raw) ->
  let o := polygonize fuel sw sch dbg verts first cnt holes hgt tan faces us in
  let o' := polygonize fuel sw sch dbg (map (turned3 c s) verts) first cnt holes hgt tan faces (option_map (map (turned3 c s)) us) in
  o_verts o' = map (turned3 c s) (o_verts o) /\ o_debug o' = option_map (map (turned_node c s)) (o_debug o).
Proof. exact turned_nodes. Qed.
Print Assumptions C59_roof_turns.

(** The faces are the same, if no two vertices of the roof are in one place, no line is drawn twice and no two lines leave a vertex in the
    same direction (then the order of the lines around a vertex does not depend on the direction in which counting starts). *)
Theorem C59_faces_stay :
  forall c s : R, c * c + s * s = 1 ->
  forall fuel sw sch (verts : list (vec3 RA)) first cnt holes hgt tan faces us sk,
  quarter_turn c s \/ (forall z ctr contours raw, prepare verts first cnt holes us = Ok (z, ctr, contours) -> raw_skeleton fuel contours = Ok raw -> nodes_apart raw) ->
  let hs := match holes with Some h => h | None => [] end in
  (0 <= first)%Z -> (1 <= cnt)%Z -> (forall h, In h hs -> 0 <= fst h /\ 1 <= snd h)%Z ->
  let o := polygonize fuel sw sch true verts first cnt holes hgt tan faces us in
  let o' := polygonize fuel sw sch true (map (turned3 c s) verts) first cnt holes hgt tan faces (option_map (map (turned3 c s)) us) in
  o_debug o = Some sk -> clear_roof (o_verts o) (Z.of_nat (length verts)) first cnt hs sk ->
  o_result o' = o_result o /\ o_faces o' = o_faces o.
Proof. exact turned_faces. Qed.
Print Assumptions C59_faces_stay.

(** Without the condition on the nodes this is false: nodes are merged when the sum of their coordinate differences is small, which depends
    on the orientation.  A rectangle of 50 by 50 5/64 gets a pyramid, turned by the angle with cosine 3/5 it gets a ridge (coordinates in
    units of 1/64, all exact). *)
Theorem C59_any_angle_refuted :
  exists l l' : list (Z * Z),
  Forall2 (fun p q => 5 * fst q = 3 * fst p - 4 * snd p /\ 5 * snd q = 4 * fst p + 3 * snd p)%Z l l' /\ nodes_of l = 1%nat /\ nodes_of l' = 2%nat.
Proof. exact near_square_turned. Qed.
Print Assumptions C59_any_angle_refuted.

(** The triangle with sides 3, 4, 5, turned by an angle that is not a multiple of a right angle. *)
Example C59_case_nodes : 3 / 5 * (3 / 5) + 4 / 5 * (4 / 5) = 1 /\
  (forall z ctr contours raw, prepare tri 0 3 None None = Ok (z, ctr, contours) -> raw_skeleton 2 contours = Ok raw -> nodes_apart raw).
Proof. exact (conj unit345 tri_apart). Qed.

Example C59_case_clear : exists sk, o_debug (o345 (fun _ _ => true) (fun _ _ => O)) = Some sk /\
  clear_roof (o_verts (o345 (fun _ _ => true) (fun _ _ => O))) 3 0 3 [] sk.
Proof. exact (clear_o345 _ _). Qed.
