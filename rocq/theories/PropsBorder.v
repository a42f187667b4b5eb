(** * PropsBorder: removing spikes keeps the border of the roof (property C54) *)

From Coq Require Import Permutation Reals.
From Verif Require Import Py Arith ArithF Euclid Lav Graph GraphSpec GraphProofs Poly PolyProofs FootSpec BorderSpec BorderProofs FootCases BorderCases.
Set Implicit Arguments.
Local Open Scope nat_scope.

(** ** C54 *)
(** One pass that removes something removes exactly one spike of a face with more than three corners. *)
Theorem C54_one_spike_removed :
  forall (A : arith) (verts : list (vec3 A)) (nr : Z) (F F' : list (list Z)),
    tidy verts F -> spike_pass verts nr F (seq 0 (length F)) = Ok (Some F') ->
    exists p t n, (exists f, In f F /\ 3 < length f /\ consecutive f p t n) /\ spiky verts p t n /\ unspiked p t n F F'.
Proof. exact (@pass_unspiked). Qed.
Print Assumptions C54_one_spike_removed.

(** The whole removal is a sequence of such steps; it keeps the border as long as the faces are tidy. *)
Theorem C54_border_kept :
  forall (A : arith) (verts : list (vec3 A)) (nr : Z) (F F' : list (list Z)),
    remove_spikes verts nr F = Ok F' ->
    exists steps, despiked verts F steps /\ F' = last steps F /\
      (Forall (tidy verts) (F :: steps) ->
       (forall a b, border F' a b = border F a b) /\ (forall pos, plan_area2 pos F' = plan_area2 pos F)).
Proof. exact (@spikes_border_area). Qed.
Print Assumptions C54_border_kept.

(** The faces traced in the graph of the roof have no gap at a node: every edge with a node has a face on each side.
    If the faces have every wall on one side only, their border is the footprint, and they cover its area. *)
Theorem C54_traced_border :
  forall (sw : Z -> Z -> bool) (es : list (Z * Z)) (emb : gdict) (sch : schedule) (nr : Z) (F : list (list Z)),
    no_parallel_edges es -> lists_neighbours es (neighbours emb) -> graph_faces sch (build sw es) emb nr = Ok F ->
    (forall a b, (nr <= a \/ nr <= b)%Z -> border F a b = 0%Z) /\
    forall walls arcs, Permutation es (darts walls ++ arcs) ->
      (forall a b, In (a, b) (darts walls) -> (a < nr)%Z /\ (b < nr)%Z) ->
      (forall a b, In (a, b) arcs -> (nr <= a \/ nr <= b)%Z) ->
      (forall a b, In (a, b) (darts walls) -> In (a, b) (darts F) /\ ~ In (b, a) (darts F)) ->
      (forall a b, border F a b = border walls a b) /\ (forall pos, plan_area2 pos F = plan_area2 pos walls).
Proof. exact (@traced_border_area). Qed.
Print Assumptions C54_traced_border.

(** A roof of a simple footprint, one face to a wall before the removal of spikes, one face with two walls after it. *)
Theorem C54_face_per_wall_kept_refuted :
  exists ps F F1 fs f, simple_foot ps /\ stages 1 ps = Ok (F, F1) /\ o_result (roof_of 1 ps) = Ok fs /\
    (forall g i j, In g F -> (0 <= i < Z.of_nat (length ps))%Z -> (0 <= j < Z.of_nat (length ps))%Z ->
       has_wall (Z.of_nat (length ps)) i g -> has_wall (Z.of_nat (length ps)) j g -> i = j) /\
    In f fs /\ has_wall (Z.of_nat (length ps)) 9 f /\ has_wall (Z.of_nat (length ps)) 5 f.
Proof. exact spike_joins_walls. Qed.
Print Assumptions C54_face_per_wall_kept_refuted.

(** ** the footprint of the counterexample *)
Example C54_case_strip :
  exists p t n, (exists f, In f spike10_traced /\ 3 < length f /\ consecutive f p t n) /\
    spiky (o_verts (roof_of 1 spike10)) p t n /\ unspiked p t n spike10_traced spike10_strip.
Proof. exact (C54_one_spike_removed _ (Forall_inv spike10_stages_tidy) spike10_pass1). Qed.

Example C54_case_line :
  exists p t n, (exists f, In f spike10_strip /\ 3 < length f /\ consecutive f p t n) /\
    spiky (o_verts (roof_of 1 spike10)) p t n /\ unspiked p t n spike10_strip spike10_merged.
Proof. exact (C54_one_spike_removed _ (Forall_inv (Forall_inv_tail spike10_stages_tidy)) spike10_pass2). Qed.

Example C54_case_border : forall a b, border spike10_merged a b = border spike10_walls a b.
Proof. exact spike10_border. Qed.

(** the wall from 0 to 1 is on the border, the former hip from 15 to 16 is inside *)
Example C54_case_values : (border spike10_merged 0 1, border spike10_merged 1 0, border spike10_merged 15 16) = (1, -1, 0)%Z.
Proof. reflexivity. Qed.

Example C54_case_area : forall pos, plan_area2 pos spike10_merged = plan_area2 pos [[9; 0; 1; 2; 3; 4; 5; 6; 7; 8]]%Z.
Proof. exact (fun pos => plan_area_border pos spike10_border). Qed.
