(** * PropsSpikes: the end of the spike removal, the merged faces (C54), the edges of the contours (C09) *)

From Verif Require Import Py Arith ArithF Euclid Lav Cluster Graph GraphSpec Poly FootSpec FootCases BorderSpec BorderCases EdgeIds SpikeEnd PropsPoly SpikeCases.
Set Implicit Arguments.
Local Open Scope nat_scope.

(** ** C54: what is left *)
(** When the removal ends, a face with more than three corners has no spike, or one with no face on one of its sides. *)
Theorem C54_spikes_left :
  forall (A : arith) (verts : list (vec3 A)) (nr : Z) (F F' : list (list Z)),
    remove_spikes verts nr F = Ok F' -> forall f, In f F' -> 3 < length f ->
    (forall p t n, consecutive f p t n -> ~ spiky verts p t n) \/
    exists p t n, consecutive f p t n /\ spiky verts p t n /\ (~ In (t, p) (darts F') \/ ~ In (n, t) (darts F')).
Proof. exact (@spikes_left). Qed.
Print Assumptions C54_spikes_left.

(** If the faces have no gap at a node, a spike left over is a corner of the footprint and runs along a wall. *)
Theorem C54_spikes_left_are_at_walls :
  forall (A : arith) (verts : list (vec3 A)) (nr : Z) (F F' : list (list Z)),
    remove_spikes verts nr F = Ok F' -> (forall a b, (nr <= a \/ nr <= b)%Z -> border F' a b = 0%Z) ->
    forall f, In f F' -> 3 < length f ->
    (forall p t n, consecutive f p t n -> ~ spiky verts p t n) \/
    exists p t n, consecutive f p t n /\ spiky verts p t n /\ (t < nr)%Z /\ (p < nr \/ n < nr)%Z.
Proof. exact (@spikes_left_wall). Qed.
Print Assumptions C54_spikes_left_are_at_walls.

(** The faces right (rf) and left (lf) of a strip become the ring from p around rf to t and around lf, read from its
    first vertex of the footprint on; that vertex comes after less than nr nodes. *)
Theorem C54_merged_face :
  forall (nr : Z) (rf lf : list Z) (p t : Z) (m : list Z), merge_faces nr rf lf p t = Ok m ->
    exists r l u v, opened p rf r /\ opened t lf (t :: l) /\ r ++ l = u ++ v /\ m = v ++ u /\
      (exists x w, v = x :: w /\ (x < nr)%Z) /\ (Z.of_nat (length u) < nr)%Z /\ (forall x, In x u -> (nr <= x)%Z).
Proof. exact merge_start. Qed.
Print Assumptions C54_merged_face.

(** It cannot be built, and StopIteration is raised, if p or t is missing or no vertex of the footprint comes that early. *)
Theorem C54_merge_fails :
  forall (nr : Z) (rf lf : list Z) (p t : Z), merge_faces nr rf lf p t = Err StopIteration <->
    ~ In p rf \/ ~ In t lf \/ exists r l, opened p rf r /\ opened t lf (t :: l) /\
      forall i x, nth_error (r ++ l) i = Some x -> (x < nr)%Z -> (nr <= Z.of_nat i)%Z.
Proof. exact merge_stops. Qed.
Print Assumptions C54_merge_fails.

(** ** C09: the edges of all contours are different objects, numbered in order *)
Theorem C09_edges_are_different :
  forall (A : arith) (verts : list (vec3 A)) (first cnt : Z) holes us zBase center contours,
    prepare verts first cnt holes us = Ok (zBase, center, contours) ->
    map (@eid A) (concat contours) = seq 0 (length (concat contours)) /\
    forall i j e f, nth_error (concat contours) i = Some e -> nth_error (concat contours) j = Some f -> eid e = eid f -> i = j.
Proof. exact (fun A verts first cnt holes us zB ce co H => conj (prepare_ids H) (prepare_distinct H)). Qed.
Print Assumptions C09_edges_are_different.

(** ** cases *)
(** a spike of the roof is gone *)
Example ex_spike_gone : forall f, In f spike10_merged -> 3 < length f ->
  forall p t n, consecutive f p t n -> ~ spiky (o_verts (roof_of 1 spike10)) p t n.
Proof. exact spike10_clean. Qed.

(** a sharp corner of the footprint stays *)
Example ex_spike_stays : remove_spikes (o_verts (roof_of 1 wedge)) 4 wedge_faces = Ok wedge_faces /\
  consecutive [3; 0; 5; 4]%Z 3 0 5 /\ spiky (o_verts (roof_of 1 wedge)) 3 0 5.
Proof. exact (conj wedge_removed wedge_spiky). Qed.

Example ex_spike_stays_border : (forall a b, (4 <= a \/ 4 <= b)%Z -> border wedge_faces a b = 0%Z) /\
  (forall a b, (10 <= a \/ 10 <= b)%Z -> border spike10_merged a b = 0%Z).
Proof. exact (conj wedge_no_gap spike10_no_gap). Qed.

Example ex_merged : (merge_faces 10 [9; 0; 15; 10; 11] [5; 6; 10; 15; 16; 17; 14] 11 10 = Ok [9; 0; 15; 10; 15; 16; 17; 14; 5; 6; 11])%Z.
Proof. exact spike10_merge. Qed.

Example ex_merge_fails : (merge_faces 3 [4; 5; 6; 7] [5; 4; 8; 2; 0] 4 5 = Err StopIteration)%Z.
Proof. exact late_merge. Qed.

Example ex_holed_ids : match prepare holed 0 4 (Some [(4, 4)%Z]) None with Ok (_, _, cs) => map (@eid F64) (concat cs) | Err _ => [] end
  = [0; 1; 2; 3; 4; 5; 6; 7].
Proof. exact holed_ids_eq. Qed.
