(** * PropsClean: the clean-up of faces takes away exactly the flat nodes and opens no gap (property C58) *)

From Coq Require Import ZArith List Permutation Reals.
From Verif Require Import Py Arith ArithF ArithR Euclid Lav Graph GraphSpec GraphProofs Poly FootSpec FootCases BorderSpec BorderCases CleanSpec CleanProofs PropsPoly SpikeCases CleanCases.
Set Implicit Arguments.
Local Open Scope nat_scope.

(** ** C58 *)
(** A face without repeated corners loses exactly its flat nodes that all faces together visit less than three times. *)
Theorem C58_cleanup_is_exact :
  forall (A : arith) (verts : list (vec3 A)) (nr : Z) (F F' : list (list Z)),
    (forall f, In f F -> NoDup f) -> clean_faces verts nr F = Ok F' -> Forall2 (cleaned verts nr F) F F'.
Proof. exact (@clean_exact). Qed.
Print Assumptions C58_cleanup_is_exact.

(** The clean-up looks at each face on its own.  Still it keeps the border and the area, if no edge of a node is on the border. *)
Theorem C58_border_kept :
  forall (verts : list (vec3 RA)) (nr : Z) (F F' : list (list Z)),
    (forall f, In f F -> NoDup f) -> (forall a b, (nr <= a \/ nr <= b)%Z -> border F a b = 0%Z) -> no_flat_triangle verts nr F ->
    clean_faces verts nr F = Ok F' ->
    (forall a b, border F' a b = border F a b) /\ (forall pos, plan_area2 pos F' = plan_area2 pos F).
Proof. exact clean_border_R. Qed.
Print Assumptions C58_border_kept.

(** In any arithmetic whose test for flat corners does not depend on the direction in which the face is walked. *)
Theorem C58_border_kept_any :
  forall (A : arith) (verts : list (vec3 A)) (nr : Z) (F F' : list (list Z)),
    (forall f, In f F -> NoDup f) -> (forall a b, (nr <= a \/ nr <= b)%Z -> border F a b = 0%Z) -> no_flat_triangle verts nr F ->
    flat_both_ways verts F -> clean_faces verts nr F = Ok F' -> forall a b, border F' a b = border F a b.
Proof. exact (fun A verts nr F F' H1 H2 H3 H4 => @clean_border A verts nr F H1 H2 H3 H4 F'). Qed.
Print Assumptions C58_border_kept_any.

(** From the graph of the roof to its final faces: their border is the footprint. *)
Theorem C58_roof_border :
  forall (A : arith) (verts : list (vec3 A)) (sw : Z -> Z -> bool) (es : list (Z * Z)) (emb : gdict) (sch : schedule) (nr : Z)
         (F F1 F2 walls : list (list Z)) (arcs : list (Z * Z)),
    no_parallel_edges es -> lists_neighbours es (neighbours emb) -> graph_faces sch (build sw es) emb nr = Ok F ->
    Permutation es (darts walls ++ arcs) -> (forall a b, In (a, b) (darts walls) -> (a < nr)%Z /\ (b < nr)%Z) ->
    (forall a b, In (a, b) arcs -> (nr <= a \/ nr <= b)%Z) ->
    (forall a b, In (a, b) (darts walls) -> In (a, b) (darts F) /\ ~ In (b, a) (darts F)) ->
    remove_spikes verts nr F = Ok F1 -> clean_faces verts nr F1 = Ok F2 ->
    exists steps, despiked verts F steps /\ F1 = last steps F /\
      (Forall (tidy verts) (F :: steps) -> (forall f, In f F1 -> NoDup f) -> no_flat_triangle verts nr F1 -> flat_both_ways verts F1 ->
       (forall a b, border F2 a b = border walls a b) /\ (forall pos, plan_area2 pos F2 = plan_area2 pos walls)).
Proof. exact (@roof_border). Qed.
Print Assumptions C58_roof_border.

(** A triangle that is flat at a node keeps it, while the face on the other side loses it: a gap. *)
Theorem C58_flat_triangle_refuted :
  exists (verts : list (vec3 F64)) (F F' : list (list Z)),
    (forall f, In f F -> NoDup f) /\ (forall a b, (4 <= a \/ 4 <= b)%Z -> border F a b = 0%Z) /\ clean_faces verts 4 F = Ok F' /\ border F' 4 0 = 1%Z.
Proof. exact flat_triangle_gap. Qed.
Print Assumptions C58_flat_triangle_refuted.

(** ** cases *)
(** node 15 of this roof is flat and goes *)
Example C58_case_roof :
  clean_faces (o_verts (roof_of 1 spike10)) 10 spike10_merged = Ok spike10_roof /\
  dropped (o_verts (roof_of 1 spike10)) 10 spike10_merged [0; 1; 16; 15]%Z 15 /\
  (forall f, In f spike10_merged -> NoDup f) /\ no_flat_triangle (o_verts (roof_of 1 spike10)) 10 spike10_merged /\
  flat_both_ways (o_verts (roof_of 1 spike10)) spike10_merged.
Proof. exact (conj spike10_cleaned (conj spike10_dropped (checkb_spec spike10_check))). Qed.

Example C58_case_border : forall a b, border spike10_roof a b = border spike10_walls a b.
Proof. exact spike10_roof_border. Qed.

(** over the reals, a node in the middle of a ridge goes *)
Example C58_case_ridge :
  (forall f, In f ridge_faces -> NoDup f) /\ (forall a b, (4 <= a \/ 4 <= b)%Z -> border ridge_faces a b = 0%Z) /\
  no_flat_triangle ridge_verts 4 ridge_faces /\ clean_faces ridge_verts 4 ridge_faces = Ok ridge_cleaned.
Proof. exact (conj ridge_nodup (conj ridge_no_gap (conj ridge_triangles ridge_clean))). Qed.

Example C58_case_ridge_border : forall a b, border ridge_cleaned a b = border ridge_faces a b.
Proof. exact (proj1 (C58_border_kept ridge_nodup ridge_no_gap ridge_triangles ridge_clean)). Qed.
