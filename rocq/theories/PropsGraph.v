(** * PropsGraph: theorems about poly2FacesGraph.py (properties C12, C13, C14, C17, C18) *)

From Coq Require Import Permutation.
From Verif Require Import Py Arith PySort Graph GraphSpec GraphProofs ArithF.
Set Implicit Arguments.

(** ** C12 *)
(** For every graph built by add_edge calls without parallel edges and every embedding that
    lists each vertex' neighbours once: no exception, and every directed edge of the graph is
    in exactly one traced face, once. *)
Theorem C12_faces_partition_darts :
  forall (sw : Z -> Z -> bool) (es : list (Z * Z)) (emb : gdict) (sch : schedule),
    no_parallel_edges es -> lists_neighbours es (neighbours emb) ->
    exists fs, face_paths sch (build sw es) emb = Ok fs /\ NoDup (concat fs) /\
      (forall a b, In (a, b) (concat fs) <-> has_edge_between es a b) /\
      Forall (traced_face (neighbours emb)) fs.
Proof.
  exact (fun sw es emb sch Hs He =>
           @faces_partition sw es emb Hs (lists_neighbours_perm sw He Hs) sch).
Qed.
Print Assumptions C12_faces_partition_darts.

(** The same in terms of the list faces() returns: every directed edge that touches a vertex
    with index >= nrOfPolyVerts occurs exactly once in the returned faces. *)
Theorem C12_returned_faces_cover_node_darts :
  forall (sw : Z -> Z -> bool) (es : list (Z * Z)) (emb : gdict) (sch : schedule) (nr : Z),
    no_parallel_edges es -> lists_neighbours es (neighbours emb) ->
    exists r, graph_faces sch (build sw es) emb nr = Ok r /\
      forall a b, has_edge_between es a b -> (nr <= a \/ nr <= b)%Z ->
      count_occ Z_pair_dec (concat (map darts_of r)) (a, b) = 1.
Proof.
  exact (fun sw es emb sch nr Hs He =>
    match @graph_faces_api sw es emb Hs He sch nr with
    | ex_intro _ r (conj Hr _) =>
        ex_intro _ r (conj Hr (@graph_faces_node_darts sw es emb Hs He sch nr r Hr))
    end).
Qed.
Print Assumptions C12_returned_faces_cover_node_darts.

(** ** C13 *)
Theorem C13_faces_independent_of_set_order :
  forall (sw1 sw2 : Z -> Z -> bool) (es : list (Z * Z)) (emb1 emb2 : gdict) (sch1 sch2 : schedule) (nr : Z),
    no_parallel_edges es -> lists_neighbours es (neighbours emb1) ->
    (forall v, neighbours emb1 v = neighbours emb2 v) ->
    exists r1 r2 r2', graph_faces sch1 (build sw1 es) emb1 nr = Ok r1 /\
      graph_faces sch2 (build sw2 es) emb2 nr = Ok r2 /\ Permutation r2 r2' /\
      Forall2 (fun f1 f2 => rotation_of f1 f2 /\ (one_footprint_edge nr f1 -> f1 = f2)) r1 r2'.
Proof. exact graph_faces_schedule. Qed.
Print Assumptions C13_faces_independent_of_set_order.

(** ** C14, C17 *)
(** Every returned face is a closed walk of graph edges following the circular order at each
    vertex, contains a skeleton node, and starts on the footprint if it has a footprint edge;
    no directed edge is used twice; and every such closed walk with a node is returned. *)
Theorem C14_C17_returned_faces :
  forall (sw : Z -> Z -> bool) (es : list (Z * Z)) (emb : gdict) (sch : schedule) (nr : Z),
    no_parallel_edges es -> lists_neighbours es (neighbours emb) ->
    exists r, graph_faces sch (build sw es) emb nr = Ok r /\
      (forall f, In f r -> traced_face (neighbours emb) (darts_of f) /\ contains_node nr f /\
          (forall a b, In (a, b) (darts_of f) -> has_edge_between es a b) /\
          ((exists d, In d (darts_of f) /\ footprint_edge nr d) -> starts_on_footprint nr f)) /\
      NoDup (concat (map darts_of r)) /\
      (forall p, traced_face (neighbours emb) p -> NoDup p ->
          (forall a b, In (a, b) p -> has_edge_between es a b) -> contains_node nr (map fst p) ->
          exists f, In f r /\ rotation_of p (darts_of f)).
Proof. exact (fun sw es emb sch nr Hs He => @graph_faces_api sw es emb Hs He sch nr). Qed.
Print Assumptions C14_C17_returned_faces.

(** The embedding computed by circular_embedding, in either direction and for every
    arithmetic, meets the hypothesis [lists_neighbours] whenever it is computed without exception. *)
Theorem C16_embedding_lists_neighbours :
  forall (A : arith) (sw : Z -> Z -> bool) (es : list (Z * Z)) (vl : list (vec3 A)) (dir : bool) (emb : gdict),
    no_parallel_edges es -> circular_embedding (build sw es) vl dir = Ok emb ->
    lists_neighbours es (neighbours emb).
Proof.
  exact (fun A sw es vl dir emb Hs H =>
           @perm_lists_neighbours sw es emb Hs (proj2 (circular_embedding_perm _ _ _ H))).
Qed.
Print Assumptions C16_embedding_lists_neighbours.

(** ** C18 *)
Theorem C18_graph_symmetric_loop_free :
  forall (sw : Z -> Z -> bool) (es : list (Z * Z)),
    (forall a b, count_occ Z.eq_dec (neighbours (build sw es) a) b = multiplicity es a b) /\
    (forall a, ~ In a (neighbours (build sw es) a)) /\
    (forall a b, count_occ Z.eq_dec (neighbours (build sw es) a) b =
                 count_occ Z.eq_dec (neighbours (build sw es) b) a) /\
    (forall sw' a, neighbours (build sw' es) a = neighbours (build sw es) a).
Proof. exact build_props. Qed.
Print Assumptions C18_graph_symmetric_loop_free.

(** edges() lists every undirected edge in both directions, although its comment and its test
    ("if {neighbour, vertex} not in edges") mean each edge to be listed once. *)
Theorem C18_edges_lists_both_directions :
  forall (sw : Z -> Z -> bool) (es : list (Z * Z)) (a b : Z),
    count_occ Z_pair_dec (edges (build sw es)) (a, b) = multiplicity es a b.
Proof. exact edges_spec. Qed.
Print Assumptions C18_edges_lists_both_directions.

Theorem C18_edges_each_once_refuted :
  exists (es : list (Z * Z)), no_parallel_edges es /\
    exists a b, In (a, b) (edges (build (fun _ _ => false) es)) /\
                In (b, a) (edges (build (fun _ _ => false) es)) /\ a <> b.
Proof. exact edges_twice. Qed.
Print Assumptions C18_edges_each_once_refuted.

(** ** a concrete case: hip roof over the rectangle 0..3 with ridge 4-5 *)
Definition hip_edges : list (Z * Z) :=
  [(0,1); (1,2); (2,3); (3,0); (4,0); (4,3); (4,5); (5,1); (5,2); (5,4)]%Z.
Definition hip_edges1 : list (Z * Z) :=
  [(0,1); (1,2); (2,3); (3,0); (4,0); (4,3); (4,5); (5,1); (5,2)]%Z.
Definition hip_verts : list (vec3 F64) :=
  let q z := lit (a := F64) z 1 in
  map (fun p => V3 (q (fst p)) (q (snd p)) (q 0%Z)) [(0,0); (10,0); (10,6); (0,6); (3,3); (7,3)]%Z.
Definition hip_emb : gdict :=
  match circular_embedding (build (fun _ _ => false) hip_edges1) hip_verts true with Ok e => e | Err _ => [] end.

Example hip_simple : no_parallel_edges hip_edges1.
Proof. apply simpleb_ok; vm_compute; reflexivity. Qed.
(** the ridge entered from both of its ends would be a parallel edge *)
Example hip_not_simple : ~ no_parallel_edges hip_edges.
Proof. intros H. specialize (H 4%Z 5%Z). vm_compute in H. apply PeanoNat.Nat.leb_le in H. discriminate. Qed.

Example hip_embedding : lists_neighbours hip_edges1 (neighbours hip_emb).
Proof.
  apply (@C16_embedding_lists_neighbours F64 (fun _ _ => false) hip_edges1 hip_verts true);
    [apply hip_simple | vm_compute; reflexivity].
Qed.

Example hip_faces :
  graph_faces (fun _ _ => 0) (build (fun _ _ => false) hip_edges1) hip_emb 4
  = Ok [[0; 1; 5; 4]; [3; 0; 4]; [1; 2; 5]; [2; 3; 4; 5]]%Z.
Proof. vm_compute. reflexivity. Qed.
