(** * TurnSpec: turning vectors, edges and skeletons about the origin *)

From Coq Require Import ZArith List Reals.
From Verif Require Import Py Arith ArithR Euclid GraphSpec PolySpec Lav.
Set Implicit Arguments.
Local Open Scope R_scope.

(** turned by the angle with cosine c and sine s *)
Definition turned (c s : R) (v : vec RA) : vec RA := V2 (A := RA) (c * vx v - s * vy v) (s * vx v + c * vy v).

Definition turned3 (c s : R) (v : vec3 RA) : vec3 RA := V3 (A := RA) (c * wx v - s * wy v) (s * wx v + c * wy v) (wz v).

Definition turned_edge (c s : R) (e : @edge2 RA) : @edge2 RA :=
  Edge (eid e) (turned c s (ep1 e)) (turned c s (ep2 e)) (turned c s (enorm e)) (ei1 e) (ei2 e).

Definition turned_node (c s : R) (a : @subtree RA) : @subtree RA :=
  Subtree (turned c s (source a)) (height a) (map (turned c s) (sinks a)).

(** both sides of an equation between computations that can raise *)
Definition res_map {S T} (f : S -> T) (r : res S) : res T := match r with Ok x => Ok (f x) | Err e => Err e end.

(** nodes in different places are at least a tenth apart (1/10 is smallThresh, the largest distance at which nodes are merged) *)
Definition nodes_apart (sk : list (@subtree RA)) : Prop :=
  forall a b, In a sk -> In b sk -> source a <> source b ->
  1 / 100 <= (vx (source a) - vx (source b)) * (vx (source a) - vx (source b)) + (vy (source a) - vy (source b)) * (vy (source a) - vy (source b)).

(** a multiple of a right angle *)
Definition quarter_turn (c s : R) : Prop := c = 0 \/ s = 0.

(** ** the lines of a roof *)

(** a and b are seen from v in the same direction *)
Definition same_ray (V : list (vec3 RA)) (v a b : Z) : Prop := exists pv pa pb k, 0 < k /\
  py_get V v = Ok pv /\ py_get V a = Ok pa /\ py_get V b = Ok pb /\
  wx pa - wx pv = k * (wx pb - wx pv) /\ wy pa - wy pv = k * (wy pb - wy pv).

(** j is where the link from vertex i, the node a, to its sink p ends *)
Definition link_ends (V : list (vec3 RA)) (i : Z) (a : @subtree RA) (p : vec RA) (j : Z) : Prop := exists vi vj,
  py_get V i = Ok vi /\ py_get V j = Ok vj /\
  wx vj - wx vi = vx p - vx (source a) /\ wy vj - wy vi = vy p - vy (source a).

(** the links of the nodes, which are the vertices n, n + 1, ... *)
Fixpoint all_links (n : Z) (sk : list (@subtree RA)) : list (Z * @subtree RA * vec RA) :=
  match sk with [] => [] | a :: t => map (fun p => (n, a, p)) (sinks a) ++ all_links (n + 1) t end.

(** vertices of the roof: those of the footprint and its holes, and the nodes *)
Definition roof_vertex (n first cnt : Z) (holes : list (Z * Z)) (nodes : nat) (i : Z) : Prop :=
  in_blocks first cnt holes i \/ (n <= i < n + Z.of_nat nodes)%Z.

(** the lines of the roof: the sides of the footprint and of the holes, and one line for each link *)
Definition roof_lines (V : list (vec3 RA)) (n first cnt : Z) (holes : list (Z * Z)) (sk : list (@subtree RA)) (es : list (Z * Z)) : Prop :=
  exists links, es = darts_of (zrange first (first + cnt)) ++ concat (map (fun h => darts_of (zrange (fst h) (fst h + snd h))) holes) ++ links /\
  Forall2 (fun q e => let '(i, a, p) := q in fst e = i /\ roof_vertex n first cnt holes (length sk) (snd e) /\ link_ends V i a p (snd e)) (all_links n sk) links.

(** no two vertices in one place, no line drawn twice, no two lines leaving a vertex in the same direction *)
Definition clear_roof (V : list (vec3 RA)) (n first cnt : Z) (holes : list (Z * Z)) (sk : list (@subtree RA)) : Prop :=
  (forall i j p q, roof_vertex n first cnt holes (length sk) i -> roof_vertex n first cnt holes (length sk) j -> i <> j ->
     py_get V i = Ok p -> py_get V j = Ok q -> wx p <> wx q \/ wy p <> wy q) /\
  exists es, roof_lines V n first cnt holes sk es /\ no_parallel_edges es /\
  forall v a b, has_edge_between es v a -> has_edge_between es v b -> a <> b -> ~ same_ray V v a b.
