(** * ClusterSpec: vocabulary for the statements about post-processing *)

From Coq Require Import Reals Sorted.
From Verif Require Import Py Arith ArithR Euclid Lav Cluster RSpec.
Set Implicit Arguments.

Section Spec.
Context {A : arith}.
Notation vec := (vec A).
Notation subtree := (@subtree A).

(** every sink of every node is one of the given points or the position of a node *)
Definition closed (pts : list vec) (sk : list subtree) : Prop :=
  forall a p, In a sk -> In p (sinks a) -> In p pts \/ exists b, In b sk /\ source b = p.

(** p is a sink of some node *)
Definition is_sink (sk : list subtree) (p : vec) : Prop := exists a, In a sk /\ In p (sinks a).

(** == on vectors and on numbers is equality (true of the reals) *)
Definition exact_equality : Prop :=
  (forall a b : vec, veq a b = true <-> a = b) /\ (forall a b : num A, neqb a b = true <-> a = b).

(** idx lists in ascending order the positions of sk that are not in the cluster, rest the nodes there *)
Definition rest_of (sk : list subtree) (cluster : list nat) (rest : list subtree) : Prop :=
  exists idx, Sorted.StronglySorted Nat.lt idx /\
    (forall i, In i idx <-> (i < length sk)%nat /\ ~ In i cluster) /\
    Forall2 (fun i a => nth_error sk i = Some a) idx rest.

(** number of occurrences, without a decision procedure *)
Inductive occurs (x : vec) : list vec -> nat -> Prop :=
| occurs_nil : occurs x [] 0
| occurs_yes l n : occurs x l n -> occurs x (x :: l) (S n)
| occurs_no y l n : y <> x -> occurs x l n -> occurs x (y :: l) n.

(** l' is l without the members satisfying P, in order *)
Inductive without (P : vec -> Prop) : list vec -> list vec -> Prop :=
| without_nil : without P [] []
| without_drop x l l' : P x -> without P l l' -> without P (x :: l) l'
| without_keep x l l' : ~ P x -> without P l l' -> without P (x :: l) (x :: l').

(** the links l with those into M replaced by one link to n *)
Definition redirected (M : list vec) (n : vec) (l l' : list vec) : Prop :=
  (forall s, In s l' -> ~ In s M) /\
  ((forall s, In s l -> ~ In s M) -> l' = l) /\
  ((exists s, In s l /\ In s M) -> In n l' /\ (~ In n l -> occurs n l' 1)) /\
  (exists r, without (fun s => s = n) l' r /\ without (fun s => s = n \/ In s M) l r).

(** sk' is sk with the nodes at the same position united *)
Definition united (sk sk' : list subtree) : Prop :=
  NoDup (map (@source A) sk') /\
  (forall r, In r sk -> exists q, In q sk' /\ source q = source r) /\
  (forall i q, nth_error sk' i = Some q ->
     exists before p after,
       sk = before ++ p :: after /\ source p = source q /\ height p = height q /\
       (forall r, In r before -> source r <> source q) /\
       (forall x, In x (map (@source A) (firstn i sk')) <-> In x (map (@source A) before)) /\
       (forall x, In x (sinks q) <-> exists r, In r sk /\ source r = source q /\ In x (sinks r))).

(** n merges lead from sk to sk': each merges a longest cluster found *)
Inductive merges (cv : list vec) (ec : list (list (@edge2 A))) : nat -> list subtree -> list subtree -> Prop :=
| merges_0 sk : merges cv ec 0 sk sk
| merges_S n sk c cs sk1 sk' :
    findClusters sk (seq 0 (length sk)) cv ec smallThresh = Ok cs -> In c cs ->
    (forall c', In c' cs -> (length c' <= length c)%nat) ->
    mergeCluster sk c = Ok sk1 -> merges cv ec n sk1 sk' -> merges cv ec (S n) sk sk'.

End Spec.

Local Open Scope R_scope.

(** |dx| + |dy| *)
Definition taxicab (a b : vec RA) : R := Rabs (vx a - vx b) + Rabs (vy a - vy b).
Definition euclid_dist (a b : vec RA) : R := sqrt (Rsqr (vx a - vx b) + Rsqr (vy a - vy b)).

(** the nodes at the indices idx, divided into groups: the first node and all nodes within d of it,
    then the same with the remaining nodes *)
Inductive grouped (pos : nat -> vec RA) (d : R) : list nat -> list (list nat) -> Prop :=
| grouped_nil : grouped pos d [] []
| grouped_cons c rest mem left gs :
    (forall i, In i mem <-> In i rest /\ taxicab (pos c) (pos i) < d) ->
    (forall i, In i left <-> In i rest /\ ~ taxicab (pos c) (pos i) < d) ->
    length rest = (length mem + length left)%nat ->
    (forall l1 x l2 y l3, left = l1 ++ x :: l2 ++ y :: l3 ->
       exists m1 m2 m3, rest = m1 ++ x :: m2 ++ y :: m3) ->     (* the order is kept *)
    grouped pos d left gs ->
    grouped pos d (c :: rest) ((c :: mem) :: gs).

(** the points of the list have pairwise distances above d *)
Definition pairwise_above (d : R) (l : list (vec RA)) : Prop :=
  forall i j a b, (i < j)%nat -> nth_error l i = Some a -> nth_error l j = Some b -> d < euclid_dist a b.

(** the footprint vertices among the sinks of a group, node by node *)
Definition node_at (sk : list (@subtree RA)) (i : nat) : @subtree RA := nth i sk (Subtree (rvec 0 0) 0 []).

Definition footprint_sinks (sk : list (@subtree RA)) (pts : list (vec RA)) (g : list nat) (l : list (vec RA)) : Prop :=
  exists ls, length ls = length g /\ l = concat ls /\
    forall k i, nth_error g k = Some i -> exists f, nth_error ls k = Some f /\
      exists b, f = filter b (sinks (node_at sk i)) /\ forall p, b p = true <-> In p pts.

(** how many pairs (node of the group, footprint vertex that is one of its sinks) there are *)
Definition footprint_links (sk : list (@subtree RA)) (pts : list (vec RA)) (g : list nat) (n : nat) : Prop :=
  exists ns, length ns = length g /\ n = list_sum ns /\
    forall k i, nth_error g k = Some i -> exists c b, nth_error ns k = Some c /\ c = length (filter b pts) /\
      forall p, b p = true <-> In p (sinks (node_at sk i)).

(** a group that may be merged: two nodes or more, not near the center of an apse, and it has less than two
    footprint vertices as sinks or its footprint vertices are more than 0.2 apart *)
Definition mergeable (sk : list (@subtree RA)) (pts : list (vec RA)) (centers : list (vec RA)) (g : list nat) : Prop :=
  (2 <= length g)%nat /\
  (forall c i, In c centers -> In i g -> ~ taxicab c (source (node_at sk i)) < 3) /\
  ((exists n, footprint_links sk pts g n /\ (n < 2)%nat) \/
   (exists l, footprint_sinks sk pts g l /\ pairwise_above (2 / 10) l)).
