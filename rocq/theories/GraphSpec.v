(** * GraphSpec: what the face graph is supposed to do, independently of Graph.v *)

From Coq Require Import Permutation Reals.
From Verif Require Import Py.
Set Implicit Arguments.

(** [w] follows [u] in the circular list [ns] *)
Definition rotation_succ (ns : list Z) (u w : Z) : Prop :=
  exists i, nth_error ns i = Some u /\ nth_error ns ((i + 1) mod length ns) = Some w.

(** consecutive elements of the circular list [f] are related by [R] *)
Definition circular (T : Type) (R : T -> T -> Prop) (f : list T) : Prop :=
  f <> [] /\
  forall i x, nth_error f i = Some x ->
  exists y, nth_error f ((i + 1) mod length f) = Some y /\ R x y.

(** [f2] is [f1] read from another starting point *)
Definition rotation_of (T : Type) (f1 f2 : list T) : Prop :=
  exists l1 l2, f1 = l1 ++ l2 /\ f2 = l2 ++ l1.

(** The undirected edges of a list of pairs: {a,b} occurs, a <> b. *)
Definition has_edge_between (es : list (Z * Z)) (a b : Z) : Prop :=
  a <> b /\ (In (a, b) es \/ In (b, a) es).

Definition joins (a b : Z) (e : Z * Z) : bool :=
  (((fst e =? a) && (snd e =? b)) || ((fst e =? b) && (snd e =? a)))%Z.

(** how often the undirected edge {a,b} (a <> b) occurs *)
Definition multiplicity (es : list (Z * Z)) (a b : Z) : nat :=
  if (a =? b)%Z then 0 else length (filter (joins a b) es).

(** no undirected edge occurs twice *)
Definition no_parallel_edges (es : list (Z * Z)) : Prop :=
  forall a b, multiplicity es a b <= 1.

(** A face traced at the circular orders [nb]: a closed walk of directed edges in which
    the edge after (u,v) leaves v towards the neighbour that follows u there. *)
Definition traced_face (nb : Z -> list Z) (f : list (Z * Z)) : Prop :=
  circular (fun d d' => fst d' = snd d /\ rotation_succ (nb (snd d)) (fst d) (snd d')) f.

(** the directed edges of a circular vertex list *)
Fixpoint dart_list (first : Z) (l : list Z) : list (Z * Z) :=
  match l with
  | [] => []
  | [x] => [(x, first)]
  | x :: ((y :: _) as t) => (x, y) :: dart_list first t
  end.
Definition darts_of (f : list Z) : list (Z * Z) :=
  match f with [] => [] | x :: _ => dart_list x f end.

(** an edge between two vertices with indices below nr *)
Definition footprint_edge (nr : Z) (d : Z * Z) : Prop := (fst d < nr)%Z /\ (snd d < nr)%Z.

(** an embedding lists each vertex' neighbours exactly once *)
Definition lists_neighbours (es : list (Z * Z)) (nb : Z -> list Z) : Prop :=
  forall v, NoDup (nb v) /\ forall w, In w (nb v) <-> has_edge_between es v w.

(** [f] has exactly one edge between two footprint vertices *)
Definition one_footprint_edge (nr : Z) (f : list Z) : Prop :=
  exists d, In d (darts_of f) /\ footprint_edge nr d /\
    forall d', In d' (darts_of f) -> footprint_edge nr d' -> d' = d.

(** [f] starts with a footprint edge *)
Definition starts_on_footprint (nr : Z) (f : list Z) : Prop :=
  exists d t, darts_of f = d :: t /\ footprint_edge nr d.

Definition contains_node (nr : Z) (f : list Z) : Prop := exists v, In v f /\ (nr <= v)%Z.
