(** * GhostSpec: what removeGhosts is to do to the links of a skeleton *)

From Coq Require Import Permutation.
From Verif Require Import Py Arith Euclid Lav.
Set Implicit Arguments.
Unset Strict Implicit.
Local Open Scope nat_scope.

Section GhostSpec.
Context {A : arith}.
Notation num := (num A).
Notation vec := (vec A).
Notation subtree := (@subtree A).

(** all links (source, sink) of a skeleton, with multiplicity *)
Definition links (sk : list subtree) : list (vec * vec) :=
  flat_map (fun a => map (pair (source a)) (sinks a)) sk.

(** the cosine of the angle at s between the directions to p and to q differs from 1 by less than tol *)
Definition aligned (tol : num) (s p q : vec) : Prop :=
  ntruth (vlen (vsub p s)) = true /\ ntruth (vlen (vsub q s)) = true /\
  exists c, pdiv (vdot (vsub p s) (vsub q s)) (nmul (vlen (vsub p s)) (vlen (vsub q s))) = Ok c /\
            nltb (nabs (nsub c oneN)) tol = true.

(** near and far are the two points p, q, in the order of their distance from s (of equally distant
    ones q counts as the nearer) *)
Definition sorted (s p q near far : vec) : Prop :=
  nltb (vlen (vsub p s)) (vlen (vsub q s)) = true /\ near = p /\ far = q \/
  nltb (vlen (vsub p s)) (vlen (vsub q s)) = false /\ near = q /\ far = p.

(** n is the first node with its source at p *)
Definition first_node (sk : list subtree) (p : vec) (n : subtree) : Prop :=
  exists a b, sk = a ++ n :: b /\ veq (source n) p = true /\ forall m, In m a -> veq (source m) p = false.

Definition no_node (sk : list subtree) (p : vec) : Prop := forall m, In m sk -> veq (source m) p = false.

(** the links from s to p and to q are to be resolved: they have nearly the same direction; unless the
    directions are almost equal, the longer one crosses a link of the node at the end of the shorter one *)
Definition ghost (sk : list subtree) (s p q near far : vec) (n : subtree) : Prop :=
  sorted s p q near far /\ first_node sk near n /\ aligned PARALLEL s p q /\
  (aligned EPSILON s p q \/ exists t, In t (sinks n) /\ seg_intersect s far near t = true).

(** both links lead to points that are no nodes, or the shorter one does *)
Definition blocked (sk : list subtree) (s p q : vec) : Prop :=
  aligned PARALLEL s p q /\ exists near far, sorted s p q near far /\ no_node sk near.

(** one move at node a: of two links to be resolved the longer one goes to the node at the end of the
    shorter one, and the shorter one disappears; sources and heights stay *)
Definition moved (k : nat) (sk sk' : list subtree) : Prop :=
  exists a n p q near far near' far',
    nth_error sk k = Some a /\ ghost sk (source a) p q near far n /\
    veq near' near = true /\ veq far' far = true /\
    map (@source A) sk' = map (@source A) sk /\ map (@height A) sk' = map (@height A) sk /\
    Permutation ((source n, far) :: links sk) ((source a, far') :: (source a, near') :: links sk') /\
    (forall j b, j <> k -> nth_error sk j = Some b -> b <> n -> nth_error sk' j = Some b).

Inductive moves (k : nat) : nat -> list subtree -> list subtree -> Prop :=
| moves_nil sk : moves k 0 sk sk
| moves_cons sk1 sk2 sk3 m : moved k sk1 sk2 -> moves k m sk2 sk3 -> moves k (S m) sk1 sk3.

(** all pairs of elements of a list, in the order of itertools.combinations *)
Fixpoint pairs_of (l : list vec) : list (vec * vec) :=
  match l with [] => [] | x :: t => map (pair x) t ++ pairs_of t end.

(** no two links of node k are to be resolved, up to the first blocked pair *)
Definition settled (k : nat) (sk : list subtree) : Prop :=
  forall a, nth_error sk k = Some a ->
  exists looked rest, pairs_of (sinks a) = looked ++ rest /\
    (forall p q near far n, In (p, q) looked -> ~ ghost sk (source a) p q near far n) /\
    match rest with [] => True | (p, q) :: _ => blocked sk (source a) p q end.

(** the nodes are treated one after the other; m moves are made in total *)
Inductive resolved : list nat -> nat -> list subtree -> list subtree -> Prop :=
| resolved_nil sk : resolved [] 0 sk sk
| resolved_cons k ks m m' sk1 sk2 sk3 :
    moves k m sk1 sk2 -> settled k sk2 -> resolved ks m' sk2 sk3 -> resolved (k :: ks) (m + m') sk1 sk3.

(** the first link of a node to itself is gone *)
Definition unlooped (a a' : subtree) : Prop :=
  source a' = source a /\ height a' = height a /\
  ((forall x, In x (sinks a) -> veq x (source a) = false) /\ sinks a' = sinks a \/
   exists l1 x l2, sinks a = l1 ++ x :: l2 /\ sinks a' = l1 ++ l2 /\ veq x (source a) = true /\
                   forall y, In y l1 -> veq y (source a) = false).

End GhostSpec.

(** two points linked directly or through other points *)
Inductive connected {A : arith} (sk : list (@subtree A)) : vec A -> vec A -> Prop :=
| connected_refl p : connected sk p p
| connected_link p q r : In (p, q) (links sk) \/ In (q, p) (links sk) -> connected sk q r -> connected sk p r.
