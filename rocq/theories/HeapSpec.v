(** * HeapSpec: what a priority queue is (specification side) *)

From Coq Require Import List Permutation.
Import ListNotations.
Set Implicit Arguments.

(** A history of operations on a priority queue: insertions, and removals with the item
    they returned ([None]: the queue was empty). *)
Inductive pq_op (T : Type) : Type :=
| Put (x : T)
| Got (o : option T).
Arguments Put {T} x. Arguments Got {T} o.

(** [pq_history lt bag ops bag']: starting from the bag (a list up to order), the history is
    that of a priority queue without priority inversion, and leaves bag'. *)
Inductive pq_history (T : Type) (lt : T -> T -> bool) : list T -> list (pq_op T) -> list T -> Prop :=
| pq_nil bag bag' : Permutation bag bag' -> pq_history lt bag [] bag'
| pq_put bag x ops bag' : pq_history lt (x :: bag) ops bag' -> pq_history lt bag (Put x :: ops) bag'
| pq_get bag x rest ops bag' :
    Permutation bag (x :: rest) -> (forall y, In y rest -> lt y x = false) ->
    pq_history lt rest ops bag' -> pq_history lt bag (Got (Some x) :: ops) bag'
| pq_empty ops bag' : pq_history lt [] ops bag' -> pq_history lt [] (Got None :: ops) bag'.
