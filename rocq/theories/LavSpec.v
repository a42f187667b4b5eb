(** * LavSpec: rings of linked vertices (specification side) *)

From Coq Require Import List Arith.
Import ListNotations.
Set Implicit Arguments.

(** [walks nxt a l b]: following nxt from a visits exactly the list l and then reaches b *)
Inductive walks (nxt : nat -> nat) : nat -> list nat -> nat -> Prop :=
| walks_nil a b : nxt a = b -> walks nxt a [] b
| walks_cons a c l b : nxt a = c -> walks nxt c l b -> walks nxt a (c :: l) b.

(** [ring nxt prv ids]: ids is a circular doubly linked list without repetition *)
Definition ring (nxt prv : nat -> nat) (ids : list nat) : Prop :=
  match ids with
  | [] => False
  | a :: l => NoDup ids /\ walks nxt a l a /\ (forall x, In x ids -> prv (nxt x) = x)
  end.

(** h lies on a cycle of nxt *)
Definition on_cycle (nxt : nat -> nat) (h : nat) : Prop := exists k, 1 <= k /\ Nat.iter k nxt h = h.
