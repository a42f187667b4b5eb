(** * StraightSpec: vertices within straight walls *)

From Coq Require Import Reals.
From Verif Require Import Py Arith ArithR Euclid Lav.
Local Open Scope R_scope.

(** the edge e2 goes on into the direction of e1 *)
Definition straight (e1 e2 : @edge2 RA) : Prop :=
  exists t, 0 < t /\ vx (ep2 e2) - vx (ep1 e2) = t * (vx (ep2 e1) - vx (ep1 e1)) /\
                     vy (ep2 e2) - vy (ep1 e2) = t * (vy (ep2 e1) - vy (ep1 e1)).

(** the event ev removes or moves the vertex i *)
Definition involves (ev : @event RA) (i : nat) : Prop :=
  match ev with
  | EdgeEv _ _ a b => i = a \/ i = b
  | SplitEv _ _ v _ => i = v
  | DormerEv _ _ u _ w _ _ a b => i = u \/ i = w \/ i = a \/ i = b
  end.
