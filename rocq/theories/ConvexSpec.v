(** * ConvexSpec: strictly convex contours (specification side) *)

From Coq Require Import Reals.
From Verif Require Import Py Arith ArithR Euclid Lav LoopSpec GeoSpec BisSpec.
Set Implicit Arguments.
Open Scope R_scope.

(** a closed contour of at least three edges, any three vertices of which turn left when visited in order *)
Definition convex_contour (c : list (@edge2 RA)) : Prop :=
  closed_contour c /\ (3 <= length c)%nat /\
  forall i j k a b d, (i < j)%nat -> (j < k)%nat ->
    nth_error c i = Some a -> nth_error c j = Some b -> nth_error c k = Some d -> 0 < orient (ep1 a) (ep1 b) (ep1 d).

(** an event that will not be skipped: its vertices still belong to the wavefront *)
Definition live (s : @slav RA) (e : @event RA) : Prop :=
  match e with
  | EdgeEv _ _ va vb => is_valid s va = true /\ is_valid s vb = true
  | SplitEv _ _ v _ => is_valid s v = true
  | DormerEv _ _ _ _ _ _ _ _ _ => False
  end.

(** whenever the loop handles an event that is not skipped, no such event still to come is nearer *)
Definition in_order (st0 : @loop_state RA) : Prop := forall st e t, reach st0 st (e :: t) -> live (lo_slav st) e ->
  forall e', In e' (t ++ lo_queue st) -> live (lo_slav st) e' -> ev_distance e <= ev_distance e'.

(** the distances at which three edges can meet are equal or differ by at least 0.001 *)
Definition separated (c : list (@edge2 RA)) : Prop := forall x d y d', equidistant c x d -> equidistant c y d' ->
  d = d' \/ 1 / 1000 <= Rabs (d - d').
