(** * CwSpec: convex footprints listed clockwise (specification side) *)

From Coq Require Import Reals.
From Verif Require Import Py Arith ArithR Euclid Lav GeoSpec BisSpec SplitSpec.
Set Implicit Arguments.
Open Scope R_scope.

(** a closed contour of at least three edges, any three vertices of which turn right when visited in order *)
Definition clockwise_contour (c : list (@edge2 RA)) : Prop :=
  closed_contour c /\ (3 <= length c)%nat /\
  forall i j k a b d, (i < j)%nat -> (j < k)%nat ->
    nth_error c i = Some a -> nth_error c j = Some b -> nth_error c k = Some d -> orient (ep1 a) (ep1 b) (ep1 d) < 0.

(** A corner that the code does not take for right-angled; or one that it may take for right-angled, of two walls of 0.1 or more, such that
    the other walls are turned away: on moving off by 1 from e1 and e2, one moves off from any other wall by 5/6 at most. *)
Definition fair_corner (E : list (@edge2 RA)) (e1 e2 : @edge2 RA) : Prop :=
  plain_corner E e1 e2 \/
  (apart (1 / 10) E e1 e2 /\
   forall e q, In e E -> e <> e1 -> e <> e2 -> edge_dist e1 q = 1 -> edge_dist e2 q = 1 -> edge_dist e q <= edge_dist e (ep1 e2) + 5 / 6).
