(** * PyramidSpec: footprints all walls of which are equally far from one point (specification side) *)

From Coq Require Import Reals.
From Verif Require Import Py Arith ArithR Euclid Lav LoopSpec GeoSpec BisSpec.
Set Implicit Arguments.
Open Scope R_scope.

(** the point x lies at distance r inside every wall of the contour *)
Definition tangential (c : list (@edge2 RA)) (x : vec RA) (r : R) : Prop :=
  0 < r /\ forall e, In e c -> edge_dist e x = r.

(** height of the top: the height given above z, or, if that is 0, the slope given times the distance of the walls *)
Definition top_height (hgt tan r z h : R) : Prop := hgt = 0 /\ h = z + tan * r \/ hgt <> 0 /\ h = z + hgt.
