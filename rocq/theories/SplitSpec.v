(** * SplitSpec: where a reflex corner of the wavefront meets a moving edge (specification side) *)

From Coq Require Import Reals.
From Verif Require Import Py Arith ArithR Euclid Lav ClusterSpec GeoSpec BisSpec.
Set Implicit Arguments.
Open Scope R_scope.

(** e0, e, e3 follow each other in the contour c *)
Definition successive (c : list (@edge2 RA)) (e0 e e3 : @edge2 RA) : Prop :=
  exists j, (j < length c)%nat /\ nth_error c j = Some e0 /\ nth_error c ((j + 1) mod length c) = Some e /\
    nth_error c ((j + 2) mod length c) = Some e3.

(** the corner between e1 and e2 and the edge e, all moving inwards, are at q when they have moved by d *)
Definition meet_at (e1 e2 e : @edge2 RA) (q : vec RA) (d : R) : Prop :=
  0 <= d /\ edge_dist e1 q = d /\ edge_dist e2 q = d /\ edge_dist e q = d.

(** q is on the side of e2 of the bisector between e1 and e2, up to tol times the distance from the corner and another tiny bit: at a corner
    that turns left e2 is the nearer one there, at a corner that turns right the farther one *)
Definition after_corner (tol tiny : R) (e1 e2 : @edge2 RA) (q : vec RA) : Prop :=
  let s := tol * euclid_dist (ep1 e2) q + tiny in
  (turn_sine e1 e2 < 0 -> edge_dist e1 q <= edge_dist e2 q + s) /\ (0 <= turn_sine e1 e2 -> edge_dist e2 q <= edge_dist e1 q + s).
(** the same for the side of e1 *)
Definition before_corner (tol tiny : R) (e1 e2 : @edge2 RA) (q : vec RA) : Prop :=
  let s := tol * euclid_dist (ep1 e2) q + tiny in
  (turn_sine e1 e2 < 0 -> edge_dist e2 q <= edge_dist e1 q + s) /\ (0 <= turn_sine e1 e2 -> edge_dist e1 q <= edge_dist e2 q + s).

(** q is in front of e, between the bisectors at its two ends *)
Definition swept (tol tiny : R) (e0 e e3 : @edge2 RA) (q : vec RA) : Prop :=
  - (tol * euclid_dist (ep1 e) q + tiny) <= edge_dist e q /\ after_corner tol tiny e0 e q /\ before_corner tol tiny e e3 q.

(** the line of e crosses those of e1 and e2 not too near to their corner *)
Definition clear_of (e1 e2 e : @edge2 RA) : Prop :=
  forall q, cross_in e1 e q \/ cross_in e2 e q ->
    1 / 1000 * Rmax (euclid_dist q (rvec 0 0)) (euclid_dist (ep1 e2) (rvec 0 0)) < euclid_dist q (ep1 e2) /\
    / 10 ^ 35 < Rsqr (euclid_dist q (ep1 e2)).

(** the line of e does not cross those of e1 and e2 ahead of their corner (seen in the direction of e1 and e2) *)
Definition behind (e1 e2 e : @edge2 RA) : Prop :=
  forall f q, f = e1 \/ f = e2 -> cross_in f e q ->
    0 <= (vx (ep1 e2) - vx q) * (vx (ep2 f) - vx (ep1 f)) + (vy (ep1 e2) - vy q) * (vy (ep2 f) - vy (ep1 f)).

(** no line of an edge of E crosses those of e1 and e2 nearer to their corner than r, except in the corner *)
Definition apart (r : R) (E : list (@edge2 RA)) (e1 e2 : @edge2 RA) : Prop :=
  forall f q, In f E -> cross_in e1 f q \/ cross_in e2 f q -> q = ep1 e2 \/ r <= euclid_dist q (ep1 e2).

(** e has moved by d and the corner between e1 and e2 a little more *)
Definition nearly_meet_at (r : R) (e1 e2 e : @edge2 RA) (q : vec RA) (d : R) : Prop :=
  0 <= d /\ edge_dist e q = d /\ exists h, edge_dist e1 q = h /\ edge_dist e2 q = h /\ d <= h <= d + d / (50 * r).
