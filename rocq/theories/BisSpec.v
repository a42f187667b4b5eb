(** * BisSpec: signed distances from edges (specification side) *)

From Coq Require Import Reals.
From Verif Require Import Py Arith ArithR Euclid Lav ClusterSpec GeoSpec.
Set Implicit Arguments.
Open Scope R_scope.

(** distance of q from the line from a to b, positive to the left of it *)
Definition signed_dist (a b q : vec RA) : R := orient a b q / euclid_dist a b.
Definition edge_dist (e : @edge2 RA) (q : vec RA) : R := signed_dist (ep1 e) (ep2 e) q.

(** e has two different end points, and its norm is the unit vector from the first to the second *)
Definition directed (e : @edge2 RA) : Prop :=
  ep1 e <> ep2 e /\
  vx (enorm e) * euclid_dist (ep1 e) (ep2 e) = vx (ep2 e) - vx (ep1 e) /\
  vy (enorm e) * euclid_dist (ep1 e) (ep2 e) = vy (ep2 e) - vy (ep1 e).

(** every point of the ray l has the same signed distance from e and f *)
Definition bisects (l : @lin RA) (e f : @edge2 RA) : Prop := forall q, on_lin l q -> edge_dist e q = edge_dist f q.

(** e1 and e2 are cyclically consecutive in the contour c *)
Definition consecutive (c : list (@edge2 RA)) (e1 e2 : @edge2 RA) : Prop :=
  exists j, (j < length c)%nat /\ nth_error c ((j + length c - 1) mod length c) = Some e1 /\ nth_error c j = Some e2.

(** a contour as skeletonize gets it: each edge starts where the one before ends *)
Definition closed_contour (c : list (@edge2 RA)) : Prop :=
  c <> [] /\ (forall e, In e c -> directed e) /\ forall e1 e2, consecutive c e1 e2 -> ep2 e1 = ep1 e2.

(** sine of the angle by which the contour turns left between e1 and e2 *)
Definition turn_sine (e1 e2 : @edge2 RA) : R :=
  orient (ep1 e1) (ep2 e1) (ep2 e2) / (euclid_dist (ep1 e1) (ep2 e1) * euclid_dist (ep1 e2) (ep2 e2)).

(** the lines of e and f are not parallel and cross in q *)
Definition cross_in (e f : @edge2 RA) (q : vec RA) : Prop :=
  (vx (ep2 e) - vx (ep1 e)) * (vy (ep2 f) - vy (ep1 f)) <> (vy (ep2 e) - vy (ep1 e)) * (vx (ep2 f) - vx (ep1 f)) /\
  on_line (ep1 e) (ep2 e) q /\ on_line (ep1 f) (ep2 f) q.

(** if e1, e2 form a reflex corner, it is not within EPSILON of a right angle, and no edge of E has a line that
    crosses the lines of e1 and e2 nearer to the corner than 1e-17.5 without passing through the corner *)
Definition plain_corner (E : list (@edge2 RA)) (e1 e2 : @edge2 RA) : Prop :=
  turn_sine e1 e2 < 0 ->
  -1 + 1 / 100000 <= turn_sine e1 e2 /\
  forall f q, In f E -> cross_in e1 f q \/ cross_in e2 f q ->
    q = ep1 e2 \/ / 10 ^ 35 < (vx q - vx (ep1 e2)) * (vx q - vx (ep1 e2)) + (vy q - vy (ep1 e2)) * (vy q - vy (ep1 e2)).

(** the point q has the same signed distance from three different edges of E, and h is its distance from them *)
Definition equidistant (E : list (@edge2 RA)) (q : vec RA) (h : R) : Prop :=
  exists e1 e2 e3, In e1 E /\ In e2 E /\ In e3 E /\ e1 <> e2 /\ e2 <> e3 /\ e1 <> e3 /\
    edge_dist e1 q = edge_dist e2 q /\ edge_dist e2 q = edge_dist e3 q /\ h = Rabs (edge_dist e1 q).

Section Near.
Context {A : arith}.
(** the edges of E whose distance from the node a differs from its height by less than eps *)
Definition edges_at (E : list (@edge2 A)) (a : @subtree A) (eps : num A) : list (@edge2 A) :=
  filter (fun e => nltb (nabs (nsub (line_distance (Line2_edge e) (source a)) (height a))) eps) E.
End Near.
