(** * GeoSpec: plane geometry over the real numbers (specification side) *)

From Coq Require Import Reals.
From Verif Require Import Py Arith ArithR Euclid ClusterSpec.
Set Implicit Arguments.
Open Scope R_scope.

(** q lies on the line through a and b *)
Definition on_line (a b q : vec RA) : Prop :=
  exists t, vx q = vx a + t * (vx b - vx a) /\ vy q = vy a + t * (vy b - vy a).

(** d is the distance of p from the line through a and b *)
Definition dist_to_line (a b p : vec RA) (d : R) : Prop :=
  (exists q, on_line a b q /\ euclid_dist p q = d) /\ forall q, on_line a b q -> d <= euclid_dist p q.

(** twice the signed area of the triangle a b c *)
Definition orient (a b c : vec RA) : R := (vx b - vx a) * (vy c - vy a) - (vy b - vy a) * (vx c - vx a).

(** p lies on the segment a b *)
Definition on_segment (a b p : vec RA) : Prop :=
  exists t, 0 <= t <= 1 /\ vx p = vx a + t * (vx b - vx a) /\ vy p = vy a + t * (vy b - vy a).

(** the edges p1-p2 and q1-q2 are not parallel and meet at a point inside both, away from the ends by the
    fraction eps of their lengths *)
Definition crossing (eps : R) (e f : vec RA * vec RA) : Prop :=
  let '((p1, p2), (q1, q2)) := (e, f) in
  (vx p2 - vx p1) * (vy q2 - vy q1) <> (vy p2 - vy p1) * (vx q2 - vx q1) /\
  exists r s, eps < r < 1 - eps /\ eps < s < 1 - eps /\
    vx p1 + r * (vx p2 - vx p1) = vx q1 + s * (vx q2 - vx q1) /\
    vy p1 + r * (vy p2 - vy p1) = vy q1 + s * (vy q2 - vy q1).

(** p is a point of the line or ray l *)
Definition on_lin (l : @lin RA) (p : vec RA) : Prop :=
  exists t, (l_is_ray l = true -> 0 <= t) /\ vx p = vx (lp l) + t * vx (lv l) /\ vy p = vy (lp l) + t * vy (lv l).
