(** * TriSpec: triangles, their incenter and inradius (specification side) *)

From Coq Require Import Reals.
From Verif Require Import Py Arith ArithR Euclid ClusterSpec GeoSpec BisSpec.
Set Implicit Arguments.
Open Scope R_scope.

Definition perimeter (p q r : vec RA) : R := euclid_dist p q + euclid_dist q r + euclid_dist r p.

(** the corners weighted by the lengths of the opposite sides *)
Definition incenter (p q r : vec RA) : vec RA :=
  rvec ((euclid_dist q r * vx p + euclid_dist r p * vx q + euclid_dist p q * vx r) / perimeter p q r)
       ((euclid_dist q r * vy p + euclid_dist r p * vy q + euclid_dist p q * vy r) / perimeter p q r).

(** twice the area over the perimeter *)
Definition inradius (p q r : vec RA) : R := orient p q r / perimeter p q r.

(** the contour of the counterclockwise triangle p q r *)
Definition triangle_contour (c : list (@edge2 RA)) (p q r : vec RA) : Prop :=
  0 < orient p q r /\ map (@ep1 RA) c = [p; q; r] /\ map (@ep2 RA) c = [q; r; p] /\ forall e, In e c -> directed e.

(** the plane part of a point in space *)
Definition ground (v : vec3 RA) : vec RA := rvec (wx v) (wy v).

(** too short for mathutils to compute a direction *)
Definition long_enough (p q : vec RA) : Prop :=
  / 10 ^ 35 < (vx q - vx p) * (vx q - vx p) + (vy q - vy p) * (vy q - vy p).

(** the vertex over the point p at height h above the ground level z *)
Definition apex (p : vec RA) (z h : R) : vec3 RA := V3 (A := RA) (vx p) (vy p) (z + h).
