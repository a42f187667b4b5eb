(** * SimSpec: footprints of the same shape (specification side, C65) *)

From Coq Require Import Reals.
From Verif Require Import Py Arith ArithR Euclid GeoSpec TriSpec.
Set Implicit Arguments.
Open Scope R_scope.

(** turned, scaled by the root of a * a + b * b, and shifted *)
Definition moved (a b tx ty : R) (p : vec RA) : vec RA := rvec (a * vx p - b * vy p + tx) (b * vx p + a * vy p + ty).

(** the same after mirroring in the x axis *)
Definition mirrored (a b tx ty : R) (p : vec RA) : vec RA := moved a b tx ty (rvec (vx p) (- vy p)).

(** k is the factor by which lengths grow *)
Definition factor (a b k : R) : Prop := 0 < k /\ k * k = a * a + b * b.

Definition wall (c : list (@edge2 RA)) (p q : vec RA) : Prop := exists e, In e c /\ ep1 e = p /\ ep2 e = q.

(** the walls of d are those of c carried by f, with the same end first *)
Definition walls_carried (f : vec RA -> vec RA) (c d : list (@edge2 RA)) : Prop := forall p q, wall c p q <-> wall d (f p) (f q).

(** the same, each wall running the other way *)
Definition walls_turned_over (f : vec RA -> vec RA) (c d : list (@edge2 RA)) : Prop := forall p q, wall c p q <-> wall d (f q) (f p).

(** a node carried by f; what it rises above the level z is multiplied by r and put on the level z' *)
Definition node_carried (f : vec RA -> vec RA) (z z' r : R) (v : vec3 RA) : vec3 RA :=
  V3 (A := RA) (vx (f (ground v))) (vy (f (ground v))) (z' + r * (wz v - z)).

(** with a slope the rise grows with the footprint, with a height it stays *)
Definition rise_factor (hgt k r : R) : Prop := hgt = 0 /\ r = k \/ hgt <> 0 /\ r = 1.

(** an outline carried by f *)
Definition outline_carried (f : vec RA -> vec RA) (l : list (option (vec RA))) : list (option (vec RA)) := map (option_map f) l.

(** an outline followed the other way, beginning with its second corner *)
Definition other_way {T} (l : list T) : list T := match l with x :: y :: t => y :: x :: rev t | _ => l end.
