(** * DormSpec: right-angled dormers (C69) *)

From Coq Require Import Reals.
From Verif Require Import Py Arith ArithR Euclid Lav PatSpec GeoSpec BisSpec.
Set Implicit Arguments.
Unset Strict Implicit.
Local Open Scope R_scope.

(** [p] moved by [a] along [u] and by [b] to the left of [u] *)
Definition moved (p u : vec RA) (a b : R) : vec RA :=
  rvec (vx p + a * vx u - b * vy u) (vy p + a * vy u + b * vx u).

(** From a wall in direction [u] the contour [c] turns right at its corner number [s], runs [l] away from the wall, [w] along it
    and [r] back again, and then turns right into a wall in direction [u]. *)
Definition right_dormer (c : list (@edge2 RA)) (s : nat) (u : vec RA) (w l r : R) : Prop :=
  vx u * vx u + vy u * vy u = 1 /\ 0 < w /\ 0 < l /\ 0 < r /\
  exists before side1 base side2 after,
    edge_at c (s + length c - 1) = Some before /\ edge_at c s = Some side1 /\ edge_at c (s + 1) = Some base /\
    edge_at c (s + 2) = Some side2 /\ edge_at c (s + 3) = Some after /\
    enorm before = u /\ enorm side1 = rvec (vy u) (- vx u) /\ enorm side2 = rvec (- vy u) (vx u) /\ enorm after = u /\
    let P := ep1 side1 in
    ep2 before = P /\ (exists k, 0 < k /\ ep1 before = moved P u (- k) 0) /\
    ep2 side1 = moved P u 0 (- l) /\
    ep1 base = moved P u 0 (- l) /\ ep2 base = moved P u w (- l) /\
    ep1 side2 = moved P u w (- l) /\ ep2 side2 = moved P u w (r - l) /\
    ep1 after = moved P u w (r - l) /\ (exists k, 0 < k /\ ep2 after = moved P u (w + k) (r - l)).

(** where the bisectors of the two inner corners meet, seen from the first of them *)
Definition valley (P u : vec RA) (w l r : R) : vec RA := moved P u ((w + r - l) / 2) ((w + r - l) / 2).

(** the walls beside corner [s] and corner [s + 3] *)
Definition dormer_walls (c : list (@edge2 RA)) (s : nat) (before side1 side2 after : @edge2 RA) : Prop :=
  edge_at c (s + length c - 1) = Some before /\ edge_at c s = Some side1 /\
  edge_at c (s + 2) = Some side2 /\ edge_at c (s + 3) = Some after.
