(** * RectSpec: rectangular footprints (specification side) *)

From Coq Require Import Reals.
From Verif Require Import Py Arith ArithR TriSpec.
Set Implicit Arguments.
Open Scope R_scope.

(** the point with coordinates x, y in the frame with origin o and first direction u *)
Definition in_frame (o u : vec RA) (x y : R) : vec RA := rvec (vx o + x * vx u - y * vy u) (vy o + x * vy u + y * vx u).

(** the vertices of verts from the given index on are a rectangle of length a in direction u and width b,
    listed counterclockwise; the first one is w *)
Definition rectangle (verts : list (vec3 RA)) (first : Z) (w : vec3 RA) (u : vec RA) (a b : R) : Prop :=
  vx u * vx u + vy u * vy u = 1 /\ py_get verts first = Ok w /\ exists w1 w2 w3,
  py_get verts (first + 1) = Ok w1 /\ ground w1 = in_frame (ground w) u a 0 /\
  py_get verts (first + 2) = Ok w2 /\ ground w2 = in_frame (ground w) u a b /\
  py_get verts (first + 3) = Ok w3 /\ ground w3 = in_frame (ground w) u 0 b.

(** height of the ridge above the first vertex: the height given, or, if that is 0, the slope given times half the width *)
Definition ridge (hgt tan b z : R) : R -> Prop := fun h => hgt = 0 /\ h = z + tan * (b / 2) \/ hgt <> 0 /\ h = z + hgt.
