(** * RoofSpec: roofs over convex footprints (specification side) *)

From Coq Require Import Reals.
From Verif Require Import Py Arith ArithR Euclid ClusterSpec GeoSpec BisSpec TriSpec.
Set Implicit Arguments.
Open Scope R_scope.

(** a point at distance h from three edges and not nearer to any edge *)
Definition roof_point (c : list (@edge2 RA)) (x : vec RA) (h : R) : Prop :=
  equidistant c x h /\ forall e, In e c -> h <= edge_dist e x.

(** no four edges meet in one point of the roof *)
Definition simple_roof (c : list (@edge2 RA)) : Prop := forall x h e1 e2 e3 e4, roof_point c x h ->
  In e1 c -> In e2 c -> In e3 c -> In e4 c -> NoDup [e1; e2; e3; e4] ->
  ~ (edge_dist e1 x = h /\ edge_dist e2 x = h /\ edge_dist e3 x = h /\ edge_dist e4 x = h).

(** different points where edges meet are at least 0.1 apart *)
Definition apart (c : list (@edge2 RA)) : Prop := forall x h y k, roof_point c x h -> roof_point c y k ->
  x = y \/ 1 / 10 <= Rabs (vx x - vx y) + Rabs (vy x - vy y).

(** from one of three edge directions to the next and on to the last: the turn is not too small *)
Definition blunt (c : list (@edge2 RA)) : Prop := forall e1 e2 e3, In e1 c -> In e2 c -> In e3 c -> NoDup [e1; e2; e3] ->
  let d1x := vx (enorm e2) - vx (enorm e1) in let d1y := vy (enorm e2) - vy (enorm e1) in
  let d2x := vx (enorm e3) - vx (enorm e2) in let d2y := vy (enorm e3) - vy (enorm e2) in
  d1x * d2x + d1y * d2y <= (1 - 1 / 100) * (sqrt (d1x * d1x + d1y * d1y) * sqrt (d2x * d2x + d2y * d2y)).

(** the walls c stand on the vertices of verts from the given index on, and are not too short for mathutils *)
Definition footprint (verts : list (vec3 RA)) (first : Z) (c : list (@edge2 RA)) : Prop :=
  forall i e, nth_error c i = Some e ->
  long_enough (ep1 e) (ep2 e) /\ exists w, py_get verts (first + Z.of_nat i) = Ok w /\ ep1 e = ground w.

(** v stands over a point of the roof, on planes that rise from level z with slope s *)
Definition on_roof (c : list (@edge2 RA)) (z s : R) (v : vec3 RA) : Prop :=
  exists h, 0 < h /\ roof_point c (ground v) h /\ wz v = z + s * h.

(** a, b, d follow each other around f *)
Definition corner (f : list Z) (a b d : Z) : Prop := exists i, (i < length f)%nat /\
  nth_error f i = Some a /\ nth_error f ((i + 1) mod length f) = Some b /\ nth_error f ((i + 2) mod length f) = Some d.

(** The face over the wall e, the k-th wall: it starts with the two ends of the wall.  Its other corners are the nodes
    to which no wall is nearer than e, in such an order that each corner turns left. *)
Definition wall_face (verts nodes : list (vec3 RA)) (first : Z) (cnt k : nat) (c : list (@edge2 RA)) (e : @edge2 RA) (f : list Z) : Prop :=
  exists rest, f = ((first + Z.of_nat k) :: (first + Z.of_nat (S k mod cnt)) :: rest)%Z /\ NoDup f /\ rest <> [] /\
  (forall j, In j rest <-> exists i v, j = (Z.of_nat (length verts) + Z.of_nat i)%Z /\ nth_error nodes i = Some v /\
     roof_point c (ground v) (edge_dist e (ground v))) /\
  forall a b d, corner f a b d -> exists va vb vd, py_get (verts ++ nodes) a = Ok va /\ py_get (verts ++ nodes) b = Ok vb /\
     py_get (verts ++ nodes) d = Ok vd /\ 0 < orient (ground va) (ground vb) (ground vd).

(** the slope asked for: a height hgt of the highest node, or, if hgt is 0, the slope tan *)
Definition slope_of (c : list (@edge2 RA)) (nodes : list (vec3 RA)) (hgt tan s : R) : Prop :=
  hgt = 0 /\ s = tan \/
  hgt <> 0 /\ exists v m, In v nodes /\ roof_point c (ground v) m /\ s * m = hgt /\
    forall v' h, In v' nodes -> roof_point c (ground v') h -> h <= m.

(** a, b follow each other around f *)
Definition side (f : list Z) (a b : Z) : Prop := exists i, (i < length f)%nat /\ nth_error f i = Some a /\ nth_error f ((i + 1) mod length f) = Some b.

(** p lies under the face f: not to the right of any of its sides *)
Definition under (vl : list (vec3 RA)) (f : list Z) (p : vec RA) : Prop := forall a b, side f a b ->
  exists va vb, py_get vl a = Ok va /\ py_get vl b = Ok vb /\ 0 <= orient (ground va) (ground vb) p.

(** p lies in the footprint, and no wall is nearer to it than e *)
Definition nearest_wall (c : list (@edge2 RA)) (e : @edge2 RA) (p : vec RA) : Prop :=
  0 <= edge_dist e p /\ forall e', In e' c -> edge_dist e p <= edge_dist e' p.
