(** * PolySpec: vocabulary for the statements about polygonize, independent of Poly.v *)

From Verif Require Import Py Arith Euclid Lav.
Set Implicit Arguments.

(** [l1] is [l2] with some entries deleted *)
Inductive subsequence (T : Type) : list T -> list T -> Prop :=
| sub_nil : subsequence [] []
| sub_keep x l1 l2 : subsequence l1 l2 -> subsequence (x :: l1) (x :: l2)
| sub_drop x l1 l2 : subsequence l1 l2 -> subsequence l1 (x :: l2).

(** [l2] is [l1] followed by something *)
Definition extends (T : Type) (l1 l2 : list T) : Prop := exists e, l2 = l1 ++ e.

(** the entries of a face that belong to the footprint *)
Definition footprint_part (firstSkel : Z) (f : list Z) : list Z := filter (fun v => v <? firstSkel)%Z f.

(** number of corners at vertex v in a list of faces *)
Definition corners (faces : list (list Z)) (v : Z) : nat := count_occ Z.eq_dec (concat faces) v.

(** the indices of a block of vertices *)
Definition in_block (first cnt i : Z) : Prop := (first <= i < first + cnt)%Z.
Definition in_blocks (first cnt : Z) (holes : list (Z * Z)) (i : Z) : Prop :=
  in_block first cnt i \/ exists h, In h holes /\ in_block (fst h) (snd h) i.

Section Geometry.
Context {A : arith}.

(** the 2D position an edge end gets *)
Definition local_pos (verts : list (vec3 A)) (center : vec3 A) (i : Z) (p : vec A) : Prop :=
  exists v, py_get verts i = Ok v /\ p = mkvec (wx (w_sub v center)) (wy (w_sub v center)).

(** "these edges are the ring first -> first+1 -> ... -> first" *)
Definition ring_of (verts : list (vec3 A)) (center : vec3 A) (first cnt : Z) (es : list (@edge2 A)) : Prop :=
  length es = Z.to_nat cnt /\
  forall k, k < Z.to_nat cnt -> exists e e',
    nth_error es k = Some e /\ nth_error es ((k + 1) mod length es) = Some e' /\
    ei1 e = (first + Z.of_nat k)%Z /\ ei2 e = ei1 e' /\ ep2 e = ep1 e' /\
    local_pos verts center (ei1 e) (ep1 e).

(** is there a node or contour vertex for this sink? *)
Definition sink_known (edges2D : list (@edge2 A)) (sk : list (@subtree A)) (sink : vec A) : Prop :=
  (exists e, In e edges2D /\ veq (ep1 e) sink = true) \/ (exists a, In a sk /\ veq (source a) sink = true).

End Geometry.
