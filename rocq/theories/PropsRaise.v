(** * PropsRaise: which exceptions a call can end with (C68) *)

From Coq Require Import Lia ZArith.
From Verif Require Import Py Arith ArithF Euclid Graph Lav Cluster Poly PlanCases FootSpec RaiseSpec RaiseProofs RaiseFuel RaiseCases.
Set Implicit Arguments.
Unset Strict Implicit.

(** C68: if the outline and the holes lie inside the vertex list, an exception of polygonize is one of
    those listed, leaves the caller's faces alone, and the vertex list is as before or has only been extended *)
Theorem C68_exceptions :
  forall (A : arith) (fuel : nat) (sw : Z -> Z -> bool) (sch : schedule) (dbg : bool) (verts : list (vec3 A)) (first cnt : Z)
    (holes : option (list (Z * Z))) (hgt tan : num A) (faces : option (list (list Z))) (us : option (list (vec3 A))) (e : exn),
  let hs := match holes with Some h => h | None => [] end in
  blocks_inside (length verts) first cnt hs -> units_inside us cnt hs ->
  let o := polygonize fuel sw sch dbg verts first cnt holes hgt tan faces us in
  o_result o = Err e ->
  o_faces o = faces /\
  (skeleton_exn e /\ o_verts o = verts \/
   faces_exn e /\ exists sk, o_verts o = verts ++ sk).
Proof. exact (@polygonize_exceptions). Qed.
Print Assumptions C68_exceptions.

(** neither an IndexError nor an AssertionError *)
Theorem C68_no_index_error :
  forall (A : arith) (fuel : nat) (sw : Z -> Z -> bool) (sch : schedule) (dbg : bool) (verts : list (vec3 A)) (first cnt : Z)
    (holes : option (list (Z * Z))) (hgt tan : num A) (faces : option (list (list Z))) (us : option (list (vec3 A))),
  let hs := match holes with Some h => h | None => [] end in
  blocks_inside (length verts) first cnt hs -> units_inside us cnt hs ->
  let o := polygonize fuel sw sch dbg verts first cnt holes hgt tan faces us in
  o_result o <> Err IndexError /\ o_result o <> Err AssertionError.
Proof. exact (@polygonize_no_index_error). Qed.
Print Assumptions C68_no_index_error.

(** the model runs out of fuel exactly if the event loop goes through as many rounds as the fuel *)
Theorem C68_fuel :
  forall (A : arith) (fuel : nat) (sw : Z -> Z -> bool) (sch : schedule) (dbg : bool) (verts : list (vec3 A)) (first cnt : Z)
    (holes : option (list (Z * Z))) (hgt tan : num A) (faces : option (list (list Z))) (us : option (list (vec3 A))),
  let hs := match holes with Some h => h | None => [] end in
  blocks_inside (length verts) first cnt hs -> units_inside us cnt hs ->
  (o_result (polygonize fuel sw sch dbg verts first cnt holes hgt tan faces us) = Err OutOfFuel <->
   exists zBase center contours st0 st,
     prepare verts first cnt holes us = Ok (zBase, center, contours) /\
     skeleton_start contours = Ok st0 /\ rounds fuel st0 st).
Proof. exact (@polygonize_out_of_fuel). Qed.
Print Assumptions C68_fuel.

(** a simple footprint, eight corners, ends with a TypeError *)
Theorem C68_simple_refuted :
  exists ps, simple_foot ps /\ blocks_inside (length (at_levels ps (zeros ps))) 0 (Z.of_nat (length ps)) [] /\
    o_result (leveled ps (zeros ps) 0 1) = Err TypeError.
Proof. exact simple_raises. Qed.
Print Assumptions C68_simple_refuted.

(** ** concrete cases *)

(** every exception of the skeleton except the fuel ends some call *)
Example ex_skeleton_exn :
  ends_with ZeroDivisionError (call twice3 0) false /\ ends_with ValueError (call clockwise 5) false /\
  ends_with RuntimeError (call knot6 0) false /\ ends_with TypeError (call oriel 0) false /\
  ends_with AttributeError (call knot11 0) false.
Proof. exact (conj twice3_raises (conj clockwise_raises (conj knot6_raises (conj oriel_raises knot11_raises)))). Qed.

(** three of the five exceptions of the faces *)
Example ex_faces_exn :
  ends_with ZeroDivisionError (call twice4 0) true /\ ends_with StopIteration (call star6 0) true /\
  ends_with EndlessFaces (call bow4 0) true.
Proof. exact (conj twice4_raises (conj star6_raises bow4_raises)). Qed.

(** the footprints meet the hypotheses *)
Example ex_inside : blocks_inside (length (at_levels oriel (zeros oriel))) 0 (Z.of_nat (length oriel)) [].
Proof. apply leveled_inside; [discriminate|reflexivity]. Qed.

(** without the hypotheses: a hole that is not in the list, too few unit vectors *)
Example ex_outside :
  o_result (polygonize (A := F64) 50 (fun _ _ => false) (fun _ _ => O) false (at_levels oriel (zeros oriel)) 0 8 (Some [(90, 4)]%Z)
    (f64 0) (f64 1) None None) = Err IndexError /\
  o_result (polygonize (A := F64) 50 (fun _ _ => false) (fun _ _ => O) false (at_levels oriel (zeros oriel)) 0 8 None
    (f64 0) (f64 1) None (Some [V3 (f64 1) (f64 0) (f64 0)])) = Err IndexError.
Proof. vm_compute. auto. Qed.

(** the square takes one round; the fuel counts the look at the empty queue as well *)
Example ex_fuel :
  let square := at_levels [(0, 0); (4, 0); (4, 4); (0, 4)]%Z [0; 0; 0; 0]%Z in
  let run n := o_result (polygonize (A := F64) n (fun _ _ => false) (fun _ _ => O) false square 0 4 None (f64 0) (f64 1) None None) in
  run 1%nat = Err OutOfFuel /\ run 2%nat = Ok [[3; 0; 4]; [2; 3; 4]; [0; 1; 4]; [1; 2; 4]]%Z.
Proof. vm_compute. auto. Qed.
