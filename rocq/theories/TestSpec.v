(** * TestSpec: what the tests of the project assert (specification for C66) *)

From Coq Require Import String Reals Lra.
From Verif Require Import Py Arith ArithR ArithF Euclid Lav Cluster Poly GeoSpec FootSpec.
Set Implicit Arguments.
Unset Strict Implicit.
Local Open Scope nat_scope.

(** Every test calls polygonize with the skeleton stored for debugging, and asserts: it returns; every face has at
    least three corners; no face has a corner twice; checkEdgeCrossing finds no crossing in the stored skeleton. *)
Definition passes (A : arith) (o : @outcome A) : Prop := exists fs sk, o_result o = Ok fs /\ o_debug o = Some sk /\
  (forall f, In f fs -> 3 <= length f /\ NoDup f) /\ checkEdgeCrossing sk = 0.

(** the links drawn from the nodes of a skeleton to their sinks *)
Definition link (A : arith) (sk : list (@subtree A)) (e : vec A * vec A) : Prop := exists a, In a sk /\ fst e = source a /\ In (snd e) (sinks a).

(** two links that are not parallel have no point in common but end points *)
Definition links_clear (sk : list (@subtree RA)) : Prop := forall e f, link sk e -> link sk f -> ~ crossing 0 e f.

(** ** the tests as data: (m, e) stands for m / 2^e *)
Definition num2 : Type := (Z * Z)%type.
Record test : Type := Test {
  t_file : string;
  t_verts : list (num2 * num2 * num2);
  t_first : Z;
  t_cnt : Z;
  t_holes : option (list (Z * Z));
  t_hgt : num2;
  t_tan : num2;
  t_units : option (list (num2 * num2 * num2)) }.

Definition val (q : num2) : num F64 := if (0 <=? snd q)%Z then lit (a := F64) (fst q) (Z.to_pos (2 ^ snd q)) else lit (a := F64) (fst q * 2 ^ (- snd q)) 1.
Definition val3 (p : num2 * num2 * num2) : vec3 F64 := V3 (A := F64) (val (fst (fst p))) (val (snd (fst p))) (val (snd p)).

(** a run of the test; the sets of the graph give their elements in the order in which they were put in *)
Definition run (fuel : nat) (t : test) : @outcome F64 :=
  polygonize (A := F64) fuel (fun _ _ => false) (fun _ _ => 0) true (map val3 (t_verts t)) (t_first t) (t_cnt t) (t_holes t)
    (val (t_hgt t)) (val (t_tan t)) None (option_map (map val3) (t_units t)).

(** the same for a footprint with the corners ps in units of 1/den, without holes, with a slope of 45 degrees *)
Definition tested (den : positive) (ps : list (Z * Z)) : @outcome F64 :=
  polygonize (A := F64) 300 (fun _ _ => false) (fun _ _ => 0) true (map (corner3 den) ps) 0 (Z.of_nat (length ps)) None
    (lit (a := F64) 0 1) (lit (a := F64) 1 1) None None.
