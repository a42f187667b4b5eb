(** * RaiseCases: runs that end with each of the exceptions (C68) *)

From Coq Require Import Lia ZArith.
From Verif Require Import Py Arith ArithF Euclid Lav Cluster Poly PlanCases FootSpec FootCases RaiseSpec.
Set Implicit Arguments.
Unset Strict Implicit.
Local Open Scope nat_scope.

Definition zeros (ps : list (Z * Z)) : list Z := map (fun _ => 0%Z) ps.
(** the call on a footprint at level 0; the result and the number of vertices appended *)
Definition call (ps : list (Z * Z)) (hgt : Z) : res (list (list Z)) * nat :=
  let o := leveled ps (zeros ps) hgt 1 in (o_result o, length (o_verts o) - length ps).
Definition ends_with (e : exn) (r : res (list (list Z)) * nat) (appended : bool) : Prop :=
  fst r = Err e /\ (snd r =? 0) = negb appended.

Lemma leveled_inside ps zs : ps <> [] -> length zs = length ps -> blocks_inside (length (at_levels ps zs)) 0 (Z.of_nat (length ps)) [].
Proof.
  intros Hn Hl. unfold at_levels. rewrite map_length, combine_length, Hl, Nat.min_id. split; [|intros h []].
  unfold block_inside. cbn [fst snd]. destruct ps; [congruence|]. cbn [length]. lia.
Qed.

(** a building with a deep oriel: eight corners, no two walls meet *)
Definition oriel : list (Z * Z) := [(3, 8); (5, 8); (5, 0); (6, 0); (6, 6); (11, 6); (11, 10); (3, 10)]%Z.
Lemma oriel_simple : simple_foot oriel.
Proof. apply simpleb_spec. vm_compute. reflexivity. Qed.
Lemma oriel_raises : ends_with TypeError (call oriel 0) false.
Proof. vm_compute. auto. Qed.

(** footprints whose walls cross or meet *)
Definition twice3 : list (Z * Z) := [(1, 0); (2, 3); (2, 3)]%Z.
Definition twice4 : list (Z * Z) := [(0, 1); (0, 0); (0, 0); (2, 0)]%Z.
Definition knot6 : list (Z * Z) := [(0, 1); (0, 0); (3, 1); (1, 1); (2, 0); (3, 1)]%Z.
Definition knot11 : list (Z * Z) := [(7, 2); (2, 1); (4, 1); (5, 1); (3, 7); (4, 5); (1, 5); (1, 2); (6, 7); (6, 2); (0, 7)]%Z.
Definition star6 : list (Z * Z) := [(4, 6); (7, 3); (1, 3); (4, 7); (6, 6); (3, 5)]%Z.
Definition bow4 : list (Z * Z) := [(2, 3); (0, 0); (3, 1); (0, 0)]%Z.

Lemma twice3_raises : ends_with ZeroDivisionError (call twice3 0) false.
Proof. vm_compute. auto. Qed.
Lemma twice4_raises : ends_with ZeroDivisionError (call twice4 0) true.
Proof. vm_compute. auto. Qed.
Lemma clockwise_raises : ends_with ValueError (call clockwise 5) false.
Proof. vm_compute. auto. Qed.
Lemma knot6_raises : ends_with RuntimeError (call knot6 0) false.
Proof. vm_compute. auto. Qed.
Lemma knot11_raises : ends_with AttributeError (call knot11 0) false.
Proof. vm_compute. auto. Qed.
Lemma star6_raises : ends_with StopIteration (call star6 0) true.
Proof. vm_compute. auto. Qed.
Lemma bow4_raises : ends_with EndlessFaces (call bow4 0) true.
Proof. vm_compute. auto. Qed.

Lemma simple_raises : exists ps, simple_foot ps /\ blocks_inside (length (at_levels ps (zeros ps))) 0 (Z.of_nat (length ps)) [] /\
  o_result (leveled ps (zeros ps) 0 1) = Err TypeError.
Proof.
  exists oriel. split; [exact oriel_simple|]. split; [apply leveled_inside; [discriminate|reflexivity]|]. exact (proj1 oriel_raises).
Qed.
