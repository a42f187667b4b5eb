(** * TurnCases: a triangle turned by the angle with cosine 3/5, and a nearly square rectangle turned by it *)

From Coq Require Import ZArith List Lia Bool Reals Lra Permutation.
From Verif Require Import Py PyFacts Arith ArithR ArithF Euclid GraphSpec GraphProofs ClusterSpec GeoSpec BisSpec PolySpec Lav Cluster Graph Poly TriSpec TriSkel TriRoof TriCases TurnSpec TurnPoly.
Set Implicit Arguments.
Unset Strict Implicit.
Local Open Scope R_scope.

Lemma unit345 : 3 / 5 * (3 / 5) + 4 / 5 * (4 / 5) = 1.
Proof. lra. Qed.

Definition tri : list (vec3 RA) := [t0; t1; t2].

(** the node over the incenter, relative to the centre c *)
Definition node345 (c : vec RA) : @subtree RA := Subtree (A := RA) (loc c (rvec 11 21)) 1 [loc c (ground t0); loc c (ground t1); loc c (ground t2)].

Lemma tri_apart : apart_nodes 2 tri 0 3 None None.
Proof.
  destruct long345 as (L0 & L1 & L2). pose proof orient345 as O.
  destruct (@tri_prepare tri 0%Z t0 t1 t2 eq_refl eq_refl eq_refl ltac:(rewrite O; lra) L0 L1 L2 None (or_introl eq_refl)) as (c & e0 & e1 & e2 & Hp & _ & (T1 & T2 & T3 & T4) & _).
  intros z ctr contours raw P R. rewrite Hp in P. apply Ok_inj in P. injection P as _ _ <-.
  assert (R1 : exists x, raw = [x]).
  { cbn [map] in T2, T3. injection T2 as A0 A1 A2. injection T3 as B0 B1 B2.
    rewrite (@tri_raw e0 e1 e2 _ _ _ T1 (T4 e0 ltac:(simpl; auto)) (T4 e1 ltac:(simpl; auto)) (T4 e2 ltac:(simpl; auto)) A0 A1 A2 B0 B1 B2 2%nat ltac:(lia)) in R. apply Ok_inj in R. eauto. }
  destruct R1 as [x ->]. intros a b [<-|[]] [<-|[]] N. congruence.
Qed.

Lemma debug_node fuel sw sch (verts : list (vec3 RA)) first cnt holes hgt tan faces us z c cs sk :
  prepare verts first cnt holes us = Ok (z, c, cs) -> skeletonize fuel cs = Ok sk ->
  o_debug (polygonize fuel sw sch true verts first cnt holes hgt tan faces us) = Some sk.
Proof.
  intros P S. unfold polygonize. rewrite P. cbn [bind]. rewrite S. cbn [bind]. destruct (slope sk hgt tan); auto.
  destruct (roof_faces _ _ _ _ _ _ _ _ _); [destruct faces|]; auto.
Qed.

Definition o345 sw sch := polygonize (A := RA) 2 sw sch true tri 0 3 None 2 0 None None.

Lemma o345_nodes sw sch : exists c, o_debug (o345 sw sch) = Some [node345 c] /\ o_verts (o345 sw sch) = [t0; t1; t2; V3 (A := RA) 11 21 9].
Proof.
  destruct long345 as (L0 & L1 & L2). pose proof orient345 as O. assert (Op : 0 < orient (ground t0) (ground t1) (ground t2)) by (rewrite O; lra).
  destruct (@tri_prepare tri 0%Z t0 t1 t2 eq_refl eq_refl eq_refl Op L0 L1 L2 None (or_introl eq_refl)) as (c & e0 & e1 & e2 & Hp & _ & Ht & _).
  destruct center345 as (C1 & C2). pose proof (@perimeter_pos t0 t1 t2 L0 L1 L2) as PP.
  exists (ground c). split.
  - eapply debug_node; [exact Hp|]. rewrite (@tri_skeleton _ _ _ _ 2%nat Ht (le_n 2)). unfold node345. rewrite <- C1.
    rewrite incenter_loc by lra. f_equal. f_equal. f_equal. unfold inradius in *. rewrite perimeter_loc, orient_loc. rewrite C2. auto.
  - unfold o345. destruct (@tri_roof tri 0%Z ltac:(lia) t0 t1 t2 eq_refl eq_refl eq_refl Op L0 L1 L2 2%nat sw sch true None 2 0 None 2 (le_n 2) (or_introl eq_refl)) as (V & _); [left; split; [lra|auto]|].
    rewrite V, C1. unfold apex, rvec. cbn [vx vy app tri]. do 3 f_equal. f_equal. apply vec3_ext; cbn [wx wy wz t0]; change (num RA) with R in *; lra.
Qed.

Lemma vertex4 i : roof_vertex 3 0 3 [] 1 i -> i = 0%Z \/ i = 1%Z \/ i = 2%Z \/ i = 3%Z.
Proof. intros [[H|(h & [] & _)]|H]; unfold in_block in *; lia. Qed.

Lemma clear345 c : clear_roof [t0; t1; t2; V3 (A := RA) 11 21 9] 3 0 3 [] [node345 c].
Proof.
  split.
  - intros i j p q Hi Hj N Gi Gj. apply vertex4 in Hi, Hj.
    destruct Hi as [->|[->|[-> | ->]]], Hj as [->|[->|[-> | ->]]]; try congruence; cbn in Gi, Gj; apply Ok_inj in Gi; apply Ok_inj in Gj; subst p q; cbn [wx wy t0 t1 t2]; change (num RA) with R in *;
      first [left; lra|right; lra].
  - exists [(0, 1); (1, 2); (2, 0); (3, 0); (3, 1); (3, 2)]%Z. split; [|split].
    + exists [(3, 0); (3, 1); (3, 2)]%Z. split; [reflexivity|]. cbn [all_links node345 sinks map app].
      repeat (apply Forall2_cons; [|]); try apply Forall2_nil; (split; [reflexivity|split; [left; left; unfold in_block; cbn [snd]; lia|]]);
        (eexists; eexists; split; [reflexivity|split; [reflexivity|]]); unfold node345, loc, ground, t0, t1, t2; unfold rvec; cbn [source vx vy wx wy]; change (num RA) with R in *; split; lra.
    + apply simpleb_ok. reflexivity.
    + intros v a b [N1 Ha] [N2 Hb] Nab (pv & pa & pb & k & Hk & Gv & Ga & Gb & X & Y).
      cbn [In] in Ha, Hb.
      repeat match goal with H : _ \/ _ |- _ => destruct H as [H|H] | H : False |- _ => destruct H | H : (_, _) = (_, _) |- _ => apply pair_equal_spec in H as [? ?] end; subst; try lia; try congruence; try discriminate;
        cbn in Gv, Ga, Gb; apply Ok_inj in Gv; apply Ok_inj in Ga; apply Ok_inj in Gb; subst pv pa pb; cbn [wx wy t0 t1 t2] in X, Y; change (num RA) with R in *; lra.
Qed.

(** ** a rectangle whose ridge is shorter than a tenth *)
Definition at64 (p : Z * Z) : vec3 F64 := V3 (A := F64) (lit (a := F64) (fst p) 64) (lit (a := F64) (snd p) 64) (lit (a := F64) 0 1).

Definition nodes_of (l : list (Z * Z)) : nat :=
  length (o_verts (polygonize (A := F64) 200 (fun _ _ => false) (fun _ _ => O) false (map at64 l) 0 (Z.of_nat (length l)) None (lit (a := F64) 0 1) (lit (a := F64) 1 1) None None)) - length l.

Lemma near_square : nodes_of [(0, 0); (3200, 0); (3200, 3205); (0, 3205)]%Z = 1%nat /\ nodes_of [(0, 0); (1920, 2560); (-644, 4483); (-2564, 1923)]%Z = 2%nat.
Proof. split; vm_compute; reflexivity. Qed.

Lemma near_square_turned : exists l l' : list (Z * Z),
  Forall2 (fun p q => 5 * fst q = 3 * fst p - 4 * snd p /\ 5 * snd q = 4 * fst p + 3 * snd p)%Z l l' /\ nodes_of l = 1%nat /\ nodes_of l' = 2%nat.
Proof. eexists. eexists. split; [|exact near_square]. repeat (apply Forall2_cons; [split; reflexivity|]). apply Forall2_nil. Qed.

Lemma clear_o345 sw sch : exists sk, o_debug (o345 sw sch) = Some sk /\ clear_roof (o_verts (o345 sw sch)) 3 0 3 [] sk.
Proof. destruct (o345_nodes sw sch) as (c & E & V). exists [node345 c]. rewrite V. split; [exact E|apply clear345]. Qed.
