(** * StraightCases: concrete cases for PropsStraight *)

From Coq Require Import Reals Lra Lia ZArith.
From Verif Require Import Py Arith ArithR ArithF RSpec Euclid Lav Cluster Poly ClusterSpec GeoSpec LavSpec LavInit LavNext GeoR BisSpec BisProofs BisStart
  PatSpec PatCases StraightSpec StraightProofs GhostCases PropsLav.
Set Implicit Arguments.
Unset Strict Implicit.
Local Open Scope nat_scope.

(** ** a rectangle one wall of which is divided into eight parts, over the real numbers *)
Definition part_of (k : nat) (a b : R) : @edge2 RA := Edge k (rvec a 0) (rvec b 0) (rvec 1 0) 0 0.
Definition ruler : list (@edge2 RA) :=
  [part_of 0 0 2; part_of 1 2 4; part_of 2 4 6; part_of 3 6 8; part_of 4 8 10; part_of 5 10 12; part_of 6 12 14; part_of 7 14 16;
   Edge 8 (rvec 16 0) (rvec 16 8) (rvec 0 1) 0 0; Edge 9 (rvec 16 8) (rvec 0 8) (rvec (-1) 0) 0 0;
   Edge 10 (rvec 0 8) (rvec 0 0) (rvec 0 (-1)) 0 0].

Lemma cross_R (a b c d : R) : vcross (A := RA) (rvec a b) (rvec c d) = (a * d - b * c)%R.
Proof. unfold vcross, rvec. simpl. auto. Qed.

Lemma ruler_run : smooth_run ruler 1 8 /\ flat_run ruler 1 8.
Proof.
  assert (Z : forall x : R, x = 0%R -> nltb (a := RA) (nabs (a := RA) x) (lit (a := RA) 1 2) = true).
  { intros x ->. simpl. destruct (Rltb_spec (Rabs 0) (1 / 2)) as [L|L]; auto. exfalso. apply L. rewrite Rabs_R0. lra. }
  split; [split; [simpl; lia|]; split; [lia|]; split; [|split]|].
  - intros i Hi. assert (C : i = 1 \/ i = 2 \/ i = 3 \/ i = 4 \/ i = 5 \/ i = 6 \/ i = 7) by lia.
    decompose [or] C; subst i; (eexists; split; [eexists; eexists; split; [reflexivity|split; [reflexivity|reflexivity]]|]);
      apply Z; cbn [part_of enorm]; rewrite cross_R; lra.
  - intros (x & (e1 & e2 & E1 & E2 & ->) & L). injection E1 as <-. injection E2 as <-. cbn [part_of enorm] in L. rewrite cross_R in L. simpl in L.
    destruct (Rltb_spec (Rabs (1 * 1 - 0 * 0)) (1 / 2)) as [K|K]; [|discriminate]. rewrite Rabs_right in K; lra.
  - right. intros (x & (e1 & e2 & E1 & E2 & ->) & L). injection E1 as <-. injection E2 as <-. cbn [part_of enorm] in L. rewrite cross_R in L. simpl in L.
    destruct (Rltb_spec (Rabs (0 * 0 - -1 * 1)) (1 / 2)) as [K|K]; [|discriminate]. rewrite Rabs_right in K; lra.
  - exists (part_of 1 2 4), (part_of 4 8 10), (part_of 7 14 16). split; [reflexivity|]. split; [reflexivity|]. split; [reflexivity|].
    unfold orient, part_of, rvec. cbn [ep1 vx vy]. simpl. ring.
Qed.

Lemma ruler_stops : (forall sk, mergeNodeClusters sk [ruler] = Err ZeroDivisionError) /\ (forall fuel, exists x, skeletonize fuel [ruler] = Err x).
Proof.
  destruct ruler_run as [H1 H2].
  destruct (@straight_run_stops [ruler] ruler 1 8 eq_refl H1 H2) as (M & S & _). split; auto.
Qed.

(** the same building in IEEE doubles *)
Definition ruler3 : list (vec3 F64) :=
  [P3 0 0; P3 2 0; P3 4 0; P3 6 0; P3 8 0; P3 10 0; P3 12 0; P3 14 0; P3 16 0; P3 16 8; P3 0 8].
Lemma ruler3_raises : o_result (polygonize 300 (fun _ _ => false) (fun _ _ => O) false ruler3 0 11 None (fq 0) (fq 1) None None) = Err ZeroDivisionError.
Proof. vm_compute. reflexivity. Qed.
(** the wall undivided *)
Definition box3 : list (vec3 F64) := [P3 0 0; P3 16 0; P3 16 8; P3 0 8].
Lemma box3_roof : o_result (polygonize 300 (fun _ _ => false) (fun _ _ => O) false box3 0 4 None (fq 0) (fq 1) None None)
  = Ok [[3; 0; 4]; [2; 3; 4; 5]; [0; 1; 5; 4]; [1; 2; 5]]%Z.
Proof. vm_compute. reflexivity. Qed.
(** the wall divided into halves: front and back of the roof become one face *)
Definition halved3 : list (vec3 F64) := [P3 0 0; P3 8 0; P3 16 0; P3 16 8; P3 0 8].
Lemma halved3_roof : o_result (polygonize 300 (fun _ _ => false) (fun _ _ => O) false halved3 0 5 None (fq 0) (fq 1) None None)
  = Ok [[4; 0; 5]; [3; 4; 5; 0; 1; 2; 6]; [2; 3; 6]]%Z.
Proof. vm_compute. reflexivity. Qed.

(** ** the wall divided into halves, over the real numbers *)
Definition halved : list (@edge2 RA) :=
  [part_of 0 0 8; part_of 1 8 16; Edge 2 (rvec 16 0) (rvec 16 8) (rvec 0 1) 0 0; Edge 3 (rvec 16 8) (rvec 0 8) (rvec (-1) 0) 0 0;
   Edge 4 (rvec 0 8) (rvec 0 0) (rvec 0 (-1)) 0 0].
Lemma halved_closed : closed_contour halved.
Proof.
  assert (S16 : (sqrt (16 * 16) = 16)%R) by (apply sqrt_square; lra). assert (S8 : (sqrt (8 * 8) = 8)%R) by (apply sqrt_square; lra).
  split; [discriminate|]. split.
  - intros e [<-|[<-|[<-|[<-|[<-|[]]]]]]; unfold directed, euclid_dist, Rsqr, part_of; cbn [ep1 ep2 enorm rvec vx vy]; simpl;
    (split; [intros K; pose proof (f_equal (@vx RA) K) as K1; pose proof (f_equal (@vy RA) K) as K2; simpl in K1, K2; lra|]);
    match goal with |- context [sqrt ?x] => first [replace x with (16 * 16)%R by (simpl; field); rewrite S16 | replace x with (8 * 8)%R by (simpl; field); rewrite S8] end;
    split; simpl; field.
  - intros e1 e2 (j & Hj & N1 & N2). simpl in Hj.
    destruct j as [|[|[|[|[|j]]]]]; simpl in N1, N2; try (injection N1 as <-; injection N2 as <-; reflexivity); lia.
Qed.

Lemma halved_still : exists s, init_slav [halved] = Ok s /\ length (s_vs s) = 5 /\
  straight (v_eprev (getv (s_vs s) 1)) (v_enext (getv (s_vs s) 1)) /\ next_event s 1 = Ok None.
Proof.
  assert (Hcl : forall c, In c [halved] -> closed_contour c) by (intros c [<-|[]]; apply halved_closed).
  assert (Hne : forall c, In c [halved] -> c <> []) by (intros c Hc; apply (Hcl c Hc)).
  destruct (init_slav_spec Hne) as (s & E & W1 & _ & _ & W2 & _). exists s. split; auto.
  assert (F : length (s_vs s) = 5 /\ v_eprev (getv (s_vs s) 1) = part_of 0 0 8 /\ v_enext (getv (s_vs s) 1) = part_of 1 8 16).
  { split; auto. destruct (W2 0 halved eq_refl) as (_ & _ & _ & G). specialize (G 1). destruct G as (e1 & e2 & G1 & G2 & _ & G3 & G4 & _); [simpl; lia|].
    simpl in G1, G2, G3, G4. injection G1 as <-. injection G2 as <-. rewrite G3, G4. auto. }
  destruct F as (F1 & F2 & F3). split; auto.
  assert (St : straight (v_eprev (getv (s_vs s) 1)) (v_enext (getv (s_vs s) 1))).
  { rewrite F2, F3. exists 1%R. unfold part_of, rvec. cbn [ep1 ep2 vx vy]. simpl. lra. }
  split; auto. apply (@straight_none [halved] Hcl s E 1); auto. lia.
Qed.
