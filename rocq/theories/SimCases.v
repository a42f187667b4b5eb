(** * SimCases: the trapezoid enlarged and mirrored; footprints that do not keep their roofs (cases for C65) *)

From Coq Require Import Reals Lra ZArith Lia.
From Verif Require Import Py Arith ArithR ArithF Euclid Lav Poly ClusterSpec GeoSpec BisSpec ConvexSpec TriSpec FootSpec RoofSpec FootCases ConvexCases WholeCases SameCases SimSpec.
Set Implicit Arguments.
Unset Strict Implicit.
Local Open Scope R_scope.

(** the trapezoid of C49, three times as large, beginning with its third corner *)
Definition big : list (@edge2 RA) :=
  [Edge 0 (rvec 22 14) (rvec 10 14) (rvec (-1) 0) 0 0; Edge 1 (rvec 10 14) (rvec 1 2) (rvec (-3 / 5) (-4 / 5)) 0 0;
   Edge 2 (rvec 1 2) (rvec 31 2) (rvec 1 0) 0 0; Edge 3 (rvec 31 2) (rvec 22 14) (rvec (-3 / 5) (4 / 5)) 0 0].

Definition big_verts : list (vec3 RA) := [V3 (A := RA) 22 14 8; V3 (A := RA) 10 14 8; V3 (A := RA) 1 2 8; V3 (A := RA) 31 2 8].

(** the trapezoid mirrored in the x axis *)
Definition flat : list (@edge2 RA) :=
  [Edge 0 (rvec 0 0) (rvec 3 (-4)) (rvec (3 / 5) (-4 / 5)) 0 0; Edge 1 (rvec 3 (-4)) (rvec 7 (-4)) (rvec 1 0) 0 0;
   Edge 2 (rvec 7 (-4)) (rvec 10 0) (rvec (3 / 5) (4 / 5)) 0 0; Edge 3 (rvec 10 0) (rvec 0 0) (rvec (-1) 0) 0 0].

Definition flat_verts : list (vec3 RA) := [V3 (A := RA) 0 0 3; V3 (A := RA) 3 (-4) 3; V3 (A := RA) 7 (-4) 3; V3 (A := RA) 10 0 3].

Ltac go_directed l := unfold directed, euclid_dist, Rsqr; cbn [ep1 ep2 enorm rvec vx vy]; change (num RA) with R in *;
  split; [intros K; pose proof (f_equal (@vx RA) K) as K1; pose proof (f_equal (@vy RA) K) as K2; cbn [rvec vx vy] in K1, K2; change (num RA) with R in *; lra|];
  match goal with |- context [sqrt ?x] => replace (sqrt x) with (l : R) by (symmetry; replace x with (l * l) by ring; apply sqrt_square; lra) end; split; lra.

Ltac go_convex c := 
  let i := fresh "i" in let j := fresh "j" in let k := fresh "k" in
  intros i j k a b d Hi Hj Na Nb Nd;
    assert (k < 4)%nat by (assert (K : nth_error c k <> None) by congruence; apply nth_error_Some in K; exact K);
    destruct i as [|[|i]]; [| |lia]; destruct j as [|[|[|j]]]; try lia; destruct k as [|[|[|[|k]]]]; try lia; simpl in Na, Nb, Nd;
      injection Na as <-; injection Nb as <-; injection Nd as <-; unfold orient; cbn [ep1 rvec vx vy]; change (num RA) with R in *; lra.

Ltac go_closed := intros e1 e2 (j & Hj & N1 & N2); simpl in Hj;
      destruct j as [|[|[|[|j]]]]; simpl in N1, N2; [| | | |lia]; injection N1 as <-; injection N2 as <-; reflexivity.

Lemma big_convex : convex_contour big.
Proof.
  split; [|split]; [|simpl; lia|go_convex big]. split; [discriminate|]. split; [|go_closed].
  intros e [<-|[<-|[<-|[<-|[]]]]]; [go_directed 12|go_directed 15|go_directed 30|go_directed 15].
Qed.

Lemma flat_convex : convex_contour flat.
Proof.
  split; [|split]; [|simpl; lia|go_convex flat]. split; [discriminate|]. split; [|go_closed].
  intros e [<-|[<-|[<-|[<-|[]]]]]; [go_directed 5|go_directed 4|go_directed 5|go_directed 10].
Qed.

Ltac go_foot := intros i e Hi; destruct i as [|[|[|[|i]]]]; simpl in Hi; [| | | |destruct i; discriminate]; injection Hi as <-;
    (split; [unfold long_enough; cbn [ep1 ep2 rvec vx vy]; change (num RA) with R in *; lra|eexists; split; [reflexivity|reflexivity]]).

Lemma small : / 10 ^ 35 < 1.
Proof. rewrite <- Rinv_1. apply Rinv_lt_contravar; [|apply Rlt_pow_R1; [lra|lia]]. rewrite Rmult_1_l. apply pow_lt. lra. Qed.

Lemma big_foot : footprint big_verts 0 big.
Proof. pose proof small as T. go_foot. Qed.

Lemma flat_foot : footprint flat_verts 0 flat.
Proof. pose proof small as T. go_foot. Qed.

Lemma at_moved x y p : rvec x y = p -> vx p = x /\ vy p = y.
Proof. intros <-. auto. Qed.

Lemma big_walls : walls_carried (moved 3 0 1 2) trap big.
Proof.
  intros p q. unfold wall, moved. split.
  - intros (e & I & <- & <-). cbn [In trap] in I. destruct I as [<-|[<-|[<-|[<-|[]]]]]; cbn [ep1 ep2 rvec vx vy];
      [exists (nth 2 big (Edge (A := RA) 0 (rvec 0 0) (rvec 0 0) (rvec 0 0) 0 0))|exists (nth 3 big (Edge (A := RA) 0 (rvec 0 0) (rvec 0 0) (rvec 0 0) 0 0))
      |exists (nth 0 big (Edge (A := RA) 0 (rvec 0 0) (rvec 0 0) (rvec 0 0) 0 0))|exists (nth 1 big (Edge (A := RA) 0 (rvec 0 0) (rvec 0 0) (rvec 0 0) 0 0))];
      (split; [cbn [big nth In]; auto|]); cbn [big nth ep1 ep2]; split; apply vec_ext; cbn [rvec vx vy]; change (num RA) with R in *; lra.
  - intros (e & I & E1 & E2). cbn [In big] in I. destruct I as [<-|[<-|[<-|[<-|[]]]]]; cbn [ep1 ep2] in E1, E2;
      apply at_moved in E1 as [X1 Y1]; apply at_moved in E2 as [X2 Y2]; cbn [rvec vx vy] in *; change (num RA) with R in *;
      [exists (nth 2 trap (Edge (A := RA) 0 (rvec 0 0) (rvec 0 0) (rvec 0 0) 0 0))|exists (nth 3 trap (Edge (A := RA) 0 (rvec 0 0) (rvec 0 0) (rvec 0 0) 0 0))
      |exists (nth 0 trap (Edge (A := RA) 0 (rvec 0 0) (rvec 0 0) (rvec 0 0) 0 0))|exists (nth 1 trap (Edge (A := RA) 0 (rvec 0 0) (rvec 0 0) (rvec 0 0) 0 0))];
      (split; [cbn [trap nth In]; auto|]); cbn [trap nth ep1 ep2]; split; apply vec_ext; cbn [rvec vx vy]; change (num RA) with R in *; lra.
Qed.

Lemma flat_walls : walls_turned_over (mirrored 1 0 0 0) trap flat.
Proof.
  intros p q. unfold wall, mirrored, moved. split.
  - intros (e & I & <- & <-). cbn [In trap] in I. destruct I as [<-|[<-|[<-|[<-|[]]]]]; cbn [ep1 ep2 rvec vx vy];
      [exists (nth 3 flat (Edge (A := RA) 0 (rvec 0 0) (rvec 0 0) (rvec 0 0) 0 0))|exists (nth 2 flat (Edge (A := RA) 0 (rvec 0 0) (rvec 0 0) (rvec 0 0) 0 0))
      |exists (nth 1 flat (Edge (A := RA) 0 (rvec 0 0) (rvec 0 0) (rvec 0 0) 0 0))|exists (nth 0 flat (Edge (A := RA) 0 (rvec 0 0) (rvec 0 0) (rvec 0 0) 0 0))];
      (split; [cbn [flat nth In]; auto|]); cbn [flat nth ep1 ep2]; split; apply vec_ext; cbn [rvec vx vy]; change (num RA) with R in *; lra.
  - intros (e & I & E1 & E2). cbn [In flat] in I. destruct I as [<-|[<-|[<-|[<-|[]]]]]; cbn [ep1 ep2] in E1, E2;
      apply at_moved in E1 as [X1 Y1]; apply at_moved in E2 as [X2 Y2]; cbn [rvec vx vy] in *; change (num RA) with R in *;
      [exists (nth 3 trap (Edge (A := RA) 0 (rvec 0 0) (rvec 0 0) (rvec 0 0) 0 0))|exists (nth 2 trap (Edge (A := RA) 0 (rvec 0 0) (rvec 0 0) (rvec 0 0) 0 0))
      |exists (nth 1 trap (Edge (A := RA) 0 (rvec 0 0) (rvec 0 0) (rvec 0 0) 0 0))|exists (nth 0 trap (Edge (A := RA) 0 (rvec 0 0) (rvec 0 0) (rvec 0 0) 0 0))];
      (split; [cbn [trap nth In]; auto|]); cbn [trap nth ep1 ep2]; split; apply vec_ext; cbn [rvec vx vy]; change (num RA) with R in *; lra.
Qed.

(** turned and enlarged five times *)
Lemma five : factor 3 4 5.
Proof. split; lra. Qed.

Lemma carried_node : node_carried (moved 3 0 1 2) 3 8 3 (V3 (A := RA) 4 2 5) = V3 (A := RA) 13 8 14.
Proof. apply vec3_ext; unfold node_carried, moved, ground; cbn [rvec vx vy wx wy wz]; change (num RA) with R in *; lra. Qed.

Local Open Scope Z_scope.
(** ** in binary64 *)

(** a rectangle 17 by 16, and one sixteenth of it: the ends of the ridge, 1/16 apart, become one node *)
Definition nearly_square : list (Z * Z) := [(0, 0); (17, 0); (17, 16); (0, 16)].

Lemma nearly_square_convex : convex_foot nearly_square.
Proof. apply convexb_spec. vm_compute. reflexivity. Qed.

Lemma nearly_square_faces : faces_of 1 nearly_square = [[3; 0; 4]; [2; 3; 4; 5]; [0; 1; 5; 4]; [1; 2; 5]] /\
  faces_of 16 nearly_square = [[3; 0; 4]; [2; 3; 4]; [0; 1; 4]; [1; 2; 4]].
Proof. split; vm_compute; reflexivity. Qed.

Lemma shrunk_refuted : exists ps den fs fs', convex_foot ps /\ o_result (roof_of 1 ps) = Ok fs /\ o_result (roof_of den ps) = Ok fs' /\
  (exists f, In f fs /\ length f = 4%nat) /\ forall f, In f fs' -> length f = 3%nat.
Proof.
  exists nearly_square, 16%positive. eexists. eexists. split; [exact nearly_square_convex|].
  split; [exact (faces_all (proj1 nearly_square_faces))|]. split; [exact (faces_all (proj2 nearly_square_faces))|].
  split; [exists [2; 3; 4; 5]; split; [right; left; reflexivity|reflexivity]|]. intros f [<-|[<-|[<-|[<-|[]]]]]; reflexivity.
Qed.

(** the T of C63 beginning with its sixth corner, and its mirror image beginning with the same corner *)
Definition mirror_foot (ps : list (Z * Z)) : list (Z * Z) :=
  map (fun p => (fst p, - snd p)) match ps with [] => [] | p :: t => p :: rev t end.

Lemma tee_mirror_simple : simple_foot (rot 5 tee) /\ simple_foot (mirror_foot (rot 5 tee)).
Proof. split; apply simpleb_spec; vm_compute; reflexivity. Qed.

Lemma tee_mirror_faces : length (faces_of 1 (rot 5 tee)) = 6%nat /\ length (faces_of 1 (mirror_foot (rot 5 tee))) = 8%nat.
Proof. split; vm_compute; reflexivity. Qed.

Lemma faces_count den ps n : length (faces_of den ps) = S n -> exists fs, o_result (roof_of den ps) = Ok fs /\ length fs = S n.
Proof. unfold faces_of. destruct (o_result (roof_of den ps)) as [fs|x]; [intros E; exists fs; exact (conj eq_refl E)|discriminate]. Qed.

Lemma mirror_refuted : exists ps fs fs', simple_foot ps /\ simple_foot (mirror_foot ps) /\
  o_result (roof_of 1 ps) = Ok fs /\ o_result (roof_of 1 (mirror_foot ps)) = Ok fs' /\ (length fs < length fs')%nat.
Proof.
  destruct (faces_count (proj1 tee_mirror_faces)) as (fs & E & L). destruct (faces_count (proj2 tee_mirror_faces)) as (fs' & E' & L').
  exists (rot 5 tee), fs, fs'. split; [exact (proj1 tee_mirror_simple)|]. split; [exact (proj2 tee_mirror_simple)|]. split; [exact E|]. split; [exact E'|]. rewrite L, L'. lia.
Qed.
