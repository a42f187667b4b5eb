(** * UnitProofs: supplying the unit vectors changes nothing (over the real numbers) *)

From Coq Require Import Reals Lra Psatz.
From Verif Require Import Py PyFacts Arith ArithR RSpec Euclid Graph Lav Cluster Poly.
Set Implicit Arguments.
Unset Strict Implicit.
Local Open Scope R_scope.

Lemma tiny_pos : 0 < / 10 ^ 35.
Proof. apply Rinv_0_lt_compat, pow_lt; lra. Qed.

Lemma lit_tiny : lit (a := RA) 1 (10 ^ 35)%positive = / 10 ^ 35.
Proof. cbn [RA lit]. rewrite Pos2Z.inj_pow. rewrite <- pow_IZR with (n := 35%nat). unfold Rdiv. rewrite Rmult_1_l. reflexivity. Qed.

Lemma vnormalized_R (v : vec RA) : / 10 ^ 35 < vx v * vx v + vy v * vy v ->
  vnormalized v = V2 (A := RA) (vx v / vlen v) (vy v / vlen v).
Proof.
  intros H. unfold vnormalized, ngtb. rewrite lit_tiny, vlen2_R. cbn [RA nltb].
  destruct (Rltb_spec (/ 10 ^ 35) (vx v * vx v + vy v * vy v)) as [K|K]; [|contradiction].
  rewrite vscale_R. cbn [RA rnd ndiv]. rewrite oneN_R. f_equal; unfold Rdiv; rewrite Rmult_1_l; reflexivity.
Qed.

Lemma normalized_unit (x y ux uy : R) : / 10 ^ 35 < x * x + y * y ->
  ux * sqrt (x * x + y * y) = x -> uy * sqrt (x * x + y * y) = y -> vnormalized (V2 (A := RA) x y) = V2 (A := RA) ux uy.
Proof.
  intros H Hx Hy. rewrite vnormalized_R by exact H. rewrite vlen_R. cbn [vx vy].
  set (L := sqrt (x * x + y * y)) in *. pose proof tiny_pos.
  assert (HL : 0 < L) by (apply sqrt_lt_R0; lra).
  f_equal; [rewrite <- Hx at 1|rewrite <- Hy at 1]; match goal with |- @eq _ ?a ?b => change (@eq R a b) end; field; lra.
Qed.

Lemma edge_unit verts center id i j u : unit_along verts (i, j) u ->
  Edge2_idx id i j (Some u) verts center = Edge2_idx id i j None verts center.
Proof.
  intros (a & b & Ha & Hb & Hl & Hx & Hy). cbn [fst snd] in *. unfold Edge2_idx. rewrite Ha, Hb. cbn [bind].
  f_equal. f_equal. symmetry. destruct a as [ax ay az], b as [bx by_ bz], center as [cx cy cz], u as [ux uy uz].
  cbn [wx wy] in *. unfold w_sub, mkvec3, mkvec. cbn [wx wy RA rnd nsub]. rewrite vsub_R. cbn [vx vy].
  assert (Ex : bx - cx - (ax - cx) = bx - ax) by (simpl in *; lra).
  assert (Ey : by_ - cy - (ay - cy) = by_ - ay) by (simpl in *; lra).
  rewrite Ex, Ey. apply normalized_unit; auto.
Qed.

Lemma contour_unit verts center us u0 id0 first cnt : (1 <= cnt)%Z ->
  (forall k, (k < Z.to_nat cnt)%nat -> exists u, py_get us (u0 + Z.of_nat k) = Ok u /\
     unit_along verts (first + Z.of_nat k, first + Z.of_nat ((k + 1) mod Z.to_nat cnt))%Z u) ->
  contour_edges verts center (Some us) u0 id0 first cnt = contour_edges verts center None u0 id0 first cnt.
Proof.
  intros Hc H. unfold contour_edges. cbv zeta.
  rewrite (@mapM_ext _ _ (fun k => u <- opt_unit (Some us) (u0 + Z.of_nat k) ;; Edge2_idx (id0 + k) (first + Z.of_nat k) (first + Z.of_nat k + 1) u verts center)
    (fun k => u <- opt_unit None (u0 + Z.of_nat k) ;; Edge2_idx (id0 + k) (first + Z.of_nat k) (first + Z.of_nat k + 1) u verts center)).
  2:{ intros k Hk. apply in_seq in Hk. destruct (H k) as (u & Hu & Ha); [lia|].
      unfold opt_unit. rewrite Hu. cbn [bind].
      rewrite Nat.mod_small in Ha by lia.
      replace (first + Z.of_nat (k + 1))%Z with (first + Z.of_nat k + 1)%Z in Ha by lia.
      apply edge_unit; auto. }
  destruct (mapM _ _) as [body|e]; cbn [bind]; auto.
  destruct (H (Z.to_nat (cnt - 1))) as (u & Hu & Ha); [lia|].
  unfold opt_unit. replace (u0 + cnt - 1)%Z with (u0 + Z.of_nat (Z.to_nat (cnt - 1)))%Z by lia. rewrite Hu. cbn [bind].
  replace (Z.to_nat (cnt - 1) + 1)%nat with (Z.to_nat cnt) in Ha by lia. rewrite Nat.mod_same in Ha by lia.
  replace (first + cnt - 1)%Z with (first + Z.of_nat (Z.to_nat (cnt - 1)))%Z by lia.
  replace (first + Z.of_nat 0)%Z with first in Ha by lia.
  rewrite (@edge_unit verts center _ _ _ u Ha). auto.
Qed.

Lemma block_edges_length first cnt : length (block_edges first cnt) = Z.to_nat cnt.
Proof. unfold block_edges. rewrite map_length, seq_length. auto. Qed.

Lemma block_edges_nth first cnt k : (k < Z.to_nat cnt)%nat ->
  nth_error (block_edges first cnt) k = Some (first + Z.of_nat k, first + Z.of_nat ((k + 1) mod Z.to_nat cnt))%Z.
Proof.
  intros H. unfold block_edges. rewrite nth_error_map.
  assert (E : nth_error (seq 0 (Z.to_nat cnt)) k = Some k).
  { rewrite (nth_error_nth' (seq 0 (Z.to_nat cnt)) 0%nat) by (rewrite seq_length; auto). rewrite seq_nth by auto. auto. }
  rewrite E. reflexivity.
Qed.

Lemma Forall2_len S T (P : S -> T -> Prop) l1 l2 : Forall2 P l1 l2 -> length l1 = length l2.
Proof. induction 1; simpl; auto. Qed.

Lemma Forall2_nth S T (P : S -> T -> Prop) l1 l2 : Forall2 P l1 l2 ->
  forall k x, nth_error l1 k = Some x -> exists y, nth_error l2 k = Some y /\ P x y.
Proof.
  induction 1 as [|a b l1 l2 H HF IH]; intros [|k] x Hx; try discriminate.
  - injection Hx as <-. exists b. simpl; auto.
  - apply (IH k); auto.
Qed.

(** a contour whose vectors start at position [length pre] of the list *)
Lemma contour_unit_at verts center pre us post id0 first cnt : (1 <= cnt)%Z ->
  Forall2 (unit_along verts) (block_edges first cnt) us ->
  contour_edges verts center (Some (pre ++ us ++ post)) (Z.of_nat (length pre)) id0 first cnt =
  contour_edges verts center None (Z.of_nat (length pre)) id0 first cnt.
Proof.
  intros Hc HF. apply contour_unit; auto. intros k Hk.
  destruct (Forall2_nth HF (block_edges_nth first Hk)) as (u & Hu & Ha). exists u. split; auto.
  replace (Z.of_nat (length pre) + Z.of_nat k)%Z with (Z.of_nat (length pre + k)) by lia.
  rewrite py_get_nat. rewrite nth_error_app2 by lia. replace (length pre + k - length pre)%nat with k by lia.
  rewrite nth_error_app1; [rewrite Hu; auto|]. apply nth_error_Some. congruence.
Qed.

Lemma contour_None verts center u0 u1 id0 first cnt :
  contour_edges (A := RA) verts center None u0 id0 first cnt = contour_edges verts center None u1 id0 first cnt.
Proof. reflexivity. Qed.

Lemma hole_None verts center holes : forall u0 u1 id0,
  hole_edges (A := RA) verts center None u0 id0 holes = hole_edges verts center None u1 id0 holes.
Proof.
  induction holes as [|[f c] t IH]; intros u0 u1 id0; simpl; auto.
  rewrite (@contour_None _ _ u0 u1). destruct (contour_edges _ _ _ u1 _ _ _); cbn [bind]; auto.
  rewrite (IH (u0 + c)%Z (u1 + c)%Z). auto.
Qed.

Lemma hole_unit verts center : forall holes pre us id0, (forall h, In h holes -> 1 <= snd h)%Z ->
  Forall2 (unit_along verts) (concat (map (fun h => block_edges (fst h) (snd h)) holes)) us ->
  hole_edges verts center (Some (pre ++ us)) (Z.of_nat (length pre)) id0 holes =
  hole_edges verts center None (Z.of_nat (length pre)) id0 holes.
Proof.
  induction holes as [|[f c] t IH]; intros pre us id0 Hh HF; simpl; auto.
  assert (Hc : (1 <= c)%Z) by (apply (Hh (f, c)); simpl; auto).
  cbn [map concat fst snd] in HF. apply Forall2_app_inv_l in HF. destruct HF as (u1 & u2 & F1 & F2 & ->).
  rewrite (@contour_unit_at verts center pre u1 u2 id0 f c Hc F1).
  destruct (contour_edges _ _ None _ _ _ _) as [es|e]; cbn [bind]; auto.
  assert (L : length u1 = Z.to_nat c).
  { apply Forall2_len in F1. rewrite block_edges_length in F1. auto. }
  replace (Z.of_nat (length pre) + c)%Z with (Z.of_nat (length (pre ++ u1))) by (rewrite app_length; lia).
  rewrite app_assoc. rewrite IH; auto. intros h Hin. apply Hh. simpl; auto.
Qed.

Lemma prepare_unit verts first cnt holes us : (1 <= cnt)%Z ->
  let hs := match holes with Some h => h | None => [] end in
  (forall h, In h hs -> 1 <= snd h)%Z ->
  Forall2 (unit_along verts) (block_edges first cnt ++ concat (map (fun h => block_edges (fst h) (snd h)) hs)) us ->
  prepare verts first cnt holes (Some us) = prepare verts first cnt holes None.
Proof.
  intros Hc hs Hh HF. unfold prepare. destruct (py_get verts first); cbn [bind]; auto.
  destruct (poly_center verts first cnt) as [center|]; cbn [bind]; auto.
  apply Forall2_app_inv_l in HF. destruct HF as (u1 & u2 & F1 & F2 & ->).
  assert (L : length u1 = Z.to_nat cnt).
  { apply Forall2_len in F1. rewrite block_edges_length in F1. auto. }
  assert (T : truthy_list (Some (u1 ++ u2)) = Some (u1 ++ u2)).
  { destruct u1; simpl; auto. simpl in L. lia. }
  cbv zeta. rewrite T. cbn [truthy_list].
  pose proof (@contour_unit_at verts center [] u1 u2 0%nat first cnt Hc F1) as G. cbn [app length Z.of_nat] in G. rewrite G. clear G.
  destruct (contour_edges _ _ None _ _ _ _) as [outer|e]; cbn [bind]; auto.
  replace cnt with (Z.of_nat (length u1)) by lia. fold hs.
  rewrite (@hole_unit verts center hs u1 u2 (length outer) Hh F2). auto.
Qed.

Lemma polygonize_unit fuel sw sch dbg verts first cnt holes hgt tan faces us : (1 <= cnt)%Z ->
  let hs := match holes with Some h => h | None => [] end in
  (forall h, In h hs -> 1 <= snd h)%Z ->
  Forall2 (unit_along verts) (block_edges first cnt ++ concat (map (fun h => block_edges (fst h) (snd h)) hs)) us ->
  polygonize fuel sw sch dbg verts first cnt holes hgt tan faces (Some us) =
  polygonize fuel sw sch dbg verts first cnt holes hgt tan faces None.
Proof.
  intros Hc hs Hh HF. unfold polygonize. rewrite (@prepare_unit verts first cnt holes us Hc Hh HF). auto.
Qed.

(** a sufficient condition without the square root *)
Lemma unit_along_intro verts i j (ax ay az bx by_ bz ux uy uz l : R) :
  py_get verts i = Ok (V3 (A := RA) ax ay az) -> py_get verts j = Ok (V3 (A := RA) bx by_ bz) ->
  1 <= l -> (bx - ax) * (bx - ax) + (by_ - ay) * (by_ - ay) = l * l -> ux * l = bx - ax -> uy * l = by_ - ay ->
  unit_along verts (i, j) (V3 (A := RA) ux uy uz).
Proof.
  intros Ha Hb Hl E Hx Hy. exists (V3 (A := RA) ax ay az), (V3 (A := RA) bx by_ bz). split; auto. split; auto.
  cbn [wx wy]. cbv zeta. rewrite E, sqrt_square by lra. split; auto.
  assert (T : / 10 ^ 35 < 1).
  { rewrite <- Rinv_1. apply Rinv_lt_contravar; [rewrite Rmult_1_l; apply pow_lt; lra|apply Rlt_pow_R1; [lra|lia]]. }
  nra.
Qed.
