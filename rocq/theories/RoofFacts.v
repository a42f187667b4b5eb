(** * RoofFacts: indices and heights of the roof, exact arithmetic *)

From Coq Require Import Reals Lra.
From Verif Require Import Py PyFacts Arith ArithR RSpec Euclid Graph Lav Cluster ClusterSpec Poly PolySpec PolyProofs PolyFaces PolyR MergeR.
Set Implicit Arguments.
Unset Strict Implicit.

Lemma closed_no_bad_sink (contours : list (list (@edge2 RA))) sk i :
  closed (map (@ep1 RA) (concat contours)) sk -> ~ bad_sink (concat contours) sk i.
Proof.
  intros Hc (_ & a & s & Ha & Hs & Hk). apply Hk. destruct (Hc a s Ha Hs) as [K|(b & Hb & K)].
  - left. apply in_map_iff in K as (e & <- & He). exists e. split; auto. apply veq_R; auto.
  - right. exists b. split; auto. apply veq_R; auto.
Qed.

Lemma face_indices_R fuel sw sch dbg (verts : list (vec3 RA)) first cnt holes hgt tan us fs :
  let hs := match holes with Some h => h | None => [] end in
  (0 <= first)%Z -> (1 <= cnt)%Z -> (forall h, In h hs -> 0 <= fst h /\ 1 <= snd h)%Z ->
  let o := polygonize fuel sw sch dbg verts first cnt holes hgt tan None us in
  o_result o = Ok fs ->
  forall f i, In f fs -> In i f ->
    (in_blocks first cnt hs i /\ 0 <= i < Z.of_nat (length verts))%Z \/
    (Z.of_nat (length verts) <= i < Z.of_nat (length (o_verts o)))%Z.
Proof.
  intros hs Hf Hc Hh o Hr f i Hif Hi.
  destruct (@polygonize_face_indices RA fuel sw sch dbg verts first cnt holes hgt tan us fs Hf Hc Hh Hr) as (contours & sk & zb & ce & _ & Hs & Hl & Hb & Hx).
  fold o in Hl. destruct (Hx f i Hif Hi) as [K|[K|K]].
  - left. split; auto.
  - right. unfold node_index in K. lia.
  - exfalso. eapply closed_no_bad_sink; eauto. eapply skeletonize_closed_R; eauto.
Qed.

Open Scope R_scope.

Lemma roof_nodes_R fuel sw sch (verts : list (vec3 RA)) first cnt holes hgt tan faces us fs :
  (0 <= first)%Z -> (1 <= cnt)%Z ->
  let o := polygonize fuel sw sch true verts first cnt holes hgt tan faces us in
  o_result o = Ok fs ->
  exists sk nodes v0 ta,
    o_debug o = Some sk /\ o_verts o = verts ++ nodes /\ nth_error verts (Z.to_nat first) = Some v0 /\
    slope_spec sk hgt tan ta /\ (forall a, In a sk -> 0 <= height a) /\
    Forall2 (fun (a : @subtree RA) (w : vec3 RA) => wz w = wz v0 + height a * ta) sk nodes.
Proof.
  intros Hf Hc o Hr. assert (Hr' := Hr).
  destruct (polygonize_exits fuel sw sch true verts first cnt holes hgt tan faces us)
    as [(e & E)|(zBase & center & contours & sk & Hp & Hs & [(e & _ & E)|(ta & Ht & [(e & _ & E)|(fs' & Hrf & E)])])];
    fold o in E; rewrite E in Hr'; simpl in Hr'; try discriminate. clear Hr'.
  destruct (@polygonize_nodes_R fuel sw sch verts first cnt holes hgt tan faces us fs Hf Hc Hr) as (sk2 & nodes & vs & v0 & ta' & D & V & B & N & S & F). fold o in D, V.
  assert (sk2 = sk) by (rewrite E in D; cbn [o_debug] in D; congruence). subst sk2.
  exists sk, nodes, v0, ta'. split; auto. split; auto. split.
  { destruct B as [L B]. rewrite <- N, B; [f_equal; lia|]. apply nth_error_Some; congruence. }
  split; auto. split; [eapply skeletonize_heights_R; eauto|].
  clear -F. induction F as [|a w l l' (H1 & H2 & H3) H IH]; constructor; auto.
Qed.

Lemma roof_nonneg sk (nodes : list (vec3 RA)) (v0 : vec3 RA) hgt tan ta :
  0 <= hgt -> 0 <= tan -> slope_spec sk hgt tan ta -> (forall a, In a sk -> 0 <= height a) ->
  Forall2 (fun (a : @subtree RA) (w : vec3 RA) => wz w = wz v0 + height a * ta) sk nodes ->
  forall w, In w nodes -> wz v0 <= wz w.
Proof.
  intros Hh Ht [S1 S2] Hp F w Hw. destruct (Forall2_In_r _ F Hw) as (a & Ha & ->).
  assert (0 <= ta).
  { destruct (Req_dec hgt 0) as [K|K]; [rewrite S1; auto|]. destruct (S2 K) as (m & (b & Hb & <-) & _ & Hm & ->).
    apply Hp in Hb. apply Rle_mult_inv_pos; lra. }
  specialize (Hp a Ha). assert (0 <= height a * ta) by (apply Rmult_le_pos; auto). simpl in *. lra.
Qed.

Lemma debug_irrelevant (A : arith) fuel sw sch (verts : list (vec3 A)) first cnt holes hgt tan faces us :
  let o b := polygonize fuel sw sch b verts first cnt holes hgt tan faces us in
  o_result (o true) = o_result (o false) /\ o_verts (o true) = o_verts (o false) /\ o_faces (o true) = o_faces (o false).
Proof.
  cbv zeta. unfold polygonize.
  destruct (p <- prepare _ _ _ _ _ ;; _) as [[[[zb ce] co] sk]|e]; [|auto].
  destruct (slope sk hgt tan); [|auto]. cbv zeta. destruct (roof_faces _ _ _ _ _ _ _ _ _); [|auto]. destruct faces; auto.
Qed.

(** C05 and the height part of C26 *)
Lemma ridge_R fuel sw sch dbg (verts : list (vec3 RA)) first cnt holes hgt tan faces us fs :
  (0 <= first)%Z -> (1 <= cnt)%Z ->
  let o := polygonize fuel sw sch dbg verts first cnt holes hgt tan faces us in
  o_result o = Ok fs ->
  exists nodes v0, o_verts o = verts ++ nodes /\ nth_error verts (Z.to_nat first) = Some v0 /\
    (0 < hgt -> (forall w : vec3 RA, In w nodes -> wz w <= wz v0 + hgt) /\ exists w, In w nodes /\ wz w = wz v0 + hgt) /\
    (0 <= hgt -> 0 <= tan -> forall w : vec3 RA, In w nodes -> wz v0 <= wz w).
Proof.
  intros Hf Hc o Hr.
  assert (Hd : o_result (polygonize fuel sw sch true verts first cnt holes hgt tan faces us) = o_result o /\
               o_verts (polygonize fuel sw sch true verts first cnt holes hgt tan faces us) = o_verts o).
  { unfold o. destruct dbg; auto. destruct (debug_irrelevant fuel sw sch verts first cnt holes hgt tan faces us) as (K1 & K2 & _). auto. }
  destruct Hd as [D1 D2]. rewrite Hr in D1.
  destruct (@roof_nodes_R fuel sw sch verts first cnt holes hgt tan faces us fs Hf Hc D1) as (sk & nodes & v0 & ta & _ & V & N & S & P & F).
  exists nodes, v0. rewrite <- D2. split; auto. split; auto. split.
  - intros Hh. eapply ridge_height; eauto.
  - intros Hh Ht. exact (roof_nonneg Hh Ht S P F).
Qed.
