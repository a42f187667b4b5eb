(** * PolyR: heights and positions of the appended nodes, exact arithmetic *)

From Coq Require Import Permutation Reals Lra.
From Verif Require Import Py PyFacts Arith ArithR Euclid PySort Graph Lav Cluster Poly PolySpec PolyProofs PolyFaces RSpec.
Set Implicit Arguments.
Open Scope R_scope.

Lemma sum_verts_R (verts : list (vec3 RA)) : forall is acc c, sum_verts verts acc is = Ok c ->
  exists vs, mapM (py_get verts) is = Ok vs /\
    wx c = (wx acc + Rsum (map wx vs)) /\ wy c = (wy acc + Rsum (map wy vs)) /\ wz c = wz acc + Rsum (map wz vs).
Proof.
  induction is as [|i t IH]; simpl; intros acc c H.
  - apply Ok_inj in H; subst. exists []. simpl. repeat split; try lra; auto.
  - apply bind_ok in H. destruct H as (v & Hv & H). destruct (IH _ _ H) as (vs & Hvs & Hx & Hy & Hz).
    rewrite Hv; cbn [bind]. rewrite Hvs; cbn [bind]. exists (v :: vs). split; auto.
    cbn [map Rsum fold_right]. fold Rsum. unfold Rsum in *.
    rewrite Hx, Hy, Hz. runfold. repeat split; lra.
Qed.

Lemma mapM_block (verts : list (vec3 RA)) first cnt vs : (0 <= first)%Z ->
  mapM (py_get verts) (zrange first (first + cnt)) = Ok vs -> block_verts verts first cnt vs.
Proof.
  intros Hf H. assert (Hl := mapM_length _ _ H). rewrite zrange_length in Hl.
  replace (first + cnt - first)%Z with cnt in Hl by lia. split; auto.
  intros k Hk. apply mapM_ok in H.
  assert (Hz : nth_error (zrange first (first + cnt)) k = Some (first + Z.of_nat k)%Z).
  { apply zrange_nth. replace (first + cnt - first)%Z with cnt by lia. lia. }
  destruct (Forall2_nth _ H Hz) as (v & Hv & Hg). rewrite Hv.
  rewrite py_get_nonneg in Hg by lia. apply of_option_ok in Hg. rewrite <- Hg. f_equal. lia.
Qed.

Lemma nofZ_R z : @nofZ RA z = IZR z.
Proof. unfold nofZ. simpl. lra. Qed.

Lemma poly_center_R (verts : list (vec3 RA)) first cnt c : (0 <= first)%Z -> (1 <= cnt)%Z ->
  poly_center verts first cnt = Ok c ->
  exists vs, block_verts verts first cnt vs /\ wx c = Rmean (map wx vs) /\ wy c = Rmean (map wy vs) /\ wz c = 0.
Proof.
  intros Hf Hc H. unfold poly_center in H. apply bind_ok in H. destruct H as (s & Hs & H).
  apply sum_verts_R in Hs. destruct Hs as (vs & Hvs & Hx & Hy & _).
  assert (Hb := mapM_block _ _ Hf Hvs). destruct Hb as [Hl Hb].
  cbv zeta in H. rewrite nofZ_R in H. change (rnd (IZR cnt : num RA)) with (IZR cnt : num RA) in H.
  destruct (neqb (IZR cnt : num RA) zeroN); [discriminate|]. apply Ok_inj in H; subst c.
  exists vs. split; [split; auto|]. cbn [wx wy wz mkvec3]. rewrite Hx, Hy.
  unfold Rmean. rewrite !map_length, Hl, INR_IZR_INZ, Z2Nat.id by lia.
  runfold. repeat split; try (f_equal; lra); lra.
Qed.

Lemma skeleton_node3D_R (center : vec3 RA) ta zb a :
  skeleton_node3D center ta zb a = @V3 RA (vx (source a) + wx center) (vy (source a) + wy center)
                                          (height a * ta + zb + wz center).
Proof. reflexivity. Qed.

Lemma max_height_R (sk : list (@subtree RA)) m : max_height sk = Ok m ->
  (exists a, In a sk /\ height a = m) /\ (forall a, In a sk -> height a <= m).
Proof.
  unfold max_height. destruct (map (@height RA) sk) as [|h t] eqn:E; [discriminate|]. intros H; apply Ok_inj in H.
  rewrite <- H. clear H m. set (m := first_best _ h t). split.
  - assert (Hin : In m (h :: t)) by apply first_best_in. rewrite <- E in Hin. apply in_map_iff in Hin.
    destruct Hin as (a & Ha & Hin). eauto.
  - intros a Ha. apply (in_map (@height RA)) in Ha. rewrite E in Ha.
    assert (K : ngtb (A := RA) (height a) m = false).
    { unfold m. apply (@first_best_best R (fun x best => ngtb (A := RA) x best)); auto; unfold ngtb; simpl; intros.
      - rewrite Rltb_lt in *. rewrite Rltb_ge in *. lra.
      - rewrite Rltb_ge. rewrite Rltb_lt in *. lra. }
    unfold ngtb in K; simpl in K. rewrite Rltb_ge in K; auto.
Qed.

Lemma slope_R (sk : list (@subtree RA)) hgt tan ta : slope sk hgt tan = Ok ta -> slope_spec sk hgt tan ta.
Proof.
  unfold slope. rewrite ntruth_R. destruct (Reqb_spec hgt 0) as [->|Hn]; simpl; intros H.
  - apply Ok_inj in H. split; auto. intros; congruence.
  - apply bind_ok in H. destruct H as (m & Hm & H). rewrite pdiv_R in H.
    destruct (Reqb_spec m 0); [discriminate|]. apply Ok_inj in H. split; [congruence|]. intros _.
    apply max_height_R in Hm. exists m. destruct Hm. auto.
Qed.

Lemma polygonize_nodes_R fuel sw sch (verts : list (vec3 RA)) first cnt holes hgt tan faces us fs :
  (0 <= first)%Z -> (1 <= cnt)%Z ->
  let o := polygonize fuel sw sch true verts first cnt holes hgt tan faces us in
  o_result o = Ok fs ->
  exists sk nodes vs v0 ta,
    o_debug o = Some sk /\ o_verts o = verts ++ nodes /\
    block_verts verts first cnt vs /\ nth_error vs 0 = Some v0 /\ slope_spec sk hgt tan ta /\
    Forall2 (fun (a : @subtree RA) (w : vec3 RA) => wx w = vx (source a) + Rmean (map wx vs) /\ wy w = vy (source a) + Rmean (map wy vs) /\
                        wz w = wz v0 + height a * ta) sk nodes.
Proof.
  intros Hf Hc o Hr.
  destruct (polygonize_exits fuel sw sch true verts first cnt holes hgt tan faces us)
    as [(e & E)|(zBase & center & contours & sk & Hp & Hs & [(e & _ & E)|(ta & Ht & [(e & _ & E)|(fs' & Hrf & E)])])];
    fold o in E; rewrite E in Hr; simpl in Hr; try discriminate.
  apply prepare_ok in Hp. destruct Hp as ((v0 & Hv0 & ->) & Hcen & _).
  apply poly_center_R in Hcen; auto. destruct Hcen as (vs & Hb & Hx & Hy & Hz).
  exists sk, (map (skeleton_node3D center ta (wz v0)) sk), vs, v0, ta.
  rewrite E; cbn [o_debug o_verts]. split; auto. split; auto. split; auto. split.
  - destruct Hb as [Hl Hb]. rewrite Hb by lia. rewrite py_get_nonneg in Hv0 by auto.
    apply of_option_ok in Hv0. rewrite Nat.add_0_r; auto.
  - split; [apply slope_R; auto|]. rewrite <- Hx, <- Hy. clear -Hz.
    induction sk as [|a t IH]; simpl; constructor; auto.
    rewrite skeleton_node3D_R. simpl. repeat split; auto. rewrite Hz. lra.
Qed.

Lemma ridge_height (sk : list (@subtree RA)) nodes (v0 : vec3 RA) hgt tan ta :
  0 < hgt -> (forall a, In a sk -> 0 <= height a) -> slope_spec sk hgt tan ta ->
  Forall2 (fun (a : @subtree RA) (w : vec3 RA) => wz w = wz v0 + height a * ta) sk nodes ->
  (forall w : vec3 RA, In w nodes -> wz w <= wz v0 + hgt) /\ exists w, In w nodes /\ wz w = wz v0 + hgt.
Proof.
  intros Hh Hpos [_ Hs] HF. destruct Hs as (m & (a0 & Ha0 & Hm) & Hmax & Hm0 & Hta); [lra|].
  assert (0 < m). { specialize (Hpos a0 Ha0). lra. }
  split.
  - intros w Hw. destruct (Forall2_In_r _ HF Hw) as (a & Ha & Hz). rewrite Hz, Hta.
    specialize (Hmax a Ha). apply Rplus_le_compat_l.
    replace hgt with (m * (hgt / m)) at 2 by (field; lra).
    apply Rmult_le_compat_r; auto. apply Rlt_le, Rdiv_lt_0_compat; auto.
  - destruct (Forall2_In_l _ HF Ha0) as (w & Hw & Hz). exists w; split; auto. rewrite Hz, Hm, Hta.
    assert (E : m * (hgt / m) = hgt) by (field; lra). rewrite E; auto.
Qed.
