(** * LavInit: the initial wavefront (bpypolyskel.py:218-237, 290-297; C33) *)

From Coq Require Import Permutation.
From Verif Require Import Py PyFacts Arith Euclid Lav LavSpec LavWalk LavWf.
Set Implicit Arguments.
Unset Strict Implicit.

Section Init.
Context {A : arith}.
Implicit Type vs : list (@lavertex A).
Implicit Type s : @slav A.
Notation edge2 := (@edge2 A).

(** the j-th vertex of a contour block starting at [off], of [m] vertices *)
Definition block_vertex vs (l off m j : nat) (pn : edge2 * edge2) : Prop :=
  nxt_of vs (off + j) = off + (if Nat.eqb (S j) m then 0 else S j) /\
  prv_of vs (off + j) = off + (if Nat.eqb j 0 then m - 1 else j - 1) /\
  same_body (getv vs (off + j))
            (with_lav (Some l) (mk_vertex 0 (ep1 (snd pn)) (fst pn) (snd pn) None false)).

Lemma mk_vertex_body i j p e1 e2 d b (l : option nat) :
  same_body (with_lav l (@mk_vertex A i p e1 e2 d b)) (with_lav l (mk_vertex j p e1 e2 d b)).
Proof. unfold mk_vertex. destruct d as [[d0 d1]|]; repeat split. Qed.

Lemma mk_vertex_links i p e1 e2 d b :
  v_next (@mk_vertex A i p e1 e2 d b) = i /\ v_prev (@mk_vertex A i p e1 e2 d b) = i.
Proof. unfold mk_vertex. destruct d as [[d0 d1]|]; auto. Qed.

Lemma getv_app_new vs v : getv (vs ++ [v]) (length vs) = v.
Proof. unfold getv. rewrite app_nth2 by lia. rewrite Nat.sub_diag. auto. Qed.

Lemma append_vertex_step vs l off m pns pn :
  length vs = off + m -> length pns = m ->
  (forall j p, nth_error pns j = Some p -> block_vertex vs l off m j p) ->
  let vs' := append_vertex l off vs pn in
  length vs' = off + S m /\
  (forall i, i < off -> getv vs' i = getv vs i) /\
  (forall j p, nth_error (pns ++ [pn]) j = Some p -> block_vertex vs' l off (S m) j p).
Proof.
  intros Hlen Hpl Hb. unfold append_vertex. rewrite Hlen.
  set (v := with_lav (Some l) (mk_vertex (off + m) (ep1 (snd pn)) (fst pn) (snd pn) None false)).
  destruct (Nat.eqb_spec (off + m) off) as [Hm|Hm].
  - assert (pns = []) by (destruct pns; [auto | simpl in Hpl; lia]). subst pns.
    simpl in Hpl. subst m. simpl. rewrite app_length. simpl. split; [lia|]. split.
    + intros i Hi. apply getv_app1. lia.
    + intros j p Hp. 
      destruct j as [|j]; [|destruct j; discriminate]. injection Hp as <-.
      assert (Hg : getv (vs ++ [v]) (off + 0) = v) by (rewrite <- Hlen at 1; apply getv_app_new).
      unfold block_vertex, nxt_of, prv_of. rewrite Hg.
      unfold v. split; [simpl; lia|]. split; [simpl; lia|]. apply mk_vertex_body.
  - assert (Hm' : 0 < m) by lia.
    assert (Htail : v_prev (getv vs off) = off + (m - 1)).
    { destruct pns as [|p0 pns']; [simpl in Hpl; lia|].
      destruct (Hb 0 p0 eq_refl) as (_ & H & _). simpl in H. unfold prv_of in H.
      rewrite Nat.add_0_r in H. auto. }
    rewrite Htail. set (tail := off + (m - 1)).
    set (v' := with_prev tail (with_next off v)). cbn zeta.
    assert (L0 : length (vs ++ [v']) = off + S m) by (rewrite app_length; simpl; lia).
    split; [rewrite !modv_length; auto|]. split.
    + intros i Hi. rewrite !getv_modv.
      destruct (Nat.eqb_spec off i); [lia|]. destruct (Nat.eqb_spec tail i); [unfold tail in *; lia|]. simpl.
      apply getv_app1. lia.
    + intros j p Hp. assert (Hj : j < S m).
      { assert (j < length (pns ++ [pn])) by (apply nth_error_Some; congruence).
        rewrite app_length in H. simpl in H. lia. }
      assert (Hold : j < m -> nth_error pns j = Some p).
      { intros H. rewrite nth_error_app1 in Hp by lia. auto. }
      assert (Hnew : j = m -> p = pn).
      { intros ->. rewrite nth_error_app2 in Hp by lia. rewrite Hpl, Nat.sub_diag in Hp. simpl in Hp. congruence. }
      unfold block_vertex.
      rewrite nxt_with_prev, nxt_with_next by lia.
      rewrite prv_with_prev by (rewrite modv_length; lia). rewrite prv_with_next.
      assert (Hbody : same_body (getv (modv off (with_prev (off + m)) (modv tail (with_next (off + m)) (vs ++ [v']))) (off + j))
                                (getv (vs ++ [v']) (off + j)))
        by (eapply same_body_trans; [apply same_body_prev | apply same_body_next]).
      destruct (Nat.eq_dec j m) as [->|Hne].
      * rewrite (Hnew eq_refl). unfold nxt_of, prv_of.
        assert (Hg : getv (vs ++ [v']) (off + m) = v') by (rewrite <- Hlen; apply getv_app_new).
        rewrite Hg in *. rewrite Nat.eqb_refl.
        destruct (Nat.eqb_spec tail (off + m)); [unfold tail in *; lia|].
        destruct (Nat.eqb_spec off (off + m)); [lia|]. destruct (Nat.eqb_spec m 0); [lia|].
        split; [simpl; lia|]. split; [simpl; unfold tail; lia|].
        eapply same_body_trans; [exact Hbody|]. unfold v', v.
        eapply same_body_trans; [|apply mk_vertex_body with (i := off + m)]. repeat split.
      * assert (Hjm : j < m) by lia. destruct (Hb j p (Hold Hjm)) as (B1 & B2 & B3).
        assert (Hg : getv (vs ++ [v']) (off + j) = getv vs (off + j)) by (apply getv_app1; lia).
        unfold nxt_of, prv_of in B1, B2 |- *. rewrite Hg in *. rewrite B1, B2.
        split; [|split].
        -- destruct (Nat.eqb_spec tail (off + j)); unfold tail in *.
           ++ destruct (Nat.eqb_spec (S j) (S m)); lia.
           ++ destruct (Nat.eqb_spec (S j) (S m)); [lia|]. destruct (Nat.eqb_spec (S j) m); lia.
        -- destruct (Nat.eqb_spec off (off + j)).
           ++ destruct (Nat.eqb_spec j 0); lia.
           ++ destruct (Nat.eqb_spec j 0); lia.
        -- eapply same_body_trans; eauto.
Qed.

Lemma append_vertices vs l off pns0 pns :
  length vs = off + length pns0 ->
  (forall j p, nth_error pns0 j = Some p -> block_vertex vs l off (length pns0) j p) ->
  let vs' := fold_left (append_vertex l off) pns vs in
  length vs' = off + length (pns0 ++ pns) /\
  (forall i, i < off -> getv vs' i = getv vs i) /\
  (forall j p, nth_error (pns0 ++ pns) j = Some p -> block_vertex vs' l off (length (pns0 ++ pns)) j p).
Proof.
  revert vs pns0. induction pns as [|pn pns IH]; intros vs pns0 Hlen Hb; simpl.
  - rewrite app_nil_r. auto.
  - destruct (append_vertex_step pn Hlen eq_refl Hb) as (S1 & S2 & S3).
    assert (HS : length (pns0 ++ [pn]) = S (length pns0)) by (rewrite app_length; simpl; lia).
    destruct (IH (append_vertex l off vs pn) (pns0 ++ [pn])) as (I1 & I2 & I3).
    + rewrite HS. auto.
    + rewrite HS. auto.
    + rewrite <- app_assoc in I1, I3. simpl in I1, I3. split; auto. split; auto.
      intros i Hi. rewrite I2 by auto. apply S2; auto.
Qed.

(** where the vertices of contour k start *)
Definition offset (contours : list (list edge2)) (k : nat) : nat := length (concat (firstn k contours)).

(** the wavefront of the contours *)
Definition wavefront_of (contours : list (list edge2)) s : Prop :=
  length (s_vs s) = length (concat contours) /\ length (s_ls s) = length contours /\
  s_act s = seq 0 (length contours) /\
  forall k c, nth_error contours k = Some c ->
    getl (s_ls s) k = LAV (offset contours k) (Z.of_nat (length c)) /\
    exists pns, circ_prev_next c = Ok pns /\
      forall j p, nth_error pns j = Some p -> block_vertex (s_vs s) k (offset contours k) (length c) j p.

Lemma offset_lt (contours : list (list edge2)) k c j :
  nth_error contours k = Some c -> j < length c -> offset contours k + j < length (concat contours).
Proof.
  intros Hk Hj. unfold offset.
  rewrite <- (firstn_skipn k contours) at 2. rewrite concat_app, app_length.
  rewrite (skipn_nth_error _ _ Hk). simpl. rewrite app_length. lia.
Qed.

Lemma block_vertex_frame vs vs' l off m j p :
  getv vs' (off + j) = getv vs (off + j) -> block_vertex vs l off m j p -> block_vertex vs' l off m j p.
Proof. intros H. unfold block_vertex, nxt_of, prv_of. rewrite H. auto. Qed.

Lemma from_polygon_step pre s c : wavefront_of pre s -> c <> [] ->
  exists s', from_polygon s c = Ok s' /\ wavefront_of (pre ++ [c]) s' /\ s_orig s' = s_orig s.
Proof.
  intros (W1 & W2 & W3 & W4) Hc. destruct (circ_prev_next_total Hc) as [pn Hpn].
  unfold from_polygon. rewrite Hpn. simpl. eexists; split; [reflexivity|]. split; auto.
  pose proof (circ_prev_next_length _ Hpn) as Hpl.
  destruct (@append_vertices (s_vs s) (length (s_ls s)) (length (s_vs s)) [] pn) as (V1 & V2 & V3);
    [simpl; lia | intros [|j] p; discriminate | simpl app in *].
  rewrite W1, W2 in V1, V2, V3. unfold wavefront_of. simpl. rewrite !W1, !W2, V1, Hpl, concat_app, !app_length, W3. simpl.
  rewrite app_nil_r.
  split; auto. split; auto. split.
  { rewrite Nat.add_1_r, seq_S. auto. }
  intros k c0 Hk.
  assert (Hkl : k < length (pre ++ [c])) by (apply nth_error_Some; congruence).
  rewrite app_length in Hkl. simpl in Hkl.
  destruct (Nat.lt_ge_cases k (length pre)) as [Hlt|Hge].
  - rewrite nth_error_app1 in Hk by auto. destruct (W4 k c0 Hk) as (G & pns & Hp & Hb).
    assert (Ho : offset (pre ++ [c]) k = offset pre k).
    { unfold offset. rewrite firstn_app. replace (k - length pre) with 0 by lia. simpl. rewrite app_nil_r. auto. }
    rewrite Ho. split; [rewrite getl_app1; auto; lia|]. exists pns. split; auto.
    intros j p Hj. eapply block_vertex_frame; [|apply Hb; auto]. apply V2.
    apply offset_lt with c0; auto.
    assert (j < length pns) by (apply nth_error_Some; congruence).
    rewrite (circ_prev_next_length _ Hp) in H. auto.
  - assert (k = length pre) by lia. subst k. rewrite nth_error_app2 in Hk by lia.
    rewrite Nat.sub_diag in Hk. injection Hk as <-.
    assert (Ho : offset (pre ++ [c]) (length pre) = length (concat pre)).
    { unfold offset. rewrite firstn_app, Nat.sub_diag, firstn_all. simpl. rewrite app_nil_r. auto. }
    rewrite Ho. split.
    + unfold getl. rewrite app_nth2 by lia. rewrite W2, Nat.sub_diag. auto.
    + exists pn. split; auto. intros j p Hj. rewrite <- Hpl. apply V3; auto.
Qed.

Lemma from_polygons_ok pre s post : wavefront_of pre s -> (forall c, In c post -> c <> []) ->
  exists s', from_polygons s post = Ok s' /\ wavefront_of (pre ++ post) s' /\ s_orig s' = s_orig s.
Proof.
  revert pre s. induction post as [|c post IH]; intros pre s Hw Hne; simpl.
  - rewrite app_nil_r. eauto.
  - destruct (@from_polygon_step pre s c Hw) as (s1 & H1 & H2 & H3). { apply Hne; left; auto. }
    rewrite H1. simpl. destruct (IH (pre ++ [c]) s1 H2) as (s2 & H4 & H5 & H6).
    { intros c' Hc'. apply Hne; right; auto. }
    exists s2. rewrite <- app_assoc in H5. simpl in H5. split; auto. split; auto. congruence.
Qed.

(** ** a wavefront is a set of rings *)
Lemma walks_seq nxt off m b : (forall j, j < m -> nxt (off + j) = off + S j) -> nxt (off + m) = b ->
  walks nxt off (seq (S off) m) b.
Proof.
  revert off. induction m as [|m IH]; intros off H Hb; simpl.
  - constructor. rewrite <- Hb. f_equal; lia.
  - constructor; [specialize (H 0 ltac:(lia)); rewrite Nat.add_0_r in H; rewrite H; lia|].
    apply IH.
    + intros j Hj. specialize (H (S j) ltac:(lia)). replace (S off + j) with (off + S j) by lia. rewrite H. lia.
    + rewrite <- Hb. f_equal; lia.
Qed.

Definition contour_ids (contours : list (list edge2)) (k : nat) : list nat :=
  seq (offset contours k) (length (nth k contours [])).

Lemma contours_nonempty_nth (contours : list (list edge2)) k : 
  (forall c, In c contours -> c <> []) -> k < length contours -> nth k contours [] <> [].
Proof. intros H Hk. apply H. apply nth_In; auto. Qed.

Lemma wavefront_lav_ok contours s k : wavefront_of contours s -> k < length contours ->
  nth k contours [] <> [] ->
  lav_ok (concat contours) (s_vs s) (s_ls s) k (contour_ids contours k).
Proof.
  intros (W1 & W2 & W3 & W4) Hk Hne.
  pose proof (nth_error_nth' contours [] Hk) as Hc. set (c := nth k contours []) in *.
  destruct (W4 k c Hc) as (G & pns & Hp & Hb). unfold contour_ids. fold c.
  set (off := offset contours k) in *.
  assert (Hl : 0 < length c) by (destruct c; [congruence|simpl; lia]).
  pose proof (circ_prev_next_length _ Hp) as Hpl.
  assert (Hbj : forall j, j < length c -> exists p, nth_error pns j = Some p /\ block_vertex (s_vs s) k off (length c) j p).
  { intros j Hj. destruct (nth_error pns j) as [p|] eqn:E; [|apply nth_error_None in E; lia].
    exists p. split; auto. }
  assert (Hnx : forall j, j < length c -> nxt_of (s_vs s) (off + j) = off + (if Nat.eqb (S j) (length c) then 0 else S j)).
  { intros j Hj. destruct (Hbj j Hj) as (p & _ & B & _). auto. }
  assert (Hpv : forall j, j < length c -> prv_of (s_vs s) (off + j) = off + (if Nat.eqb j 0 then length c - 1 else j - 1)).
  { intros j Hj. destruct (Hbj j Hj) as (p & _ & _ & B & _). auto. }
  assert (Hring : ring (nxt_of (s_vs s)) (prv_of (s_vs s)) (seq off (length c))).
  { destruct (length c) as [|n] eqn:En; [lia|]. cbn [seq]. unfold ring. fold (seq (S off) n).
    change (off :: seq (S off) n) with (seq off (S n)). split; [apply seq_NoDup|]. split.
    - apply walks_seq.
      + intros j Hj. rewrite Hnx by lia. destruct (Nat.eqb_spec (S j) (S n)); lia.
      + rewrite Hnx by lia. rewrite Nat.eqb_refl. lia.
    - intros x Hx. apply in_seq in Hx. replace x with (off + (x - off)) by lia. rewrite Hnx by lia.
      destruct (Nat.eqb_spec (S (x - off)) (S n)); rewrite Hpv by lia; simpl; lia. }
  split; [|rewrite G, seq_length; auto].
  split; auto. split; [lia|]. rewrite G. simpl. split; [apply in_seq; lia|].
  intros i Hi. apply in_seq in Hi. assert (Hj : i - off < length c) by lia.
  replace i with (off + (i - off)) by lia. set (j := i - off) in *. clearbody j. clear i Hi.
  destruct (Hbj j Hj) as (p & Hpj & B1 & B2 & B3).
  destruct (circ_prev_next_nth _ Hp Hj) as (a & b & Ha & Hbb & Hab). rewrite Hpj in Hab. injection Hab as ->.
  unfold vert_ok. destruct B3 as (C1 & C2 & C3 & C4 & C5 & _). simpl in C1, C2, C3, C4, C5.
  split; [rewrite W1; apply offset_lt with c; auto|]. split; auto. split; auto.
  assert (Hinc : forall e n0, nth_error c n0 = Some e -> In e (concat contours)).
  { intros e n0 He. apply in_concat. exists c. split; eapply nth_error_In; eauto. }
  rewrite C2, C3. split; [|split; eauto].
  rewrite Hnx by auto.
  destruct (Nat.eqb_spec (S j) (length c)) as [Hlast|Hnl].
  - destruct (Hbj 0 Hl) as (p & Hp0 & _ & _ & B0).
    destruct (circ_prev_next_nth _ Hp Hl) as (a0 & b0 & Ha0 & Hb0 & Hab0). rewrite Hp0 in Hab0. injection Hab0 as ->.
    destruct B0 as (_ & D2 & _). simpl in D2. rewrite D2. simpl.
    rewrite Nat.mod_small in Ha0 by lia. replace (0 + length c - 1) with j in Ha0 by lia. congruence.
  - assert (Hj' : S j < length c) by lia.
    destruct (Hbj (S j) Hj') as (p & Hp0 & _ & _ & B0).
    destruct (circ_prev_next_nth _ Hp Hj') as (a0 & b0 & Ha0 & Hb0 & Hab0). rewrite Hp0 in Hab0. injection Hab0 as ->.
    destruct B0 as (_ & D2 & _). simpl in D2. rewrite D2. simpl.
    replace (S j + length c - 1) with (j + 1 * length c) in Ha0 by lia.
    rewrite Nat.mod_add in Ha0 by lia. rewrite Nat.mod_small in Ha0 by lia. congruence.
Qed.

Lemma offset_S (contours : list (list edge2)) k c :
  nth_error contours k = Some c -> offset contours (S k) = offset contours k + length c.
Proof.
  intros H. unfold offset. revert k H. induction contours as [|x t IH]; intros [|k] H; try discriminate.
  - simpl in H. injection H as ->. simpl. rewrite app_nil_r. auto.
  - change (firstn (S (S k)) (x :: t)) with (x :: firstn (S k) t).
    change (firstn (S k) (x :: t)) with (x :: firstn k t). cbn [concat]. rewrite !app_length.
    simpl in H. specialize (IH k H). lia.
Qed.

Lemma offset_find (contours : list (list edge2)) i : i < length (concat contours) ->
  exists k, k < length contours /\ In i (contour_ids contours k).
Proof.
  unfold contour_ids, offset. revert i. induction contours as [|c t IH]; intros i Hi; simpl in Hi; [lia|].
  rewrite app_length in Hi. destruct (Nat.lt_ge_cases i (length c)) as [H|H].
  - exists 0. simpl. split; [lia|]. apply in_seq. lia.
  - destruct (IH (i - length c)) as (k & Hk & Hin); [lia|]. exists (S k). simpl. split; [lia|].
    rewrite app_length. apply in_seq in Hin. apply in_seq. lia.
Qed.

Lemma wavefront_wfL contours s : wavefront_of contours s -> (forall c, In c contours -> c <> []) ->
  wfL (concat contours) s (s_act s) (contour_ids contours).
Proof.
  intros W Hne. pose proof W as (W1 & W2 & W3 & W4). split; [|split].
  - rewrite W3. apply seq_NoDup.
  - rewrite W3. intros l Hl. apply in_seq in Hl. apply wavefront_lav_ok; auto; try lia.
    apply contours_nonempty_nth; auto. lia.
  - intros i Hi _. rewrite W1 in Hi. destruct (offset_find Hi) as (k & Hk & Hin). exists k.
    split; auto. rewrite W3. apply in_seq. lia.
Qed.

Lemma chain_wavefront contours s : wavefront_of contours s -> (forall c, In c contours -> c <> []) ->
  chain_list s (s_act s) = Ok (seq 0 (length (concat contours))).
Proof.
    intros H2 Hne. pose proof H2 as (W1 & W2 & W3 & W4). rewrite W3.
    assert (G : forall ks k0, seq k0 ks = seq k0 ks -> k0 + ks = length contours ->
              chain_list s (seq k0 ks) = Ok (seq (offset contours k0) (length (concat contours) - offset contours k0))).
    { induction ks as [|ks IH]; intros k0 _ Hk.
      - simpl. replace (offset contours k0) with (length (concat contours)).
        + rewrite Nat.sub_diag. auto.
        + unfold offset. rewrite firstn_all2 by lia. auto.
      - simpl. assert (Hlt : k0 < length contours) by lia.
        pose proof (wavefront_lav_ok H2 Hlt (contours_nonempty_nth Hne Hlt)) as Hok.
        pose proof (nth_error_nth' contours [] Hlt) as Hc.
        destruct (W4 _ _ Hc) as (G & _).
        assert (Hl : lav_list s k0 = Ok (contour_ids contours k0)).
        { destruct Hok as ((K1 & K2 & K3 & K5) & K4).
          destruct (ring_ok_iter (conj K1 (conj K2 (conj K3 K5)))) as (t & _ & Ht & Hr & Hp). rewrite Ht. f_equal.
          unfold contour_ids in *. rewrite G in *. simpl l_head in *.
          pose proof (contours_nonempty_nth Hne Hlt) as Hn0.
          destruct (length (nth k0 contours [])) as [|n] eqn:En; [destruct (nth k0 contours []); [congruence|discriminate]|].
          cbn [seq] in *. f_equal. destruct Hr as (N1 & N2 & _). destruct K1 as (M1 & M2 & _).
          inversion_clear N1. inversion_clear M1.
          eapply walks_det; eauto. }
        rewrite Hl. simpl. rewrite IH; auto; [|lia]. simpl. f_equal.
        unfold contour_ids. rewrite (offset_S Hc).
        set (n := length (nth k0 contours [])).
        assert (offset contours k0 + n <= length (concat contours)).
        { unfold n. rewrite <- (offset_S Hc). unfold offset.
          rewrite <- (firstn_skipn (S k0) contours) at 2. rewrite concat_app, app_length. lia. }
        replace (length (concat contours) - offset contours k0) with
          (n + (length (concat contours) - (offset contours k0 + n))) by lia.
        rewrite seq_app. auto. }
    rewrite (G (length contours) 0); auto. unfold offset. simpl. rewrite Nat.sub_0_r. auto.
Qed.

Lemma init_slav_ok contours : (forall c, In c contours -> c <> []) ->
  exists s, init_slav contours = Ok s /\ wavefront_of contours s /\
    s_orig s = map (fun i => let v := getv (s_vs s) i in
                      OrigEdge (v_eprev v) (v_bis (getv (s_vs s) (v_prev v))) (v_bis v))
                   (seq 0 (length (concat contours))).
Proof.
  intros Hne. unfold init_slav.
  destruct (@from_polygons_ok [] (SLAV [] [] [] []) contours) as (s & H1 & H2 & H3); auto.
  { repeat split; auto; destruct k; discriminate. }
  simpl in H2. rewrite H1. simpl.
  assert (Hch : chain_list s (s_act s) = Ok (seq 0 (length (concat contours)))).
  { apply chain_wavefront; auto. }
  rewrite Hch. simpl. eexists. split; [reflexivity|]. split; [exact H2|]. reflexivity.
Qed.

Lemma init_slav_err contours : (exists c, In c contours /\ c = []) -> init_slav (A := A) contours = Err ValueError.
Proof.
  intros (c & Hc & ->). unfold init_slav.
  assert (G : forall pre s, wavefront_of pre s -> from_polygons s contours = Err ValueError).
  { induction contours as [|c t IH]; [destruct Hc|]. intros pre s Hw. simpl.
    destruct c as [|e c]; [reflexivity|].
    destruct (@from_polygon_step pre s (e :: c) Hw) as (s1 & H1 & H2 & _); [discriminate|]. rewrite H1. simpl.
    destruct Hc as [Hc|Hc]; [discriminate|]. eapply IH; eauto. }
  rewrite (G [] (SLAV [] [] [] [])); auto. repeat split; auto; destruct k; discriminate.
Qed.

End Init.
