(** * OrderProofs: what of a roof can depend on the order of Python's sets *)

From Coq Require Import ZArith List Lia Permutation Bool.
From Verif Require Import Py PyFacts Arith PySort Euclid Lav Cluster Graph GraphSpec GraphProofs Poly PolySpec PolyProofs PolyFaces BorderSpec BorderProofs BorderCases CleanSpec CleanProofs SpikeEnd TurnPoly OrderSpec.
Set Implicit Arguments.
Unset Strict Implicit.
Local Open Scope nat_scope.

(** ** rotations *)
Lemma consecutive_rotation f g p t n : rotation_of f g -> consecutive f p t n -> consecutive g p t n.
Proof. intros R (u & K). exists u. eapply rotation_of_trans; [apply rotation_of_sym; eauto|auto]. Qed.

Lemma rotation_filter T (q : T -> bool) f g : rotation_of f g -> rotation_of (filter q f) (filter q g).
Proof. intros (a & b & -> & ->). rewrite !filter_app. exists (filter q a), (filter q b). auto. Qed.

Lemma rotation_length T (f g : list T) : rotation_of f g -> length f = length g.
Proof. intros H. apply Permutation_length, rotation_of_perm, H. Qed.

Definition kept (s : list Z) (v : Z) : bool := if in_dec Z.eq_dec v s then true else false.

Lemma kept_in s v : kept s v = true <-> In v s.
Proof. unfold kept. destruct (in_dec Z.eq_dec v s); split; intros; auto; discriminate. Qed.

Lemma subsequence_kept s l : subsequence s l -> NoDup l -> filter (kept s) l = s.
Proof.
  intros H. induction H as [|x s l H IH|x s l H IH]; intros N; auto.
  - inversion N as [|? ? N1 N2]; subst. cbn [filter]. replace (kept (x :: s) x) with true by (symmetry; apply kept_in; left; auto).
    f_equal. rewrite <- (IH N2) at 2. apply filter_ext_in. intros y Hy.
    destruct (kept s y) eqn:E; [apply kept_in; right; apply kept_in; auto|]. destruct (kept (x :: s) y) eqn:E'; auto.
    apply kept_in in E' as [<-|E']; [tauto|]. apply kept_in in E'. congruence.
  - inversion N as [|? ? N1 N2]; subst. cbn [filter]. destruct (kept s x) eqn:E; auto.
    exfalso. apply N1. apply kept_in in E. eapply subsequence_In; eauto.
Qed.

Section Any.
Context {A : arith}.
Variable verts : list (vec3 A).
Variable nr : Z.

(** ** spikes *)
Definition smooth (f : list Z) : Prop := 3 < length f -> forall p t n, consecutive f p t n -> is_spike verts (p, t, n) = Ok false.

Lemma pass_smooth F : plain_faces verts F -> forall fis o, spike_pass verts nr F fis = Ok o ->
  o = None /\ forall i f, In i fis -> nth_error F i = Some f -> smooth f.
Proof.
  intros P. induction fis as [|fi u IH]; intros o H; cbn [spike_pass] in H; cbv zeta in H; [apply Ok_inj in H; subst; split; auto; intros i f []|].
  destruct (Nat.leb_spec (length (nth fi F [])) 3) as [L|L].
  - destruct (IH _ H) as [-> K]. split; auto. intros i f [->|Hi] Hf; [|eapply K; eauto]. rewrite (nth_nth_error _ _ _ Hf) in L. intros L'. lia.
  - apply bind_ok in H as (ptn & Hptn & H). apply bind_ok in H as (sp & Hsp & H). 
    assert (I : In (nth fi F []) F) by (apply nth_In; destruct (Nat.lt_ge_cases fi (length F)); auto; rewrite nth_overflow in L by auto; simpl in L; lia).
    destruct sp as [[[p t] n]|].
    + exfalso. apply find_spike_in in Hsp as [S1 S2]. apply (proj2 (P _ I) p t n); [eapply corner_consecutive; eauto; lia|apply is_spike_spiky; auto].
    + destruct (IH _ H) as [-> K]. split; auto. intros i f [->|Hi] Hf; [|eapply K; eauto]. rewrite (nth_nth_error _ _ _ Hf) in Hptn. intros _ p t n Hc.
      apply (find_spike_none Hsp). eapply consecutive_corner; eauto.
Qed.

Lemma smooth_pass F : (forall f, In f F -> smooth f) -> forall fis, spike_pass verts nr F fis = Ok None.
Proof.
  intros P. induction fis as [|fi u IH]; auto. cbn [spike_pass]. cbv zeta.
  destruct (Nat.leb_spec (length (nth fi F [])) 3) as [L|L]; auto.
  assert (I : In (nth fi F []) F) by (apply nth_In; destruct (Nat.lt_ge_cases fi (length F)); auto; rewrite nth_overflow in L by auto; simpl in L; lia).
  destruct (circ_prev_this_next (nth fi F [])) as [ptn|e] eqn:E.
  - cbn [bind]. assert (N : find_spike verts ptn = Ok None).
    { assert (K : forall x, In x ptn -> is_spike verts x = Ok false).
      { intros [[p t] n] Hx. apply (P _ I); auto. eapply corner_consecutive; eauto. lia. }
      clear - K. induction ptn as [|x l IH]; auto. cbn [find_spike]. rewrite K by (left; auto). cbn [bind]. apply IH. intros; apply K; right; auto. }
    rewrite N. cbn [bind]. auto.
  - apply circ_prev_this_next_err in E as [_ E]. rewrite E in L. simpl in L. lia.
Qed.

Lemma spikes_plain F F1 : plain_faces verts F -> remove_spikes verts nr F = Ok F1 -> F1 = F /\ forall f, In f F -> smooth f.
Proof.
  unfold remove_spikes. cbn [spike_loop]. intros P H. apply bind_ok in H as (o & Ho & H). destruct (pass_smooth P Ho) as [-> K].
  apply Ok_inj in H. split; auto. intros f Hf. apply In_nth_error in Hf as (i & Hi). apply (K i); auto. apply in_seq.
  assert (i < length F) by (apply nth_error_Some; congruence). lia.
Qed.

Lemma plain_spikes F : (forall f, In f F -> smooth f) -> remove_spikes verts nr F = Ok F.
Proof. intros H. unfold remove_spikes. cbn [spike_loop]. rewrite smooth_pass by auto. auto. Qed.

Lemma smooth_rotation f g : rotation_of f g -> smooth f -> smooth g.
Proof.
  intros R H L p t n K. apply H; [rewrite (rotation_length R); auto|]. eapply consecutive_rotation; [apply rotation_of_sym; eauto|auto].
Qed.

(** ** straight corners *)
Variable counts : Z -> nat.

Lemma parallel_at_any acc acc' x y : parallel_at verts counts nr acc x = Ok y -> exists y', parallel_at verts counts nr acc' x = Ok y'.
Proof.
  destruct x as [[p t] n]. unfold parallel_at. destruct (_ && _); [|eauto]. intros H.
  apply bind_ok in H as (vt & Ht & H). apply bind_ok in H as (vp & Hp & H). apply bind_ok in H as (vn & Hn & H).
  rewrite Ht, Hp, Hn. cbn [bind]. cbv zeta in *. destruct (_ && _); [|eauto].
  apply bind_ok in H as (c & Hc & H). rewrite Hc. cbn [bind]. eauto.
Qed.

Lemma parallel_scan_each : forall l acc rm, parallel_scan verts counts nr acc l = Ok rm -> forall x, In x l -> exists y, parallel_at verts counts nr [] x = Ok y.
Proof.
  induction l as [|x l IH]; intros acc rm H z Hz; [destruct Hz|]. cbn [parallel_scan] in H. apply bind_ok in H as (acc' & Ha & H). destruct Hz as [<-|Hz]; [|eapply IH; eauto].
  eapply parallel_at_any; eauto.
Qed.

Lemma parallel_scan_total : forall l acc, (forall x, In x l -> exists y, parallel_at verts counts nr [] x = Ok y) -> exists rm, parallel_scan verts counts nr acc l = Ok rm.
Proof.
  induction l as [|x l IH]; intros acc H; cbn [parallel_scan]; [eauto|]. destruct (H x (or_introl eq_refl)) as (y & Hy).
  destruct (parallel_at_any acc Hy) as (y' & Hy'). rewrite Hy'. cbn [bind]. apply IH. intros; apply H; right; auto.
Qed.

Lemma fix_parallel_rotation f g f1 : NoDup f -> rotation_of f g -> fix_parallel verts counts nr f = Ok f1 ->
  exists g1, fix_parallel verts counts nr g = Ok g1 /\ rotation_of f1 g1.
Proof.
  intros N R H. assert (Ng : NoDup g) by (eapply Permutation_NoDup; [apply rotation_of_perm; eauto|auto]). pose proof (rotation_length R) as EL.
  assert (T : exists g1, fix_parallel verts counts nr g = Ok g1).
  { unfold fix_parallel in *. rewrite <- EL. destruct (Nat.ltb_spec 3 (length f)) as [L|L]; [|eauto].
    apply bind_ok in H as (ptn & Hptn & H). apply bind_ok in H as (rm & Hrm & H).
    destruct (circ_prev_this_next g) as [ptn'|e] eqn:E; [|apply circ_prev_this_next_err in E as [_ E]; rewrite E in EL; simpl in EL; lia].
    cbn [bind]. destruct (@parallel_scan_total ptn' []) as (rm' & Hrm').
    { intros [[p t] n] Hx. apply (parallel_scan_each Hrm). eapply consecutive_corner; eauto. eapply consecutive_rotation; [apply rotation_of_sym; eauto|].
      eapply corner_consecutive; eauto. lia. }
    rewrite Hrm'. cbn [bind]. apply py_remove_all_total. intros v.
    apply parallel_scan_ok in Hrm' as (ext & -> & Hs & _). cbn [app]. rewrite (circ_ptn_this _ E) in Hs. apply subsequence_count. auto. }
  destruct T as (g1 & Hg). exists g1. split; auto.
  apply fix_parallel_exact in H as [S1 K1]; auto. apply fix_parallel_exact in Hg as [S2 K2]; auto.
  rewrite <- (subsequence_kept S1 N), <- (subsequence_kept S2 Ng).
  rewrite (filter_ext_in (kept g1) (kept f1) g); [apply rotation_filter; auto|].
  intros v Hv. assert (Hf : In v f) by (eapply Permutation_in; [apply Permutation_sym, rotation_of_perm; eauto|auto]).
  specialize (K1 v Hf). specialize (K2 v Hv). rewrite <- EL in K2.
  assert (Q : (exists p n, consecutive f p v n /\ to_drop verts nr counts p v n) <-> (exists p n, consecutive g p v n /\ to_drop verts nr counts p v n)).
  { split; intros (p & n & C & D); exists p, n; split; auto; eapply consecutive_rotation; eauto. apply rotation_of_sym; auto. }
  rewrite <- Q in K2. clear Q.
  destruct (kept g1 v) eqn:E, (kept f1 v) eqn:E'; auto; exfalso.
  - apply kept_in in E. assert (~ In v f1) by (rewrite <- kept_in; congruence). tauto.
  - apply kept_in in E'. assert (~ In v g1) by (rewrite <- kept_in; congruence). tauto.
Qed.

Lemma fix_identical_rotation f g f1 : NoDup f -> rotation_of f g -> fix_identical f = Ok f1 -> exists g1, fix_identical g = Ok g1 /\ rotation_of f1 g1.
Proof.
  intros N R H. assert (Ng : NoDup g) by (eapply Permutation_NoDup; [apply rotation_of_perm; eauto|auto]). pose proof (rotation_length R) as EL.
  assert (Hne : g <> []).
  { intros ->. destruct f; [|discriminate]. discriminate. }
  destruct (fix_identical_total Hne) as (g1 & Hg). exists g1. split; auto.
  apply fix_identical_exact in H as [[-> L]|[-> L]]; auto; apply fix_identical_exact in Hg as [[-> L']|[-> L']]; auto; try lia. apply rotation_of_refl.
Qed.
End Any.

Section Clean.
Context {A : arith}.
Variable verts : list (vec3 A).
Variable nr : Z.

Lemma same_concat F F' : same_faces F F' -> Permutation (concat F) (concat F').
Proof.
  intros (F'' & P & H). transitivity (concat F'').
  - clear P. induction H as [|f g F G R H IH]; auto. cbn [concat]. apply Permutation_app; auto. apply rotation_of_perm; auto.
  - clear - P. induction P; cbn [concat]; auto; [apply Permutation_app; auto| |etransitivity; eauto].
    + rewrite !app_assoc. apply Permutation_app; auto. apply Permutation_app_comm.
Qed.

Lemma same_each F F' g : same_faces F F' -> In g F' -> exists f, In f F /\ rotation_of f g.
Proof. intros (F'' & P & H) Hg. apply (Permutation_in _ P) in Hg. apply (Forall2_In_r _ H Hg). Qed.

Lemma mapM_perm T U (f : T -> res U) l l' r : Permutation l l' -> mapM f l = Ok r -> exists r', mapM f l' = Ok r' /\ Permutation r r'.
Proof.
  intros P. revert r. induction P as [|x l l' P IH|x y l|l l' l'' P1 IH1 P2 IH2]; intros r H.
  - exists r. auto.
  - cbn [mapM] in *. apply bind_ok in H as (a & Ha & H). apply bind_ok in H as (t & Ht & H). apply Ok_inj in H. subst.
    destruct (IH _ Ht) as (t' & Ht' & Pt). rewrite Ha, Ht'. cbn [bind]. eexists. split; [reflexivity|]. auto.
  - cbn [mapM] in *. apply bind_ok in H as (a & Ha & H). apply bind_ok in H as (t & Ht & H). apply Ok_inj in H. subst.
    apply bind_ok in Ht as (b & Hb & H). apply bind_ok in H as (t' & Ht' & H). apply Ok_inj in H. subst.
    rewrite Ha, Hb, Ht'. cbn [bind]. eexists. split; [reflexivity|]. apply perm_swap.
  - destruct (IH1 _ H) as (r1 & H1 & Q1). destruct (IH2 _ H1) as (r2 & H2 & Q2). exists r2. split; auto. etransitivity; eauto.
Qed.

Lemma clean_same F F' R : (forall f, In f F -> NoDup f) -> same_faces F F' -> clean_faces verts nr F = Ok R ->
  exists R', clean_faces verts nr F' = Ok R' /\ same_faces R R'.
Proof.
  intros N S H. pose proof (same_concat S) as PC. unfold clean_faces in *. cbv zeta in *.
  set (fx := fun face => f1 <- fix_parallel verts (fun v => count_b (Z.eqb v) (concat F)) nr face ;; fix_identical f1) in *.
  assert (E : forall l, mapM (fun face => f1 <- fix_parallel verts (fun v => count_b (Z.eqb v) (concat F')) nr face ;; fix_identical f1) l = mapM fx l).
  { intros l. apply mapM_ext. intros f _. unfold fx. f_equal. unfold fix_parallel. destruct (Nat.ltb _ _); auto. destruct (circ_prev_this_next f) as [ptn|]; cbn [bind]; auto.
    f_equal. generalize (@nil Z) at 1 2. induction ptn as [|[[p t] n] u IH]; intros acc; cbn [parallel_scan]; auto.
    assert (Q : parallel_at verts (fun v => count_b (Z.eqb v) (concat F')) nr acc (p, t, n) = parallel_at verts (fun v => count_b (Z.eqb v) (concat F)) nr acc (p, t, n)).
    { unfold parallel_at. replace (count_b (Z.eqb t) (concat F')) with (count_b (Z.eqb t) (concat F)); [reflexivity|].
      rewrite !count_b_occ. apply (proj1 (Permutation_count_occ Z.eq_dec _ _) PC t). }
    rewrite Q. clear Q. destruct (parallel_at _ _ _ _ _); cbn [bind]; auto. }
  rewrite E. clear E PC. unfold fx in *. clear fx. revert H. generalize (fun v => count_b (Z.eqb v) (concat F)). intros cn H.
  set (fx := fun face => f1 <- fix_parallel verts cn nr face ;; fix_identical f1) in *. destruct S as (F'' & P & RF).
  assert (K : exists R'', mapM fx F'' = Ok R'' /\ Forall2 (@rotation_of Z) R R'').
  { clear P. revert R H N. induction RF as [|f g F1 G Rfg HF IH]; intros R H N.
    - exists []. apply Ok_inj in H. subst. auto.
    - cbn [mapM] in H. apply bind_ok in H as (a & Ha & H). apply bind_ok in H as (t & Ht & H). apply Ok_inj in H. subst.
      destruct (IH _ Ht) as (t' & Ht' & Rt); [intros; apply N; right; auto|]. unfold fx in Ha. apply bind_ok in Ha as (f1 & Hf & Ha).
      assert (Nf : NoDup f) by (apply N; left; auto).
      destruct (fix_parallel_rotation Nf Rfg Hf) as (g1 & Hg & R1).
      destruct (@fix_identical_rotation f1 g1 a) as (g2 & Hg2 & R2); auto.
      { apply fix_parallel_exact in Hf as [S1 _]; auto. eapply NoDup_subsequence; eauto. }
      cbn [mapM]. unfold fx at 1. rewrite Hg. cbn [bind]. rewrite Hg2. cbn [bind]. rewrite Ht'. cbn [bind]. eexists. split; [reflexivity|]. constructor; auto. }
  destruct K as (R'' & K & KR). destruct (mapM_perm (Permutation_sym P) K) as (R' & HR & PR). exists R'. split; auto. exists R''. split; auto. apply Permutation_sym; auto.
Qed.

(** ** the embedding *)
Lemma embedding_find g emb v : circular_embedding g verts true = Ok emb ->
  match dict_find g v with Some ns => exists l, py_sorted (angle_lt verts v) ns = Ok l /\ neighbours emb v = l | None => neighbours emb v = [] end.
Proof.
  revert emb. induction g as [|[k ks] g IH]; intros emb He.
  - apply Ok_inj in He. subst. reflexivity.
  - unfold circular_embedding in He. cbn [mapM fst snd] in He. destruct (py_sorted (angle_lt verts k) ks) as [kl|] eqn:Ek; [|discriminate].
    cbn [bind] in He. apply bind_ok in He as (rest & Hr & He). apply Ok_inj in He. subst emb. unfold neighbours. cbn [dict_find].
    destruct (Z.eqb_spec k v) as [->|Hk]; [eauto|]. apply (IH rest); auto.
Qed.

Lemma embedding_order sw sw' es emb : circular_embedding (build sw es) verts true = Ok emb ->
  exists emb', circular_embedding (build sw' es) verts true = Ok emb' /\ forall v, neighbours emb v = neighbours emb' v.
Proof.
  intros H.
  assert (S : forall s1 s2 k l, dict_find (build s1 es) k = Some l -> dict_find (build s2 es) k = Some l).
  { intros s1 s2 k l D. assert (N : neighbours (build s2 es) k = l) by (rewrite neighbours_build, <- (neighbours_build s1); unfold neighbours; rewrite D; auto).
    unfold neighbours in N. destruct (dict_find (build s2 es) k) as [m|]; [congruence|]. exfalso.
    apply dict_find_In in D. apply build_keys_nonempty in D. congruence. }
  assert (T : exists emb', circular_embedding (build sw' es) verts true = Ok emb').
  { apply mapM_total. intros [k l] I. cbn [fst snd]. apply In_dict_find in I; [|apply keys_build]. apply (S _ sw) in I.
    pose proof (embedding_find k H) as K. rewrite I in K. destruct K as (m & Hm & _). rewrite Hm. cbn [bind]. eauto. }
  destruct T as (emb' & H'). exists emb'. split; auto. intros v. pose proof (embedding_find v H) as K1. pose proof (embedding_find v H') as K2.
  destruct (dict_find (build sw es) v) as [l|] eqn:D.
  - rewrite (S _ sw' _ _ D) in K2. destruct K1 as (m & M1 & ->). destruct K2 as (m' & M2 & ->). congruence.
  - destruct (dict_find (build sw' es) v) as [l|] eqn:D'; [apply (S _ sw) in D'; congruence|congruence].
Qed.
End Clean.

(** ** the roof *)
Section Roof.
Context {A : arith}.

Lemma no_parallel_perm es es' : Permutation es es' -> no_parallel_edges es -> no_parallel_edges es'.
Proof. intros P H a b. rewrite <- (joins_perm a b P). auto. Qed.

Lemma build_graph_lines sw first cnt holes (E : list (@edge2 A)) sk nr g : build_graph sw first cnt holes E sk nr = Ok g ->
  exists es, Permutation (lines_of_roof first cnt holes (skeleton_graph_edges E sk nr)) es /\ forall s, build_graph s first cnt holes E sk nr = Ok (build s es).
Proof.
  unfold build_graph, contour_graph_edges. intros H. apply bind_ok in H as (outer & Ho & H). apply bind_ok in H as (hs & Hh & H).
  exists (outer ++ concat hs ++ skeleton_graph_edges E sk nr). split.
  - assert (Q : forall l o, circ_prev_next l = Ok o -> Permutation (darts_of l) o).
    { intros l o Hl. destruct (@circ_perm l) as (o' & Ho' & P); [intros ->; discriminate|]. rewrite Hl in Ho'. apply Ok_inj in Ho'. subst. auto. }
    unfold lines_of_roof. apply Permutation_app; auto. apply Permutation_app; auto. apply mapM_ok in Hh. clear - Hh Q.
    induction Hh as [|h o l os Hh HF IH]; auto. cbn [map concat]. apply Permutation_app; auto.
  - intros s. rewrite Ho. cbn [bind]. rewrite Hh. cbn [bind]. auto.
Qed.

Lemma roof_faces_order sw sw' sch sch' (V : list (vec3 A)) first cnt holes (E : list (@edge2 A)) sk nr fs :
  no_parallel_edges (lines_of_roof first cnt holes (skeleton_graph_edges E sk nr)) ->
  (forall g emb F, build_graph sw first cnt holes E sk nr = Ok g -> circular_embedding g V true = Ok emb -> graph_faces sch g emb nr = Ok F -> plain_faces V F) ->
  roof_faces sw sch V first cnt holes E sk nr = Ok fs ->
  exists fs', roof_faces sw' sch' V first cnt holes E sk nr = Ok fs' /\ same_faces fs fs'.
Proof.
  unfold roof_faces. intros NP PF H. apply bind_ok in H as (g & Hg & H). apply bind_ok in H as (emb & He & H).
  apply bind_ok in H as (F & HF & H). apply bind_ok in H as (F1 & HF1 & H). pose proof (PF _ _ _ Hg He HF) as P.
  destruct (build_graph_lines Hg) as (es & Pm & B). rewrite B in Hg. apply Ok_inj in Hg. subst g. apply (no_parallel_perm Pm) in NP.
  destruct (embedding_order sw' He) as (emb' & He' & Q).
  assert (LN : lists_neighbours es (neighbours emb)) by (apply (@perm_lists_neighbours sw); auto; apply (circular_embedding_perm _ _ _ He)).
  destruct (@graph_faces_schedule sw sw' es emb emb' sch sch' nr NP LN Q) as (r1 & r2 & r2' & G1 & G2 & G3 & G4).
  rewrite HF in G1. apply Ok_inj in G1. subst r1.
  destruct (spikes_plain P HF1) as [-> Sm].
  assert (SF : same_faces F r2).
  { exists r2'. split; auto. eapply Forall2_impl_in; [|exact G4]. intros f f' _ _ [K _]. auto. }
  assert (Sm2 : remove_spikes V nr r2 = Ok r2).
  { apply plain_spikes. intros f Hf. destruct (same_each SF Hf) as (f0 & I & R). eapply smooth_rotation; eauto. }
  destruct (@clean_same A V nr F r2 fs) as (fs' & C & S); auto; [intros f Hf; apply P; auto|].
  exists fs'. split; auto. rewrite B. cbn [bind]. rewrite He'. cbn [bind]. rewrite G2. cbn [bind]. rewrite Sm2. auto.
Qed.

Lemma order_only_faces fuel sw sw' sch sch' dbg (verts : list (vec3 A)) first cnt holes hgt tan faces us :
  let o := polygonize fuel sw sch dbg verts first cnt holes hgt tan faces us in
  let o' := polygonize fuel sw' sch' dbg verts first cnt holes hgt tan faces us in
  o_verts o = o_verts o' /\ o_debug o = o_debug o'.
Proof.
  cbv zeta. unfold polygonize. cbv zeta. destruct (bind _ _) as [[[[z ctr] cs] sk]|e]; auto. destruct (slope sk hgt tan); auto.
  destruct (roof_faces _ _ _ _ _ _ _ _ _), (roof_faces _ _ _ _ _ _ _ _ _), faces; auto.
Qed.

Theorem roof_order fuel sw sw' sch sch' dbg (verts : list (vec3 A)) first cnt holes hgt tan faces us z ctr cs sk fs :
  let hs := match holes with Some h => h | None => [] end in
  let nr := Z.of_nat (length verts) in
  let o := polygonize fuel sw sch dbg verts first cnt holes hgt tan faces us in
  let o' := polygonize fuel sw' sch' dbg verts first cnt holes hgt tan faces us in
  prepare verts first cnt holes us = Ok (z, ctr, cs) -> skeletonize fuel cs = Ok sk ->
  no_parallel_edges (lines_of_roof first cnt hs (skeleton_graph_edges (concat cs) sk nr)) ->
  (forall g emb F, build_graph sw first cnt hs (concat cs) sk nr = Ok g -> circular_embedding g (o_verts o) true = Ok emb ->
     graph_faces sch g emb nr = Ok F -> plain_faces (o_verts o) F) ->
  let old := match faces with Some l => l | None => [] end in
  o_result o = Ok fs -> exists new new', fs = old ++ new /\ o_result o' = Ok (old ++ new') /\ same_faces new new'.
Proof.
  cbv zeta. unfold polygonize. cbv zeta. intros HP HS NP. rewrite HP. cbn [bind]. rewrite HS. cbn [bind].
  destruct (slope sk hgt tan) as [ta|e]; [|discriminate]. set (V := verts ++ map (skeleton_node3D ctr ta z) sk) in *. intros PF H.
  assert (EV : forall r : res (list (list Z)), o_verts (match r with Ok fs => match faces with Some old => Outcome V (Some (old ++ fs)) (if dbg then Some sk else None) (Ok (old ++ fs)) | None => Outcome V None (if dbg then Some sk else None) (Ok fs) end | Err e => Outcome V faces (if dbg then Some sk else None) (Err e) end) = V).
  { intros [r|]; auto. destruct faces; auto. }
  rewrite EV in PF. destruct (roof_faces sw sch V _ _ _ _ _ _) as [new|e] eqn:R; [|discriminate].
  destruct (@roof_faces_order sw sw' sch sch' V first cnt (match holes with Some h => h | None => [] end) (concat cs) sk (Z.of_nat (length verts)) new) as (new' & R' & S); auto.
  exists new, new'. rewrite R'. destruct faces as [old|]; cbn [o_result] in *; apply Ok_inj in H; subst fs; auto.
Qed.
End Roof.
