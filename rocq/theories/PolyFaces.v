(** * PolyFaces: the contours, the graph built from them, and what the faces consist of *)

From Coq Require Import Permutation.
From Verif Require Import Py PyFacts Arith Euclid PySort SortProofs Graph GraphSpec GraphProofs Lav Cluster Poly
  PolySpec PolyProofs.
Set Implicit Arguments.

(** ** sorted depends only on the comparisons of its elements *)
Section SortExt.
Variable T : Type.
Variables lt lt' : T -> T -> res bool.
Variable dom : T -> Prop.
Hypothesis Hlt : forall x y, dom x -> dom y -> lt x y = lt' x y.

Lemma run_len_ext down : forall l prev, dom prev -> Forall dom l -> run_len lt down prev l = run_len lt' down prev l.
Proof.
  induction l as [|x t IH]; simpl; intros prev Hp Hl; auto. inversion Hl; subst.
  rewrite Hlt by auto. destruct (lt' x prev); simpl; auto. destruct (Bool.eqb _ _); auto. rewrite IH; auto.
Qed.

Lemma count_run_ext l : Forall dom l -> count_run lt l = count_run lt' l.
Proof.
  intros H. destruct l as [|x [|y t]]; auto. simpl. inversion H as [|? ? H1 H2]; subst. inversion H2; subst.
  rewrite Hlt by auto. destruct (lt' y x); simpl; auto. rewrite run_len_ext; auto.
Qed.

Lemma bsearch_ext : forall fuel pivot l lo hi, dom pivot -> Forall dom l ->
  bsearch lt fuel pivot l lo hi = bsearch lt' fuel pivot l lo hi.
Proof.
  induction fuel as [|f IH]; simpl; intros pivot l lo hi Hp Hl; auto.
  destruct (Nat.ltb lo hi); auto. destruct (nth_error l _) as [y|] eqn:E; auto.
  assert (dom y) by (rewrite Forall_forall in Hl; apply Hl; eapply nth_error_In; eauto).
  rewrite Hlt by auto. destruct (lt' pivot y) as [[]|]; simpl; auto.
Qed.

Lemma binarysort_ext : forall rest pre, Forall dom rest -> Forall dom pre ->
  binarysort lt pre rest = binarysort lt' pre rest.
Proof.
  induction rest as [|p t IH]; intros pre Hr Hp; [reflexivity|]. inversion Hr; subst.
  cbn [binarysort]. rewrite (@bsearch_ext _ p pre) by auto.
  destruct (bsearch lt' _ p pre 0 (length pre)) as [i|e]; simpl; auto. apply IH; auto.
  apply Forall_app. split; [|constructor; auto].
  - rewrite Forall_forall in *. intros x Hx. apply Hp. rewrite <- (firstn_skipn i pre). apply in_or_app; auto.
  - rewrite Forall_forall in *. intros x Hx. apply Hp. rewrite <- (firstn_skipn i pre). apply in_or_app; auto.
Qed.

Lemma py_sorted_ext l : Forall dom l -> py_sorted lt l = py_sorted lt' l.
Proof.
  intros H. unfold py_sorted. destruct l as [|x [|y t]]; auto.
  rewrite count_run_ext by auto. destruct (count_run lt' (x :: y :: t)) as [[desc n]|e]; simpl bind; auto.
  assert (Hf : Forall dom (firstn n (x :: y :: t))).
  { rewrite Forall_forall in *. intros z Hz. apply H. rewrite <- (firstn_skipn n (x :: y :: t)). apply in_or_app; auto. }
  apply binarysort_ext.
  - rewrite Forall_forall in *. intros z Hz. apply H. rewrite <- (firstn_skipn n (x :: y :: t)). apply in_or_app; auto.
  - destruct desc; auto. apply Forall_rev; auto.
Qed.
End SortExt.

(** ** the vertices of traced faces *)
Section FaceVertices.
Variable S : Z -> Prop.
Variable emb : gdict.
Hypothesis Hemb : forall v w, In w (neighbours emb v) -> S w.
Let ok (d : dart) := S (fst d) /\ S (snd d).

Lemma next_node_in u v w : next_node emb u v = Ok w -> In w (neighbours emb v).
Proof.
  unfold next_node. intros H. apply bind_ok in H. destruct H as (i & _ & H). apply of_option_ok in H.
  eapply nth_error_In; eauto.
Qed.

Lemma pick_dart_in sch n s d : pick_dart sch n s = Some d -> In d s.
Proof. unfold pick_dart. destruct s; [discriminate|]. intros H; eapply nth_error_In; eauto. Qed.

Lemma start_path_ok sch n s p s' : Forall ok s -> start_path sch n s = (p, s') -> Forall ok p /\ Forall ok s'.
Proof.
  intros Hs. unfold start_path. destruct (pick_dart sch n s) as [d|] eqn:E; intros H; injection H; intros; subst.
  - apply pick_dart_in in E. rewrite Forall_forall in Hs. split; [constructor; auto|].
    rewrite Forall_forall. intros x Hx. apply In_set_remove in Hx. apply Hs; tauto.
  - auto.
Qed.

Lemma last_in_ok (p : list dart) d : Forall ok p -> ok d -> ok (last p d).
Proof.
  intros Hp Hd. destruct p as [|x t]; auto. rewrite Forall_forall in Hp. apply Hp.
  eapply nth_error_In. apply last_nth. discriminate.
Qed.

Lemma trace_vertices sch : forall fuel n s path faces r,
  Forall ok s -> Forall ok path -> Forall (Forall ok) faces ->
  trace fuel sch n emb s path faces = Ok r -> Forall (Forall ok) r.
Proof.
  induction fuel as [|f IH]; intros n s path faces r Hs Hp Hf H; [discriminate|]. simpl in H.
  destruct s as [|d0 s0].
  - apply Ok_inj in H; subst. destruct path; auto. apply Forall_app; auto.
  - remember (d0 :: s0) as s eqn:Es. destruct path as [|p0 pt]; [discriminate|].
    destruct (last (p0 :: pt) p0) as [u v] eqn:El.
    apply bind_ok in H. destruct H as (w & Hw & H).
    assert (Hl : ok (u, v)). { rewrite <- El. apply last_in_ok; auto. inversion Hp; auto. }
    apply next_node_in in Hw. apply Hemb in Hw.
    destruct (dart_eqb _ _).
    + destruct (start_path sch n s) as [path' s'] eqn:Est.
      destruct (start_path_ok _ _ Hs Est) as [H1 H2].
      eapply IH; [exact H2|exact H1| |exact H]. apply Forall_app; auto.
    + destruct (py_in dart_eqb (v, w) (p0 :: pt)); [discriminate|].
      eapply IH; [| | |exact H]; auto.
      * rewrite Forall_forall in *. intros x Hx. apply In_set_remove in Hx. apply Hs; tauto.
      * change (p0 :: pt ++ [(v, w)]) with ((p0 :: pt) ++ [(v, w)]). apply Forall_app. split; auto.
        constructor; auto. split; simpl; auto. apply Hl.
Qed.

Lemma graph_faces_vertices sch g nr fs : (forall v w, In w (neighbours g v) -> S v /\ S w) -> NoDup (map fst g) ->
  graph_faces sch g emb nr = Ok fs -> forall f v, In f fs -> In v f -> S v.
Proof.
  intros Hg Hk H f v Hf Hv. unfold graph_faces in H. apply bind_ok in H. destruct H as (paths & Hpaths & H).
  apply Ok_inj in H; subst fs.
  assert (Hs : Forall ok (edge_set g)).
  { rewrite Forall_forall. intros [a b] Hab. apply In_edge_set in Hab. unfold flip in Hab; simpl in Hab.
    rewrite !In_edges in Hab by auto. unfold ok; simpl. destruct Hab as [Hab|Hab]; apply Hg in Hab; tauto. }
  assert (HF : Forall (Forall ok) paths).
  { unfold face_paths in Hpaths. destruct (start_path sch 0 (edge_set g)) as [p s'] eqn:Est.
    destruct (start_path_ok _ _ Hs Est) as [H1 H2]. eapply trace_vertices; [exact H2|exact H1| |exact Hpaths]. constructor. }
  unfold final_faces in Hf. apply filter_In in Hf. destruct Hf as [Hf _].
  apply in_map_iff in Hf. destruct Hf as (p & <- & Hp). rewrite Forall_forall in HF. apply HF in Hp.
  apply in_map_iff in Hv. destruct Hv as (d & <- & Hd).
  assert (Hd' : In d p).
  { unfold rotate_orig in Hd. destruct (find_pos _ p); auto. apply In_rot in Hd; auto. }
  rewrite Forall_forall in Hp. apply Hp in Hd'. apply Hd'.
Qed.
End FaceVertices.

(** ** contours *)
Section Contours.
Context {A : arith}.

Lemma Edge2_idx_ok id i1 i2 u (verts : list (vec3 A)) center e :
  Edge2_idx id i1 i2 u verts center = Ok e ->
  eid e = id /\ ei1 e = i1 /\ ei2 e = i2 /\ local_pos verts center i1 (ep1 e) /\ local_pos verts center i2 (ep2 e) /\
  enorm e = match u with Some w => mkvec (wx w) (wy w) | None => vnormalized (vsub (ep2 e) (ep1 e)) end.
Proof.
  unfold Edge2_idx. intros H. apply bind_ok in H. destruct H as (a & Ha & H).
  apply bind_ok in H. destruct H as (b & Hb & H). apply Ok_inj in H; subst e. simpl.
  repeat split; auto; [exists a|exists b]; auto.
Qed.

Lemma contour_edges_nth (verts : list (vec3 A)) center us u0 id0 first cnt es : (1 <= cnt)%Z ->
  contour_edges verts center us u0 id0 first cnt = Ok es ->
  length es = Z.to_nat cnt /\
  forall k, k < Z.to_nat cnt -> exists e u,
    nth_error es k = Some e /\ opt_unit us (u0 + Z.of_nat k) = Ok u /\
    Edge2_idx (id0 + k) (first + Z.of_nat k) (first + (Z.of_nat k + 1) mod cnt) u verts center = Ok e.
Proof.
  intros Hc H. unfold contour_edges in H. apply bind_ok in H. destruct H as (body & Hb & H).
  apply bind_ok in H. destruct H as (ul & Hul & H). apply bind_ok in H. destruct H as (el & Hel & H).
  apply Ok_inj in H; subst es.
  assert (Hlen := mapM_length _ _ Hb). rewrite seq_length in Hlen.
  split; [rewrite app_length; simpl; lia|].
  intros k Hk. apply mapM_ok in Hb.
  destruct (Nat.eq_dec k (Z.to_nat (cnt - 1))) as [->|Hne].
  - exists el, ul. rewrite nth_error_app2 by lia. rewrite Hlen, Nat.sub_diag. split; auto.
    rewrite Z2Nat.id by lia. split; [rewrite <- Hul; f_equal; lia|].
    replace ((cnt - 1 + 1) mod cnt)%Z with 0%Z by (replace (cnt - 1 + 1)%Z with cnt by lia; rewrite Z_mod_same_full; auto).
    rewrite <- Hel. f_equal; lia.
  - assert (Hk' : k < Z.to_nat (cnt - 1)) by lia.
    assert (Hs : nth_error (seq 0 (Z.to_nat (cnt - 1))) k = Some k).
    { rewrite (nth_error_nth' _ 0) by (rewrite seq_length; lia). rewrite seq_nth; auto. }
    destruct (Forall2_nth _ Hb Hs) as (e & He & Hf). cbv beta zeta in Hf.
    apply bind_ok in Hf. destruct Hf as (u & Hu & Hf).
    exists e, u. rewrite nth_error_app1 by lia. split; auto. split; auto.
    rewrite Z.mod_small by lia. rewrite <- Hf. f_equal; lia.
Qed.

Lemma hole_edges_nth (verts : list (vec3 A)) center us : forall holes u0 id0 hs,
  hole_edges verts center us u0 id0 holes = Ok hs ->
  length hs = length holes /\
  forall j h, nth_error holes j = Some h -> exists es uj idj,
    nth_error hs j = Some es /\ contour_edges verts center us uj idj (fst h) (snd h) = Ok es.
Proof.
  induction holes as [|[f c] t IH]; simpl; intros u0 id0 hs H.
  - apply Ok_inj in H; subst. split; auto. intros [|j] h; discriminate.
  - apply bind_ok in H. destruct H as (es & Hes & H). apply bind_ok in H. destruct H as (rest & Hr & H).
    apply Ok_inj in H; subst hs. destruct (IH _ _ _ Hr) as [Hl Hn]. split; [simpl; lia|].
    intros [|j] h Hh; simpl in Hh.
    + injection Hh; intros; subst h. exists es, u0, id0; auto.
    + destruct (Hn _ _ Hh) as (es' & uj & idj & H1 & H2). exists es', uj, idj; auto.
Qed.

Lemma local_pos_inj (verts : list (vec3 A)) center i p q : local_pos verts center i p -> local_pos verts center i q -> p = q.
Proof. intros (v & Hv & ->) (w & Hw & ->). congruence. Qed.

Lemma contour_edges_ring (verts : list (vec3 A)) center us u0 id0 first cnt es : (1 <= cnt)%Z ->
  contour_edges verts center us u0 id0 first cnt = Ok es -> ring_of verts center first cnt es.
Proof.
  intros Hc H. destruct (contour_edges_nth _ _ _ _ _ _ Hc H) as [Hl Hn]. split; auto.
  intros k Hk. destruct (Hn k Hk) as (e & u & He & _ & Hf).
  assert (Hk' : (k + 1) mod length es < Z.to_nat cnt) by (rewrite Hl; apply Nat.mod_upper_bound; lia).
  destruct (Hn _ Hk') as (e' & u' & He' & _ & Hf').
  apply Edge2_idx_ok in Hf. apply Edge2_idx_ok in Hf'.
  destruct Hf as (_ & H1 & H2 & H3 & H4 & _). destruct Hf' as (_ & H1' & H2' & H3' & _).
  assert (E : (Z.of_nat ((k + 1) mod length es) = (Z.of_nat k + 1) mod cnt)%Z).
  { rewrite Hl. rewrite Nat2Z.inj_mod. rewrite Z2Nat.id by lia. f_equal. lia. }
  exists e, e'. split; auto. split; auto. split; auto. rewrite E in *.
  split; [congruence|]. split; [eapply local_pos_inj; eauto|]. rewrite H1; auto.
Qed.

Lemma prepare_ok (verts : list (vec3 A)) first cnt holes us zBase center contours :
  prepare verts first cnt holes us = Ok (zBase, center, contours) ->
  (exists v0, py_get verts first = Ok v0 /\ zBase = wz v0) /\
  poly_center verts first cnt = Ok center /\
  exists outer hs, contours = outer :: hs /\
    contour_edges verts center (truthy_list us) 0 0 first cnt = Ok outer /\
    hole_edges verts center (truthy_list us) cnt (length outer) (match holes with Some h => h | None => [] end) = Ok hs.
Proof.
  unfold prepare. intros H. apply bind_ok in H. destruct H as (v0 & Hv0 & H).
  apply bind_ok in H. destruct H as (c & Hc & H). apply bind_ok in H. destruct H as (outer & Ho & H).
  apply bind_ok in H. destruct H as (hs & Hh & H). apply Ok_inj in H. injection H; intros; subst.
  split; eauto. split; auto. exists outer, hs; auto.
Qed.

Lemma prepare_rings (verts : list (vec3 A)) first cnt holes us zBase center contours :
  (1 <= cnt)%Z -> (forall h, In h (match holes with Some h => h | None => [] end) -> (1 <= snd h)%Z) ->
  prepare verts first cnt holes us = Ok (zBase, center, contours) ->
  Forall2 (fun b es => ring_of verts center (fst b) (snd b) es)
          ((first, cnt) :: match holes with Some h => h | None => [] end) contours.
Proof.
  intros Hc Hh H. apply prepare_ok in H. destruct H as (_ & _ & outer & hs & -> & Ho & Hhs).
  constructor; [eapply contour_edges_ring; eauto|].
  revert Hh Hhs. generalize (match holes with Some h => h | None => [] end). clear.
  intros holes. generalize cnt at 1 as u0. generalize (length outer). revert hs.
  induction holes as [|[f c] t IH]; simpl; intros hs id0 u0 Hh H.
  - apply Ok_inj in H; subst; constructor.
  - apply bind_ok in H. destruct H as (es & Hes & H). apply bind_ok in H. destruct H as (rest & Hr & H).
    apply Ok_inj in H; subst hs. constructor; [|eapply IH; [|exact Hr]; auto].
    simpl. eapply contour_edges_ring; [|exact Hes]. apply (Hh (f, c)); auto.
Qed.

(** indices of all edges lie in the blocks *)
Lemma ring_index (verts : list (vec3 A)) center first cnt es e : ring_of verts center first cnt es -> In e es ->
  in_block first cnt (ei1 e) /\ local_pos verts center (ei1 e) (ep1 e).
Proof.
  intros [Hl H] He. apply In_nth_error in He. destruct He as [k Hk].
  assert (Hkl : k < Z.to_nat cnt) by (rewrite <- Hl; apply nth_error_Some; congruence).
  destruct (H k Hkl) as (e0 & e' & H1 & _ & H2 & _ & _ & H3). rewrite Hk in H1. injection H1; intros; subst e0.
  split; auto. unfold in_block. lia.
Qed.

Lemma rings_index (verts : list (vec3 A)) center first cnt holes contours e :
  Forall2 (fun b es => ring_of verts center (fst b) (snd b) es) ((first, cnt) :: holes) contours ->
  In e (concat contours) -> in_blocks first cnt holes (ei1 e) /\ local_pos verts center (ei1 e) (ep1 e).
Proof.
  intros H He. apply in_concat in He. destruct He as (es & Hes & He).
  destruct (Forall2_In_r _ H Hes) as (b & Hb & Hr). destruct (ring_index _ Hr He) as [H1 H2].
  split; auto. destruct Hb as [<-|Hb]; [left; auto|right; eauto].
Qed.

Lemma local_pos_valid (verts : list (vec3 A)) center i p : (0 <= i)%Z -> local_pos verts center i p ->
  (i < Z.of_nat (length verts))%Z.
Proof.
  intros Hi (v & Hv & _). rewrite py_get_nonneg in Hv by auto. apply of_option_ok in Hv.
  assert (Z.to_nat i < length verts) by (apply nth_error_Some; congruence). lia.
Qed.
End Contours.

(** ** graph vertices *)
Section GraphVertices.
Context {A : arith}.

Lemma contour_graph_edges_in first cnt es a b : contour_graph_edges first cnt = Ok es -> In (a, b) es ->
  in_block first cnt a /\ in_block first cnt b.
Proof.
  unfold contour_graph_edges. intros H Hin. apply In_nth_error in Hin. destruct Hin as [i Hi].
  assert (Hl : i < length (zrange first (first + cnt))).
  { rewrite <- (circ_prev_next_length _ H). apply nth_error_Some; congruence. }
  destruct (circ_prev_next_nth _ H Hl) as (p & n & Hp & Hn & E). rewrite Hi in E. injection E; intros; subst.
  apply nth_error_In in Hp. apply nth_error_In in Hn. rewrite In_zrange in Hp, Hn. split; auto.
Qed.

Lemma sink_index_cases (edges2D : list (@edge2 A)) sk firstSkel sink :
  let i := sink_index edges2D sk firstSkel sink in
  (exists e, In e edges2D /\ veq (ep1 e) sink = true /\ i = ei1 e) \/
  (exists k a, nth_error sk k = Some a /\ veq (source a) sink = true /\ i = (Z.of_nat k + firstSkel)%Z) \/
  (i = (-1)%Z /\ ~ sink_known edges2D sk sink).
Proof.
  unfold sink_index. destruct (find _ edges2D) as [e|] eqn:E.
  - apply find_some in E. left; exists e; tauto.
  - destruct (find_pos _ sk) as [k|] eqn:F.
    + apply find_pos_some in F. destruct F as (a & Ha & Hv & _). right; left; exists k, a; auto.
    + right; right. split; auto. intros [(e & He & Hv)|(a & Ha & Hv)].
      * apply (find_none _ _ E) in He. congruence.
      * rewrite find_pos_none in F. apply F in Ha. congruence.
Qed.

Definition node_index (firstSkel : Z) (sk : list (@subtree A)) (i : Z) : Prop :=
  (firstSkel <= i < firstSkel + Z.of_nat (length sk))%Z.

Definition bad_sink (edges2D : list (@edge2 A)) (sk : list (@subtree A)) (i : Z) : Prop :=
  i = (-1)%Z /\ exists a s, In a sk /\ In s (sinks a) /\ ~ sink_known edges2D sk s.

Lemma build_graph_vertices sw first cnt holes (edges2D : list (@edge2 A)) sk firstSkel g :
  (forall e, In e edges2D -> in_blocks first cnt holes (ei1 e)) ->
  build_graph sw first cnt holes edges2D sk firstSkel = Ok g ->
  NoDup (map fst g) /\
  forall v w, In w (neighbours g v) ->
    (in_blocks first cnt holes v \/ node_index firstSkel sk v \/ bad_sink edges2D sk v) /\
    (in_blocks first cnt holes w \/ node_index firstSkel sk w \/ bad_sink edges2D sk w).
Proof.
  intros He H. unfold build_graph in H. apply bind_ok in H. destruct H as (outer & Ho & H).
  apply bind_ok in H. destruct H as (hs & Hh & H). apply Ok_inj in H.
  set (es := outer ++ concat hs ++ skeleton_graph_edges edges2D sk firstSkel) in *.
  change (build sw es = g) in H. subst g. split; [apply keys_build|].
  set (P := fun v => in_blocks first cnt holes v \/ node_index firstSkel sk v \/ bad_sink edges2D sk v).
  assert (HP : forall a b, In (a, b) es -> P a /\ P b).
  { intros a b Hin. unfold es in Hin. apply in_app_or in Hin. destruct Hin as [Hin|Hin].
    - destruct (contour_graph_edges_in _ _ _ _ Ho Hin). unfold P, in_blocks; auto.
    - apply in_app_or in Hin. destruct Hin as [Hin|Hin].
      + apply in_concat in Hin. destruct Hin as (l & Hl & Hin). apply mapM_ok in Hh.
        destruct (Forall2_In_r _ Hh Hl) as (h & Hhin & E).
        destruct (contour_graph_edges_in _ _ _ _ E Hin). unfold P, in_blocks. split; left; right; eauto.
      + unfold skeleton_graph_edges in Hin. apply in_flat_map in Hin. destruct Hin as ([k arc] & Hk & Hin).
        apply In_enumerate in Hk. simpl in Hin. apply in_map_iff in Hin. destruct Hin as (s & E & Hs).
        injection E; intros; subst a b. clear E.
        assert (Hkl : k < length sk) by (apply nth_error_Some; congruence).
        split; [right; left; unfold node_index; lia|].
        destruct (sink_index_cases edges2D sk firstSkel s) as [(e & H1 & H2 & ->)|[(j & a & H1 & H2 & ->)|(H1 & H2)]].
        * left; auto.
        * assert (j < length sk) by (apply nth_error_Some; congruence). right; left. unfold node_index; lia.
        * right; right. split; auto. exists arc, s. split; auto. eapply nth_error_In; eauto. }
  intros v w Hw. rewrite In_neighbours_build in Hw. destruct Hw as [_ [Hw|Hw]]; apply HP in Hw; tauto.
Qed.

Lemma embedding_neighbours g (vl : list (vec3 A)) dir emb : circular_embedding g vl dir = Ok emb ->
  forall v w, In w (neighbours emb v) -> In w (neighbours g v).
Proof.
  intros H v w Hw. destruct (circular_embedding_perm _ _ _ H) as [_ Hp].
  eapply Permutation_in; [apply Hp|auto].
Qed.

Lemma clean_faces_incl (vl : list (vec3 A)) firstSkel faces fs : clean_faces vl firstSkel faces = Ok fs ->
  Forall2 (fun f f' => subsequence f' f) faces fs.
Proof.
  unfold clean_faces. intros H. apply mapM_ok in H. eapply Forall2_impl_in; [|exact H].
  intros f f' _ _ Hf. cbv beta in Hf. apply bind_ok in Hf. destruct Hf as (f1 & H1 & H2).
  apply fix_parallel_ok in H1. apply fix_identical_ok in H2. eapply subsequence_trans; [apply H2|apply H1].
Qed.

Lemma roof_faces_vertices sw sch (vl : list (vec3 A)) first cnt holes edges2D sk firstSkel fs :
  (forall e, In e edges2D -> in_blocks first cnt holes (ei1 e)) ->
  roof_faces sw sch vl first cnt holes edges2D sk firstSkel = Ok fs ->
  forall f v, In f fs -> In v f ->
    in_blocks first cnt holes v \/ node_index firstSkel sk v \/ bad_sink edges2D sk v.
Proof.
  intros He H f v Hf Hv. unfold roof_faces in H.
  apply bind_ok in H. destruct H as (g & Hg & H). apply bind_ok in H. destruct H as (emb & Hemb & H).
  apply bind_ok in H. destruct H as (faces & Hfaces & H). apply bind_ok in H. destruct H as (faces1 & Hs & H).
  destruct (build_graph_vertices _ _ _ _ He Hg) as [Hk Hgv].
  apply clean_faces_incl in H. destruct (Forall2_In_r _ H Hf) as (f1 & Hf1 & Hsub).
  apply (subsequence_In _ Hsub) in Hv.
  apply remove_spikes_corners in Hs. destruct Hs as (gone & P).
  assert (Hvc : In v (concat faces)).
  { eapply Permutation_in; [symmetry; exact P|]. apply in_or_app; right. apply in_concat; eauto. }
  apply in_concat in Hvc. destruct Hvc as (f0 & Hf0 & Hv0).
  eapply (@graph_faces_vertices
    (fun v => in_blocks first cnt holes v \/ node_index firstSkel sk v \/ bad_sink edges2D sk v) emb);
    [|exact Hgv|exact Hk|exact Hfaces|exact Hf0|exact Hv0].
  intros a b Hb. apply (embedding_neighbours _ _ _ Hemb) in Hb. apply Hgv in Hb. tauto.
Qed.
End GraphVertices.

(** ** what is read from verts *)
Section Agree.
Context {A : arith}.
Variables v1 v2 : list (vec3 A).
Variable S : Z -> Prop.
Hypothesis Hag : forall i, S i -> py_get v1 i = py_get v2 i.

Lemma angle_lt_agree c a b : S c -> S a -> S b -> angle_lt v1 c a b = angle_lt v2 c a b.
Proof. intros. unfold angle_lt, compare_angles. rewrite !Hag by auto. reflexivity. Qed.

Lemma py_sorted_agree c l : S c -> Forall S l -> py_sorted (angle_lt v1 c) l = py_sorted (angle_lt v2 c) l.
Proof. intros Hc Hl. apply py_sorted_ext with (dom := S); auto. intros; apply angle_lt_agree; auto. Qed.

Lemma circular_embedding_agree g dir : (forall k l, In (k, l) g -> S k /\ Forall S l) ->
  circular_embedding g v1 dir = circular_embedding g v2 dir.
Proof.
  intros Hg. unfold circular_embedding. apply mapM_ext. intros [k l] Hin. simpl.
  destruct (Hg _ _ Hin). rewrite py_sorted_agree; auto.
Qed.

Lemma is_spike_agree p : S (fst (fst p)) -> S (snd (fst p)) -> S (snd p) -> is_spike v1 p = is_spike v2 p.
Proof. destruct p as [[a b] c]; simpl; intros. unfold is_spike. rewrite !Hag by auto. reflexivity. Qed.

Lemma circ_ptn_in T (l : list T) ptn p : circ_prev_this_next l = Ok ptn -> In p ptn ->
  In (fst (fst p)) l /\ In (snd (fst p)) l /\ In (snd p) l.
Proof.
  intros H Hp. apply In_nth_error in Hp. destruct Hp as [i Hi].
  assert (Hl : i < length l). { rewrite <- (circ_prev_this_next_length _ H). apply nth_error_Some; congruence. }
  destruct (circ_prev_this_next_nth _ H Hl) as (a & b & c & Ha & Hb & Hc & E).
  rewrite Hi in E. injection E; intros; subst p. simpl. repeat split; eapply nth_error_In; eauto.
Qed.

Lemma find_spike_agree l : (forall p, In p l -> S (fst (fst p)) /\ S (snd (fst p)) /\ S (snd p)) ->
  find_spike v1 l = find_spike v2 l.
Proof.
  induction l as [|p t IH]; simpl; intros H; auto.
  destruct (H p) as (H1 & H2 & H3); auto. rewrite is_spike_agree by auto.
  destruct (is_spike v2 p) as [[]|]; simpl; auto.
Qed.

Lemma spike_pass_agree firstSkel faces fis : (forall v, In v (concat faces) -> S v) ->
  spike_pass v1 firstSkel faces fis = spike_pass v2 firstSkel faces fis.
Proof.
  intros HS. induction fis as [|fi t IH]; simpl; auto.
  destruct (Nat.leb_spec (length (nth fi faces [])) 3); auto.
  destruct (circ_prev_this_next (nth fi faces [])) as [ptn|] eqn:E; simpl; auto.
  assert (Hin : forall v, In v (nth fi faces []) -> S v).
  { intros v Hv. apply HS. apply in_concat. exists (nth fi faces []); split; auto.
    apply nth_In. destruct (Nat.lt_ge_cases fi (length faces)); auto.
    rewrite nth_overflow in Hv by auto. destruct Hv. }
  rewrite (@find_spike_agree ptn).
  2:{ intros p Hp. destruct (circ_ptn_in _ _ E Hp) as (H1 & H2 & H3). auto. }
  destruct (find_spike v2 ptn) as [[[[a b] c]|]|]; simpl; auto.
  destruct (adjacent_faces _ _ _ _ _ _ _) as [[[r|] [l|]]|]; simpl; auto.
Qed.

Lemma spike_loop_agree firstSkel : forall fuel faces, (forall v, In v (concat faces) -> S v) ->
  spike_loop fuel v1 firstSkel faces = spike_loop fuel v2 firstSkel faces.
Proof.
  induction fuel as [|f IH]; simpl; intros faces HS; auto. rewrite spike_pass_agree by auto.
  destruct (spike_pass v2 firstSkel faces (seq 0 (length faces))) as [[fs|]|] eqn:E; simpl; auto.
  apply IH. intros v Hv. apply HS. destruct (spike_pass_corners _ _ _ E) as (gone & P & _).
  eapply Permutation_in; [symmetry; exact P|]. apply in_or_app; auto.
Qed.

Lemma parallel_scan_agree counts firstSkel : forall l acc,
  (forall p, In p l -> S (fst (fst p)) /\ S (snd (fst p)) /\ S (snd p)) ->
  parallel_scan v1 counts firstSkel acc l = parallel_scan v2 counts firstSkel acc l.
Proof.
  induction l as [|p t IH]; simpl; intros acc H; auto.
  assert (E : parallel_at v1 counts firstSkel acc p = parallel_at v2 counts firstSkel acc p).
  { destruct (H p) as (H1 & H2 & H3); auto. destruct p as [[a b] c]; simpl in *.
    unfold parallel_at. rewrite !Hag by auto. reflexivity. }
  rewrite E. destruct (parallel_at v2 counts firstSkel acc p); simpl; auto.
Qed.

Lemma clean_faces_agree firstSkel faces : (forall v, In v (concat faces) -> S v) ->
  clean_faces v1 firstSkel faces = clean_faces v2 firstSkel faces.
Proof.
  intros HS. unfold clean_faces. apply mapM_ext. intros f Hf.
  assert (Hin : forall v, In v f -> S v). { intros v Hv. apply HS, in_concat; eauto. }
  unfold fix_parallel. destruct (Nat.ltb 3 (length f)); auto.
  destruct (circ_prev_this_next f) as [ptn|] eqn:E; simpl; auto.
  rewrite (@parallel_scan_agree _ firstSkel ptn []); auto.
  intros p Hp. destruct (circ_ptn_in _ _ E Hp) as (H1 & H2 & H3). auto.
Qed.

Lemma dict_vertices g k l : NoDup (map fst g) -> In (k, l) g -> neighbours g k = l.
Proof. intros Hn Hin. unfold neighbours. rewrite (In_dict_find _ _ _ Hn Hin). auto. Qed.

End Agree.

(** keys of the graph have neighbours *)
Lemma build_keys_nonempty sw es k l : In (k, l) (build sw es) -> l <> [].
Proof.
  intros Hin E. subst l.
  assert (Hk := keys_build sw es).
  assert (Hn : neighbours (build sw es) k = []) by (apply dict_vertices; auto).
  (* every key is an end point of an edge *)
  assert (Hkey : forall es g k, In k (map fst (fold_left (add_edge sw) es g)) ->
            In k (map fst g) \/ exists w, has_edge_between es k w).
  { clear. induction es as [|e t IH]; simpl; intros g k H; auto.
    apply IH in H. destruct H as [H|[w [H1 H2]]]; [|right; exists w; split; simpl; tauto].
    destruct e as [a b]. unfold add_edge in H. destruct (Z.eqb_spec a b); [auto|].
    assert (HV : forall g v x, In x (map fst (add_vertex g v)) -> In x (map fst g) \/ x = v).
    { clear. intros g v x. unfold add_vertex. destruct (dict_find g v); auto.
      rewrite map_app, in_app_iff. simpl. intuition. }
    destruct (sw a b); rewrite !keys_append_to in H; apply HV in H; destruct H as [H| ->];
      try (apply HV in H; destruct H as [H| ->]); auto; right;
      solve [exists a; split; simpl; auto; congruence | exists b; split; simpl; auto; congruence]. }
  destruct (Hkey es [] k) as [[]|[w Hw]].
  - apply (in_map fst) in Hin. exact Hin.
  - rewrite <- (In_neighbours_build sw) in Hw. rewrite Hn in Hw. destruct Hw.
Qed.

Section Unrelated.
Context {A : arith}.

Lemma py_get_length T (l1 l2 : list T) i : length l1 = length l2 ->
  (nth_error l1 (Z.to_nat i) = nth_error l2 (Z.to_nat i)) -> (0 <= i)%Z -> py_get l1 i = py_get l2 i.
Proof. intros Hl Hn Hi. rewrite !py_get_nonneg by auto. rewrite Hn; auto. Qed.

Lemma sum_verts_agree (v1 v2 : list (vec3 A)) is : (forall i, In i is -> py_get v1 i = py_get v2 i) ->
  forall acc, sum_verts v1 acc is = sum_verts v2 acc is.
Proof.
  induction is as [|i t IH]; simpl; intros H acc; auto. rewrite H by auto.
  destruct (py_get v2 i); simpl; auto.
Qed.

Lemma contour_edges_agree (v1 v2 : list (vec3 A)) center us u0 id0 first cnt : (1 <= cnt)%Z ->
  (forall i, in_block first cnt i -> py_get v1 i = py_get v2 i) ->
  contour_edges v1 center us u0 id0 first cnt = contour_edges v2 center us u0 id0 first cnt.
Proof.
  intros Hc H. unfold contour_edges, in_block in *.
  rewrite (@mapM_ext _ _ _ (fun k : nat => let i := (first + Z.of_nat k)%Z in
     u <- opt_unit us (u0 + Z.of_nat k);; Edge2_idx (id0 + k) i (i + 1) u v2 center)).
  - destruct (mapM _ _); simpl; auto. destruct (opt_unit us (u0 + cnt - 1)); simpl; auto.
    unfold Edge2_idx. rewrite !H by lia. reflexivity.
  - intros k Hk. apply in_seq in Hk. simpl. destruct (opt_unit _ _); simpl; auto.
    unfold Edge2_idx. rewrite !H by lia. reflexivity.
Qed.

Lemma hole_edges_agree (v1 v2 : list (vec3 A)) center us : forall holes u0 id0,
  (forall h, In h holes -> (1 <= snd h)%Z) ->
  (forall h i, In h holes -> in_block (fst h) (snd h) i -> py_get v1 i = py_get v2 i) ->
  hole_edges v1 center us u0 id0 holes = hole_edges v2 center us u0 id0 holes.
Proof.
  induction holes as [|[f c] t IH]; simpl; intros u0 id0 Hc H; auto.
  rewrite (@contour_edges_agree v1 v2).
  - destruct (contour_edges v2 center us u0 id0 f c); simpl; auto. rewrite IH; auto.
    intros; eapply H; eauto.
  - apply (Hc (f, c)); auto.
  - intros i Hi. apply (H (f, c)); auto.
Qed.

Lemma prepare_agree (v1 v2 : list (vec3 A)) first cnt holes us :
  let hs := match holes with Some h => h | None => [] end in
  (1 <= cnt)%Z -> (forall h, In h hs -> (1 <= snd h)%Z) ->
  (forall i, in_blocks first cnt hs i -> py_get v1 i = py_get v2 i) ->
  prepare v1 first cnt holes us = prepare v2 first cnt holes us.
Proof.
  intros hs Hc Hh H. unfold prepare, poly_center. unfold in_blocks, in_block in H.
  rewrite (H first) by lia. destruct (py_get v2 first); cbn [bind]; auto.
  rewrite (@sum_verts_agree v1 v2) by (intros i Hi; apply In_zrange in Hi; apply H; auto).
  destruct (sum_verts v2 _ _); cbn [bind]; auto. destruct (neqb _ _); cbn [bind]; auto.
  rewrite (@contour_edges_agree v1 v2) by (unfold in_block; auto; intros; apply H; lia).
  destruct (contour_edges v2 _ _ _ _ _ _); cbn [bind]; auto.
  fold hs. rewrite (@hole_edges_agree v1 v2); auto.
  intros h i Hin Hi. unfold in_block in Hi. apply H. right; eauto.
Qed.

Lemma roof_faces_agree sw sch (v1 v2 : list (vec3 A)) first cnt holes edges2D sk firstSkel :
  (forall e, In e edges2D -> in_blocks first cnt holes (ei1 e)) ->
  (forall i, in_blocks first cnt holes i \/ node_index firstSkel sk i \/ bad_sink edges2D sk i ->
             py_get v1 i = py_get v2 i) ->
  roof_faces sw sch v1 first cnt holes edges2D sk firstSkel = roof_faces sw sch v2 first cnt holes edges2D sk firstSkel.
Proof.
  intros He H. unfold roof_faces.
  destruct (build_graph sw first cnt holes edges2D sk firstSkel) as [g|] eqn:Hg; cbn [bind]; auto.
  destruct (build_graph_vertices _ _ _ _ He Hg) as [Hk Hgv].
  rewrite (@circular_embedding_agree _ v1 v2 _ H).
  2:{ intros k l Hin. pose proof (@dict_vertices g k l Hk Hin) as El.
      assert (Hl : l <> []).
      { unfold build_graph in Hg. apply bind_ok in Hg. destruct Hg as (outer & Ho & Hg).
        apply bind_ok in Hg. destruct Hg as (hs & Hh & Hg). apply Ok_inj in Hg. subst g.
        eapply (@build_keys_nonempty sw); exact Hin. }
      destruct l as [|w t]; [congruence|]. split.
      - apply (Hgv k w). rewrite El; simpl; auto.
      - rewrite Forall_forall. intros x Hx. apply (Hgv k x). rewrite El; auto. }
  destruct (circular_embedding g v2 true) as [emb|] eqn:Hemb; cbn [bind]; auto.
  destruct (graph_faces sch g emb firstSkel) as [faces|] eqn:Hf; cbn [bind]; auto.
  set (P := fun v => in_blocks first cnt holes v \/ node_index firstSkel sk v \/ bad_sink edges2D sk v) in *.
  assert (HP : forall v, In v (concat faces) -> P v).
  { intros v Hv. apply in_concat in Hv. destruct Hv as (f0 & Hf0 & Hv0).
    eapply (@graph_faces_vertices P emb); [|exact Hgv|exact Hk|exact Hf|exact Hf0|exact Hv0].
    intros a b Hb. apply (embedding_neighbours _ _ _ Hemb) in Hb. apply Hgv in Hb. exact (proj2 Hb). }
  unfold remove_spikes. rewrite (@spike_loop_agree _ v1 v2 _ H) by auto.
  destruct (spike_loop _ v2 firstSkel faces) as [faces1|] eqn:Hs; cbn [bind]; auto.
  apply (@clean_faces_agree _ v1 v2 _ H). intros v Hv. apply HP.
  apply remove_spikes_corners in Hs. destruct Hs as (gone & Pm).
  eapply Permutation_in; [symmetry; exact Pm|]. apply in_or_app; auto.
Qed.

Lemma py_get_app_node (v : list (vec3 A)) l k : k < length l ->
  py_get (v ++ l) (Z.of_nat (length v) + Z.of_nat k) = of_option IndexError (nth_error l k).
Proof.
  intros Hk. rewrite py_get_nonneg by lia. f_equal. rewrite nth_error_app2 by lia. f_equal. lia.
Qed.

Lemma py_get_app_last T (v l : list T) : l <> [] -> py_get (v ++ l) (-1) = of_option IndexError (nth_error l (length l - 1)).
Proof.
  intros Hl. unfold py_get. rewrite app_length. change (-1 <? 0)%Z with true. cbv iota zeta.
  assert (0 < length l) by (destruct l; simpl; [congruence|lia]).
  destruct (Z.leb_spec 0 (-1 + Z.of_nat (length v + length l))); [|lia].
  destruct (Z.ltb_spec (-1 + Z.of_nat (length v + length l)) (Z.of_nat (length v + length l))); [|lia].
  simpl andb. cbv iota. rewrite nth_error_app2 by lia. do 2 f_equal. lia.
Qed.

Lemma polygonize_unrelated fuel sw sch dbg (v1 v2 : list (vec3 A)) first cnt holes hgt tan faces us :
  let hs := match holes with Some h => h | None => [] end in
  (0 <= first)%Z -> (1 <= cnt)%Z -> (forall h, In h hs -> 0 <= fst h /\ 1 <= snd h)%Z ->
  length v1 = length v2 ->
  (forall i, in_blocks first cnt hs i -> nth_error v1 (Z.to_nat i) = nth_error v2 (Z.to_nat i)) ->
  let o1 := polygonize fuel sw sch dbg v1 first cnt holes hgt tan faces us in
  let o2 := polygonize fuel sw sch dbg v2 first cnt holes hgt tan faces us in
  o_result o1 = o_result o2 /\ o_faces o1 = o_faces o2 /\ o_debug o1 = o_debug o2 /\
  exists nodes, o_verts o1 = v1 ++ nodes /\ o_verts o2 = v2 ++ nodes.
Proof.
  intros hs Hf Hc Hh Hl H. unfold polygonize.
  assert (Hag : forall i, in_blocks first cnt hs i -> py_get v1 i = py_get v2 i).
  { intros i Hi. apply py_get_length; auto. destruct Hi as [Hi|(h & Hin & Hi)]; unfold in_block in Hi; [lia|].
    destruct (Hh h Hin). lia. }
  rewrite (@prepare_agree v1 v2) by (auto; intros h Hin; destruct (Hh h Hin); auto).
  destruct (prepare v2 first cnt holes us) as [[[zBase center] contours]|e] eqn:Hp; cbn [bind].
  2:{ simpl. repeat split. exists []. rewrite !app_nil_r; auto. }
  destruct (skeletonize fuel contours) as [sk|e]; cbn [bind].
  2:{ simpl. repeat split. exists []. rewrite !app_nil_r; auto. }
  destruct (slope sk hgt tan) as [ta|e].
  2:{ simpl. repeat split. exists []. rewrite !app_nil_r; auto. }
  fold hs. set (nodes := map (skeleton_node3D center ta zBase) sk).
  assert (Hrings := @prepare_rings _ v2 first cnt holes us zBase center contours Hc
                     (fun h Hin => proj2 (Hh h Hin)) Hp).
  fold hs in Hrings. rewrite Hl.
  rewrite (@roof_faces_agree sw sch (v1 ++ nodes) (v2 ++ nodes)).
  - set (rf := roof_faces sw sch (v2 ++ nodes) first cnt hs (concat contours) sk (Z.of_nat (length v2))).
    destruct rf as [fs|e]; simpl.
    + destruct faces; simpl; repeat split; exists nodes; auto.
    + repeat split; exists nodes; auto.
  - intros e He. apply (rings_index _ Hrings He).
  - assert (Hnl : length nodes = length sk) by (unfold nodes; apply map_length).
    intros i [Hi|[Hi|Hi]].
    + assert (Hi' := Hag i Hi).
      assert (Hi0 : (0 <= i)%Z).
      { destruct Hi as [Hi|(h & Hin & Hi)]; unfold in_block in Hi; [lia|]. destruct (Hh h Hin). lia. }
      rewrite !py_get_nonneg in * by auto. f_equal.
      destruct (Nat.lt_ge_cases (Z.to_nat i) (length v1)).
      * rewrite !nth_error_app1 by lia. apply H; auto.
      * rewrite !nth_error_app2 by lia. rewrite Hl; auto.
    + unfold node_index in Hi.
      replace i with (Z.of_nat (length v2) + Z.of_nat (Z.to_nat (i - Z.of_nat (length v2))))%Z by lia.
      rewrite <- Hl at 1. rewrite !py_get_app_node by lia. auto.
    + destruct Hi as [-> (a & s & Ha & _)].
      assert (nodes <> []) by (intros E; rewrite E in Hnl; destruct sk; [destruct Ha|discriminate]).
      rewrite !py_get_app_last by auto. auto.
Qed.

(** *** face indices *)
Lemma polygonize_face_indices fuel sw sch dbg (verts : list (vec3 A)) first cnt holes hgt tan us fs :
  let hs := match holes with Some h => h | None => [] end in
  (0 <= first)%Z -> (1 <= cnt)%Z -> (forall h, In h hs -> 0 <= fst h /\ 1 <= snd h)%Z ->
  let o := polygonize fuel sw sch dbg verts first cnt holes hgt tan None us in
  o_result o = Ok fs ->
  exists contours sk zBase center,
    prepare verts first cnt holes us = Ok (zBase, center, contours) /\ skeletonize fuel contours = Ok sk /\
    length (o_verts o) = length verts + length sk /\
    (forall i, in_blocks first cnt hs i -> (0 <= i < Z.of_nat (length verts))%Z) /\
    forall f i, In f fs -> In i f ->
      in_blocks first cnt hs i \/ node_index (Z.of_nat (length verts)) sk i \/ bad_sink (concat contours) sk i.
Proof.
  intros hs Hf Hc Hh o Hr.
  destruct (polygonize_exits fuel sw sch dbg verts first cnt holes hgt tan None us)
    as [(e & E)|(zBase & center & contours & sk & Hp & Hs & [(e & _ & E)|(ta & Ht & [(e & _ & E)|(fs' & Hrf & E)])])];
    fold o in E; rewrite E in Hr; simpl in Hr; try discriminate.
  apply Ok_inj in Hr; subst fs'. fold hs in Hrf.
  assert (Hrings := @prepare_rings _ verts first cnt holes us zBase center contours Hc
                     (fun h Hin => proj2 (Hh h Hin)) Hp). fold hs in Hrings.
  exists contours, sk, zBase, center. split; auto. split; auto. split.
  - rewrite E. simpl. rewrite app_length, map_length; auto.
  - split.
    + assert (Hring : forall b es i, In b ((first, cnt) :: hs) -> ring_of verts center (fst b) (snd b) es ->
                in_block (fst b) (snd b) i -> (0 <= i < Z.of_nat (length verts))%Z).
      { intros b es i Hb [Hlen Hring] Hi. unfold in_block in Hi.
        assert (H0 : (0 <= fst b)%Z). { destruct Hb as [<-|Hb]; simpl; auto. destruct (Hh b Hb); auto. }
        split; [lia|]. destruct (Hring (Z.to_nat (i - fst b))) as (e & e' & _ & _ & H1 & _ & _ & H2); [lia|].
        replace i with (ei1 e) by lia. eapply local_pos_valid; [|exact H2]. lia. }
      intros i [Hi|(h & Hin & Hi)].
      * inversion Hrings; subst. eapply (Hring (first, cnt)); simpl; eauto.
      * destruct (Forall2_In_l h Hrings) as (es & _ & Hes); [right; auto|].
        eapply (Hring h); simpl; eauto.
    + intros f i Hfin Hi. eapply roof_faces_vertices; [|exact Hrf|exact Hfin|exact Hi].
      intros e He. apply (rings_index _ Hrings He).
Qed.
End Unrelated.
