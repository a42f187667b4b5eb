(** * BorderCases: a footprint where removing a spike joins the roofs of two walls *)

From Coq Require Import ZArith List Lia Bool.
From Verif Require Import Py PyFacts Arith ArithF Euclid Lav Cluster Graph GraphSpec GraphProofs Poly PolySpec PolyProofs FootSpec FootCases BorderSpec BorderProofs.
Import ListNotations.
Set Implicit Arguments.
Unset Strict Implicit.
Local Open Scope Z_scope.

(** ** deciding whether the faces are tidy *)
Fixpoint nodupb (l : list (Z * Z)) : bool :=
  match l with [] => true | d :: t => negb (existsb (fun e => (fst e =? fst d) && (snd e =? snd d)) t) && nodupb t end.

Lemma nodupb_spec l : nodupb l = true -> NoDup l.
Proof.
  induction l as [|[a b] l IH]; intros H; [constructor|]. cbn [nodupb] in H. apply andb_true_iff in H as [H1 H2]. constructor; auto.
  intros Hi. apply negb_true_iff in H1. apply Bool.not_true_iff_false in H1. apply H1. apply existsb_exists. exists (a, b). cbn [fst snd]. rewrite !Z.eqb_refl. auto.
Qed.

Definition corners_of (f : list Z) : list (Z * Z * Z) :=
  concat (map (fun i => match rot i f with p :: t :: n :: _ => [(p, t, n)] | _ => [] end) (seq 0 (length f))).

Lemma corners_of_spec f p t n : consecutive f p t n -> In (p, t, n) (corners_of f).
Proof.
  intros (u & a & b & E1 & E2). apply in_concat. exists [(p, t, n)]. split; [|simpl; auto]. apply in_map_iff.
  assert (G : forall i, rot i f = p :: t :: n :: u -> match rot i f with p :: t :: n :: _ => [(p, t, n)] | _ => [] end = [(p, t, n)]).
  { intros i ->. reflexivity. }
  destruct b as [|y b].
  - exists 0%nat. split; [|apply in_seq; simpl in E2; subst f; rewrite app_nil_r, <- E2; simpl; lia].
    apply G. unfold rot. simpl. rewrite app_nil_r in *. simpl in E2. congruence.
  - exists (length a). split; [|apply in_seq; subst f; rewrite app_length; simpl; lia].
    apply G. unfold rot. subst f. rewrite skipn_app, skipn_all, Nat.sub_diag, firstn_app, firstn_all, Nat.sub_diag. simpl. rewrite app_nil_r. simpl in E2. congruence.
Qed.

Lemma spiky_is_spike (A : arith) (verts : list (vec3 A)) p t n : spiky verts p t n -> is_spike verts (p, t, n) = Ok true.
Proof.
  intros (vp & vt & vn & H1 & H2 & H3 & H4 & H5 & c & H6 & H7 & H8). unfold is_spike. rewrite H1, H2, H3. cbn [bind]. rewrite H4, H5. cbn [andb].
  rewrite H6. cbn [bind]. unfold PARALLEL, EPSILON, oneN. rewrite H7, H8. reflexivity.
Qed.

Definition dart_in (a b : Z) (f : list Z) : bool := existsb (fun e => (fst e =? a) && (snd e =? b)) (darts_of f).

Lemma dart_in_spec a b f : In (a, b) (darts_of f) -> dart_in a b f = true.
Proof. intros H. apply existsb_exists. exists (a, b). cbn [fst snd]. rewrite !Z.eqb_refl. auto. Qed.

Definition tidyb (A : arith) (verts : list (vec3 A)) (F : list (list Z)) : bool :=
  nodupb (darts F) &&
  forallb (fun f => forallb (fun ptn => let '(p, t, n) := ptn in
    match is_spike verts (p, t, n) with
    | Ok true =>
      if (p =? n)%Z then (count_occ Z.eq_dec f t =? 1)%nat && (count_occ Z.eq_dec f p =? 2)%nat
      else forallb (fun g => (count_occ Z.eq_dec g t <=? 1)%nat && (count_occ Z.eq_dec g p <=? 1)%nat && negb (dart_in t p g && dart_in n t g)) F
    | _ => true
    end) (corners_of f)) F.

Lemma tidyb_spec (A : arith) (verts : list (vec3 A)) F : tidyb verts F = true -> tidy verts F.
Proof.
  unfold tidyb. intros H. apply andb_true_iff in H as [H1 H2]. split; [apply nodupb_spec; auto|].
  intros f p t n Hf Hc Hs. rewrite forallb_forall in H2. specialize (H2 f Hf). rewrite forallb_forall in H2. specialize (H2 _ (corners_of_spec Hc)).
  cbn beta iota in H2. rewrite (spiky_is_spike Hs) in H2. destruct (p =? n).
  - apply andb_true_iff in H2 as [K1 K2]. apply Nat.eqb_eq in K1, K2. auto.
  - intros g Hg. rewrite forallb_forall in H2. specialize (H2 g Hg). apply andb_true_iff in H2 as [K K3]. apply andb_true_iff in K as [K1 K2].
    apply Nat.leb_le in K1, K2. split; auto. split; auto. intros [D1 D2]. apply dart_in_spec in D1, D2. rewrite D1, D2 in K3. discriminate.
Qed.

(** ** the stages of polygonize *)
Definition stages (den : positive) (ps : list (Z * Z)) : res (list (list Z) * list (list Z)) :=
  let verts := map (corner3 den) ps in
  let n := Z.of_nat (length ps) in
  p <- prepare verts 0 n None None ;;
  let '(zBase, center, contours) := p in
  sk <- skeletonize 300 contours ;;
  tan <- slope sk (lit (a := F64) 0 1) (lit (a := F64) 1 1) ;;
  let verts' := verts ++ map (skeleton_node3D center tan zBase) sk in
  g <- build_graph (fun _ _ => false) 0 n [] (concat contours) sk n ;;
  emb <- circular_embedding g verts' true ;;
  F <- graph_faces (fun _ _ => O) g emb n ;;
  F1 <- remove_spikes verts' n F ;;
  Ok (F, F1).

Lemma stages_roof den ps F F1 : stages den ps = Ok (F, F1) ->
  remove_spikes (o_verts (roof_of den ps)) (Z.of_nat (length ps)) F = Ok F1 /\
  o_result (roof_of den ps) = clean_faces (o_verts (roof_of den ps)) (Z.of_nat (length ps)) F1.
Proof.
  unfold stages, roof_of. intros H. apply bind_ok in H. destruct H as ([[zB ce] co] & H1 & H). cbn beta iota in H.
  apply bind_ok in H. destruct H as (sk & H2 & H). apply bind_ok in H. destruct H as (tn & H3 & H).
  apply bind_ok in H. destruct H as (g & H4 & H). apply bind_ok in H. destruct H as (emb & H5 & H).
  apply bind_ok in H. destruct H as (F0 & H6 & H). apply bind_ok in H. destruct H as (F2 & H7 & H).
  apply Ok_inj in H. injection H as -> ->. unfold polygonize. rewrite H1. cbn [bind]. rewrite H2. cbn [bind]. rewrite H3. cbv iota beta.
  unfold roof_faces. rewrite map_length, H4. cbn [bind]. rewrite H5. cbn [bind]. rewrite H6. cbn [bind]. rewrite H7. cbn [bind].
  destruct (clean_faces _ _ F1) eqn:E; cbn [o_verts o_result]; rewrite ?E; auto.
Qed.

Definition spike10 : list (Z * Z) :=
  [(1, 4); (5, 1); (18, 6); (17, 14); (24, 14); (14, 18); (13, 17); (16, 21); (13, 24); (10, 18)].

Lemma spike10_simple : simple_foot spike10.
Proof. apply simpleb_spec. vm_compute. reflexivity. Qed.


Definition spike10_traced : list (list Z) :=
  [[9; 0; 15; 10; 11]; [8; 9; 11; 13]; [0; 1; 16; 15]; [1; 2; 17; 16]; [2; 3; 12; 14; 17]; [3; 4; 12];
   [4; 5; 14; 12]; [5; 6; 10; 15; 16; 17; 14]; [6; 7; 13; 11; 10]; [7; 8; 13]].
(** the strip 11, 10, 6 is gone; its sides run from 15 to 10 and back *)
Definition spike10_strip : list (list Z) :=
  [[8; 9; 11; 13]; [0; 1; 16; 15]; [1; 2; 17; 16]; [2; 3; 12; 14; 17]; [3; 4; 12]; [4; 5; 14; 12];
   [6; 7; 13; 11]; [7; 8; 13]; [9; 0; 15; 10; 15; 16; 17; 14; 5; 6; 11]].
Definition spike10_merged : list (list Z) :=
  [[8; 9; 11; 13]; [0; 1; 16; 15]; [1; 2; 17; 16]; [2; 3; 12; 14; 17]; [3; 4; 12]; [4; 5; 14; 12];
   [6; 7; 13; 11]; [7; 8; 13]; [9; 0; 15; 16; 17; 14; 5; 6; 11]].

Lemma spike10_stages : stages 1 spike10 = Ok (spike10_traced, spike10_merged).
Proof. vm_compute. reflexivity. Qed.

Lemma spike10_faces : faces_of 1 spike10 =
  [[8; 9; 11; 13]; [0; 1; 16]; [1; 2; 17; 16]; [2; 3; 12; 14; 17]; [3; 4; 12]; [4; 5; 14; 12]; [6; 7; 13; 11]; [7; 8; 13];
   [9; 0; 16; 17; 14; 5; 6; 11]].
Proof. vm_compute. reflexivity. Qed.

(** one face for each wall *)
Definition wallb (n i : Z) (f : list Z) : bool := dart_in i ((i + 1) mod n) f.

Lemma has_wall_dart n i f : has_wall n i f -> wallb n i f = true.
Proof.
  intros (k & H1 & H2). unfold wallb. apply dart_in_spec. unfold cyc in *.
  destruct f as [|x f]; [destruct (k mod length (@nil Z))%nat; discriminate|].
  assert (Hk : (k mod length (x :: f) < length (x :: f))%nat) by (apply Nat.mod_upper_bound; discriminate).
  rewrite <- (Nat.add_mod_idemp_l k 1) in H2 by discriminate. set (j := (k mod length (x :: f))%nat) in *. clearbody j.
  destruct (Nat.eq_dec (S j) (length (x :: f))) as [E|E].
  - replace ((j + 1) mod length (x :: f))%nat with 0%nat in H2 by (rewrite Nat.add_1_r, E, Nat.mod_same by discriminate; auto).
    simpl in H2. injection H2 as H2. rewrite <- H2. apply nth_error_split in H1 as (l1 & l2 & E1 & E2).
    assert (l2 = []). { rewrite E1, app_length in E. cbn [length] in E. destruct l2; auto. cbn [length] in E. lia. }
    subst l2. destruct l1 as [|y l1]; simpl in E1; injection E1 as -> ->; [simpl; auto|].
    rewrite darts_walk, walk_end. apply in_app_iff. simpl. auto.
  - rewrite Nat.mod_small in H2 by lia. apply nth_error_split in H1 as (l1 & l2 & E1 & E2). rewrite E1 in H2. rewrite nth_error_app2 in H2 by lia.
    replace (j + 1 - length l1)%nat with 1%nat in H2 by lia. simpl in H2. destruct l2 as [|y l2]; [discriminate|]. simpl in H2. injection H2 as ->.
    rewrite E1. destruct l1 as [|z l1]; [simpl; auto|]. change ((z :: l1) ++ i :: (i + 1) mod n :: l2) with (z :: l1 ++ i :: (i + 1) mod n :: l2). rewrite darts_walk, walk_app. apply in_app_iff. right. destruct l2; simpl; auto.
Qed.

Definition one_wall (n : Z) (f : list Z) : bool :=
  Nat.eqb (length (filter (fun i => wallb n i f) (zrange 0 n))) 1.

Lemma one_wall_spec n f i j : one_wall n f = true -> 0 <= i < n -> 0 <= j < n -> has_wall n i f -> has_wall n j f -> i = j.
Proof.
  unfold one_wall. intros H Hi Hj Wi Wj. apply Nat.eqb_eq in H. apply has_wall_dart in Wi, Wj.
  assert (Ii : In i (filter (fun i => wallb n i f) (zrange 0 n))) by (apply filter_In; split; auto; apply In_zrange; lia).
  assert (Ij : In j (filter (fun i => wallb n i f) (zrange 0 n))) by (apply filter_In; split; auto; apply In_zrange; lia).
  destruct (filter _ _) as [|x [|y l]]; try discriminate. destruct Ii as [<-|[]], Ij as [<-|[]]. auto.
Qed.

Lemma spike_joins_walls : exists ps F F1 fs f, simple_foot ps /\
  stages 1 ps = Ok (F, F1) /\ o_result (roof_of 1 ps) = Ok fs /\
  (forall g i j, In g F -> 0 <= i < Z.of_nat (length ps) -> 0 <= j < Z.of_nat (length ps) ->
     has_wall (Z.of_nat (length ps)) i g -> has_wall (Z.of_nat (length ps)) j g -> i = j) /\
  In f fs /\ has_wall (Z.of_nat (length ps)) 9 f /\ has_wall (Z.of_nat (length ps)) 5 f.
Proof.
  destruct (@faces_of_ok 1 spike10 [9; 0; 16; 17; 14; 5; 6; 11]) as (fs & H1 & H2); [rewrite spike10_faces; simpl; tauto|].
  exists spike10, spike10_traced, spike10_merged, fs, [9; 0; 16; 17; 14; 5; 6; 11]. split; [apply spike10_simple|].
  split; [apply spike10_stages|]. split; [exact H1|]. split; [|split; [exact H2|]].
  - intros g i j Hg. apply one_wall_spec.
    assert (K : forallb (one_wall (Z.of_nat (length spike10))) spike10_traced = true) by (vm_compute; reflexivity).
    rewrite forallb_forall in K. auto.
  - split; [exists O|exists 5%nat]; split; reflexivity.
Qed.

(** ** the hypotheses of C54 for this footprint *)
Definition spike10_walls : list (list Z) := [[9; 0; 1; 2; 3; 4; 5; 6; 7; 8]].
Definition spike10_arcs : list (Z * Z) :=
  [(10, 6); (11, 9); (11, 10); (12, 3); (12, 4); (13, 11); (13, 7); (13, 8); (14, 12); (14, 5); (15, 10); (15, 0);
   (16, 15); (16, 1); (17, 16); (17, 2); (17, 14)].
Definition spike10_edges := darts spike10_walls ++ spike10_arcs.

Definition spike10_emb : gdict :=
  match circular_embedding (build (fun _ _ => false) spike10_edges) (o_verts (roof_of 1 spike10)) true with Ok e => e | Err _ => [] end.

Lemma spike10_edges_simple : no_parallel_edges spike10_edges.
Proof. apply simpleb_ok; vm_compute; reflexivity. Qed.

Lemma emb_neighbours (A : arith) sw es (vl : list (vec3 A)) emb : no_parallel_edges es ->
  match circular_embedding (build sw es) vl true with Ok e => Some e | Err _ => None end = Some emb -> lists_neighbours es (neighbours emb).
Proof.
  intros Hs H. destruct (circular_embedding _ _ _) eqn:E; [|discriminate]. injection H as ->.
  apply (@perm_lists_neighbours sw es emb Hs). apply (proj2 (circular_embedding_perm _ _ _ E)).
Qed.

Lemma spike10_neighbours : lists_neighbours spike10_edges (neighbours spike10_emb).
Proof.
  apply (@emb_neighbours F64 (fun _ _ => false) spike10_edges (o_verts (roof_of 1 spike10))); [apply spike10_edges_simple|].
  vm_compute. reflexivity.
Qed.

Lemma spike10_is_traced : graph_faces (fun _ _ => O) (build (fun _ _ => false) spike10_edges) spike10_emb 10 = Ok spike10_traced.
Proof. vm_compute. reflexivity. Qed.

Lemma spike10_tidy : forallb (tidyb (o_verts (roof_of 1 spike10))) [spike10_traced; spike10_strip; spike10_merged] = true.
Proof. vm_compute. reflexivity. Qed.

Lemma spike10_pass1 : spike_pass (o_verts (roof_of 1 spike10)) 10 spike10_traced (seq 0 10) = Ok (Some spike10_strip).
Proof. vm_compute. reflexivity. Qed.

Lemma spike10_pass2 : spike_pass (o_verts (roof_of 1 spike10)) 10 spike10_strip (seq 0 9) = Ok (Some spike10_merged).
Proof. vm_compute. reflexivity. Qed.

Lemma spike10_removed : remove_spikes (o_verts (roof_of 1 spike10)) 10 spike10_traced = Ok spike10_merged.
Proof. exact (proj1 (stages_roof spike10_stages)). Qed.

Lemma tidyb_all (A : arith) (verts : list (vec3 A)) L : forallb (tidyb verts) L = true -> Forall (tidy verts) L.
Proof. intros H. apply Forall_forall. intros F HF. apply tidyb_spec. rewrite forallb_forall in H. auto. Qed.

Lemma spike10_stages_tidy : Forall (tidy (o_verts (roof_of 1 spike10))) [spike10_traced; spike10_strip; spike10_merged].
Proof. exact (tidyb_all spike10_tidy). Qed.

Lemma pass_border (A : arith) (verts : list (vec3 A)) nr F F' : tidy verts F ->
  spike_pass verts nr F (seq 0 (length F)) = Ok (Some F') -> forall a b, border F' a b = border F a b.
Proof. intros T H a b. destruct (pass_unspiked T H) as (p & t & n & _ & _ & U). eapply unspiked_border; eauto. Qed.

Lemma darts_check F walls : forallb (fun d => existsb (fun e => (fst e =? fst d) && (snd e =? snd d)) (darts F) &&
    negb (existsb (fun e => (fst e =? snd d) && (snd e =? fst d)) (darts F))) (darts walls) = true ->
  forall a b, In (a, b) (darts walls) -> In (a, b) (darts F) /\ ~ In (b, a) (darts F).
Proof.
  intros H a b Hi. rewrite forallb_forall in H. specialize (H _ Hi). apply andb_true_iff in H as [H1 H2]. cbn [fst snd] in *. split.
  - apply existsb_exists in H1 as ([x y] & Hx & E). cbn [fst snd] in E. apply andb_true_iff in E as [E1 E2]. apply Z.eqb_eq in E1, E2. subst. auto.
  - intros K. apply negb_true_iff, Bool.not_true_iff_false in H2. apply H2, existsb_exists. exists (b, a). cbn [fst snd]. rewrite !Z.eqb_refl. auto.
Qed.

Lemma spike10_border a b : border spike10_merged a b = border spike10_walls a b.
Proof.
  rewrite (pass_border (Forall_inv (Forall_inv_tail spike10_stages_tidy)) spike10_pass2).
  rewrite (pass_border (Forall_inv spike10_stages_tidy) spike10_pass1).
  apply (proj1 (proj2 (traced_border_area spike10_edges_simple spike10_neighbours spike10_is_traced) spike10_walls spike10_arcs
    (Permutation.Permutation_refl _)
    ltac:(intros x y H; simpl in H; repeat (destruct H as [H|H]; [injection H as <- <-; lia|]); destruct H)
    ltac:(intros x y H; simpl in H; repeat (destruct H as [H|H]; [injection H as <- <-; lia|]); destruct H)
    (@darts_check spike10_traced spike10_walls eq_refl))).
Qed.
