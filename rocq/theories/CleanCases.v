(** * CleanCases: the clean-up over the reals, the border of the whole roof, concrete clean-ups *)

From Coq Require Import ZArith List Lia Permutation Bool Reals Lra.
From Verif Require Import Py PyFacts Arith ArithF ArithR Euclid Lav Graph GraphSpec GraphProofs Poly PolySpec PolyProofs FootSpec FootCases BorderSpec BorderProofs BorderCases
  EdgeIds SpikeEnd SpikeCases CleanSpec CleanProofs PropsPoly.
Set Implicit Arguments.
Unset Strict Implicit.
Local Open Scope Z_scope.

(** ** over the reals the test is symmetric *)
Lemma flat_mirror_R (verts : list (vec3 RA)) p t n : flat verts p t n -> flat verts n t p.
Proof.
  intros (vp & vt & vn & Hp & Ht & Hn & H). exists vn, vt, vp. split; auto. split; auto. split; auto. cbv zeta in *. runfold.
  assert (L : forall a b c d : R, sqrt (0 / 1 + (c - d) * (c - d) + (a - b) * (a - b)) = sqrt (0 / 1 + (d - c) * (d - c) + (b - a) * (b - a))) by (intros; f_equal; ring).
  rewrite (L (wx vt) (wx vn)), (L (wx vp) (wx vt)). intros E1 E2. destruct (H E2 E1) as (c & Hc & K). exists c. split; auto. rewrite <- Hc.
  rewrite (Rmult_comm (sqrt (0 / 1 + (wy vn - wy vt) * _ + _))).
  replace (0 / 1 + (wy vt - wy vn) * (wy vp - wy vt) + (wx vt - wx vn) * (wx vp - wx vt))%R
    with (0 / 1 + (wy vt - wy vp) * (wy vn - wy vt) + (wx vt - wx vp) * (wx vn - wx vt))%R by ring.
  reflexivity.
Qed.

Lemma flat_both_ways_R (verts : list (vec3 RA)) F : flat_both_ways verts F.
Proof. intros f p t n _ _. apply flat_mirror_R. Qed.

Lemma clean_border_R (verts : list (vec3 RA)) nr F F' : (forall f, In f F -> NoDup f) -> (forall a b, nr <= a \/ nr <= b -> border F a b = 0) ->
  no_flat_triangle verts nr F -> clean_faces verts nr F = Ok F' -> (forall a b, border F' a b = border F a b) /\ (forall pos, plan_area2 pos F' = plan_area2 pos F).
Proof.
  intros H1 H2 H3 H4. pose proof (clean_border H1 H2 H3 (@flat_both_ways_R verts F) H4) as B. split; auto. intros pos. apply plan_area_border. auto.
Qed.

(** ** from the graph to the roof *)
Lemma roof_border (A : arith) (verts : list (vec3 A)) sw es emb sch nr F F1 F2 walls arcs :
  no_parallel_edges es -> lists_neighbours es (neighbours emb) -> graph_faces sch (build sw es) emb nr = Ok F ->
  Permutation es (darts walls ++ arcs) -> (forall a b, In (a, b) (darts walls) -> a < nr /\ b < nr) -> (forall a b, In (a, b) arcs -> nr <= a \/ nr <= b) ->
  (forall a b, In (a, b) (darts walls) -> In (a, b) (darts F) /\ ~ In (b, a) (darts F)) ->
  remove_spikes verts nr F = Ok F1 -> clean_faces verts nr F1 = Ok F2 ->
  exists steps, despiked verts F steps /\ F1 = last steps F /\
    (Forall (tidy verts) (F :: steps) -> (forall f, In f F1 -> NoDup f) -> no_flat_triangle verts nr F1 -> flat_both_ways verts F1 ->
     (forall a b, border F2 a b = border walls a b) /\ (forall pos, plan_area2 pos F2 = plan_area2 pos walls)).
Proof.
  intros H1 H2 H3 P W AR I H4 H5. destruct (traced_border_area H1 H2 H3) as [G0 G]. destruct (G walls arcs P W AR I) as [B _].
  destruct (spikes_border_area H4) as (steps & D & E & K). exists steps. split; auto. split; auto. intros T Nd Nf M. destruct (K T) as [B1 _].
  assert (B2 : forall a b, border F2 a b = border walls a b).
  { intros a b. rewrite <- B, <- B1. apply (@clean_border A verts nr F1 Nd); auto. intros x y Hxy. rewrite B1. auto. }
  split; auto. intros pos. apply plan_area_border. auto.
Qed.

(** ** checking the hypotheses *)
Definition flatb (A : arith) (verts : list (vec3 A)) (c : Z * Z * Z) : bool :=
  let '(p, t, n) := c in
  match py_get verts p, py_get verts t, py_get verts n with
  | Ok vp, Ok vt, Ok vn =>
    let s0 := mkvec (wx (w_sub vt vp)) (wy (w_sub vt vp)) in
    let s1 := mkvec (wx (w_sub vn vt)) (wy (w_sub vn vt)) in
    if ntruth (vlen s0) && ntruth (vlen s1) then
      match pdiv (vdot s0 s1) (nmul (vlen s0) (vlen s1)) with Ok c => nltb (nabs (nsub c (lit 1 1))) (lit 1 100) | Err _ => false end
    else true
  | _, _, _ => false
  end.

Lemma flatb_spec (A : arith) (verts : list (vec3 A)) p t n : flat verts p t n <-> flatb verts (p, t, n) = true.
Proof.
  unfold flat, flatb. destruct (py_get verts p) as [vp|], (py_get verts t) as [vt|], (py_get verts n) as [vn|];
    try (split; [intros (a & b & c & E1 & E2 & E3 & _); discriminate|discriminate]).
  cbv zeta. split.
  - intros (a & b & c & E1 & E2 & E3 & H). apply Ok_inj in E1, E2, E3. subst a b c. destruct (ntruth _); cbn [andb]; auto. destruct (ntruth _); auto.
    destruct (H eq_refl eq_refl) as (c & -> & K). auto.
  - intros H. exists vp, vt, vn. split; auto. split; auto. split; auto. intros E1 E2. rewrite E1, E2 in H. cbn [andb] in H.
    destruct (pdiv _ _) as [c|] eqn:E; [|discriminate]. exists c. auto.
Qed.

Definition checkb (A : arith) (verts : list (vec3 A)) (nr : Z) (F : list (list Z)) : bool :=
  forallb (fun f => (if list_eq_dec Z.eq_dec (nodup Z.eq_dec f) f then true else false) &&
    forallb (fun c => implb (flatb verts c) (flatb verts (snd c, snd (fst c), fst (fst c)))) (corners_of f) &&
    forallb (fun c => negb ((Nat.leb (length f) 3) && (nr <=? snd (fst c)) && Nat.ltb (count_occ Z.eq_dec (concat F) (snd (fst c))) 3 && flatb verts c)) (corners_of f)) F.

Lemma checkb_spec (A : arith) (verts : list (vec3 A)) nr F : checkb verts nr F = true ->
  (forall f, In f F -> NoDup f) /\ no_flat_triangle verts nr F /\ flat_both_ways verts F.
Proof.
  intros H. unfold checkb in H. rewrite forallb_forall in H. split; [|split].
  - intros f Hf. specialize (H f Hf). apply andb_prop in H as [H _]. apply andb_prop in H as [H _]. destruct (list_eq_dec Z.eq_dec (nodup Z.eq_dec f) f) as [E|]; [|discriminate].
    rewrite <- E. apply NoDup_nodup.
  - intros f p t n Hf L Hc Lz C Fl. specialize (H f Hf). apply andb_prop in H as [_ H]. rewrite forallb_forall in H. specialize (H _ (corners_of_spec Hc)).
    cbn [fst snd] in H. apply flatb_spec in Fl. rewrite Fl in H. apply Nat.leb_le in L. apply Z.leb_le in Lz. unfold corners in C. apply Nat.ltb_lt in C.
    rewrite L, Lz, C in H. discriminate.
  - intros f p t n Hf Hc Fl. specialize (H f Hf). apply andb_prop in H as [H _]. apply andb_prop in H as [_ H]. rewrite forallb_forall in H. specialize (H _ (corners_of_spec Hc)).
    cbn [fst snd] in H. apply flatb_spec. apply flatb_spec in Fl. rewrite Fl in H. exact H.
Qed.

(** ** the roof of spike10: node 15, left in the middle of a ridge, is taken out of both faces beside it *)
Definition spike10_roof : list (list Z) :=
  [[8; 9; 11; 13]; [0; 1; 16]; [1; 2; 17; 16]; [2; 3; 12; 14; 17]; [3; 4; 12]; [4; 5; 14; 12]; [6; 7; 13; 11]; [7; 8; 13];
   [9; 0; 16; 17; 14; 5; 6; 11]].

Lemma spike10_cleaned : clean_faces (o_verts (roof_of 1 spike10)) 10 spike10_merged = Ok spike10_roof.
Proof. vm_compute. reflexivity. Qed.

Lemma spike10_check : checkb (o_verts (roof_of 1 spike10)) 10 spike10_merged = true.
Proof. vm_compute. reflexivity. Qed.

Lemma spike10_drop : flatb (o_verts (roof_of 1 spike10)) (16, 15, 0) = true.
Proof. vm_compute. reflexivity. Qed.

Lemma spike10_dropped : dropped (o_verts (roof_of 1 spike10)) 10 spike10_merged [0; 1; 16; 15] 15.
Proof.
  split; [simpl; lia|]. split; [lia|]. split; [vm_compute; lia|]. exists 16, 0. split; [|apply flatb_spec; exact spike10_drop].
  exists [1]. exists [0; 1], [16; 15]. auto.
Qed.

Lemma spike10_roof_border a b : border spike10_roof a b = border spike10_walls a b.
Proof.
  destruct (checkb_spec spike10_check) as (H1 & H2 & H3). rewrite <- spike10_border. exact (clean_border H1 spike10_no_gap H2 H3 spike10_cleaned a b).
Qed.

(** ** a flat triangle beside a node *)
Lemma flat_triangle_gap : exists (verts : list (vec3 F64)) F F',
  (forall f, In f F -> NoDup f) /\ (forall a b, 4 <= a \/ 4 <= b -> border F a b = 0) /\ clean_faces verts 4 F = Ok F' /\ border F' 4 0 = 1.
Proof.
  exists cl_verts, [[0; 4; 1; 2; 3]; [0; 1; 4]], [[0; 1; 2; 3]; [0; 1; 4]]. split; [|split; [|split]].
  - intros f [<-|[<-|[]]]; repeat constructor; simpl; lia.
  - apply gaps_spec. vm_compute. reflexivity.
  - exact ex_cleanup.
  - vm_compute. reflexivity.
Qed.

(** ** over the reals: two faces beside a ridge with a node 6 in the middle of it *)
Definition ridge_verts : list (vec3 RA) :=
  map (fun q => V3 (A := RA) (IZR (fst q)) (IZR (snd q)) 0%R) [(0, 0); (8, 0); (8, 4); (0, 4); (2, 2); (6, 2); (4, 2)].
Definition ridge_faces : list (list Z) := [[0; 1; 5; 6; 4]; [1; 2; 5]; [2; 3; 4; 6; 5]; [3; 0; 4]].
Definition ridge_cleaned : list (list Z) := [[0; 1; 5; 4]; [1; 2; 5]; [2; 3; 4; 5]; [3; 0; 4]].

Lemma ridge_no_gap : forall a b, 4 <= a \/ 4 <= b -> border ridge_faces a b = 0.
Proof. apply gaps_spec. vm_compute. reflexivity. Qed.

Lemma ridge_nodup : forall f, In f ridge_faces -> NoDup f.
Proof. intros f H. simpl in H. repeat (destruct H as [<-|H]; [repeat constructor; simpl; lia|]). destruct H. Qed.

Lemma ridge_triangles : no_flat_triangle ridge_verts 4 ridge_faces.
Proof.
  intros f p t n Hf L Hc Lz C _. assert (K : In t f) by (destruct Hc as (u & R); apply rotation_of_perm in R; eapply Permutation_in; [apply Permutation_sym; exact R|simpl; auto]).
  simpl in Hf. repeat (destruct Hf as [<-|Hf]; [simpl in L; try lia; simpl in K; repeat (destruct K as [<-|K]; [try lia; vm_compute in C; lia|]); destruct K|]). destruct Hf.
Qed.

Lemma ridge_at acc p n : p = 5 /\ n = 4 \/ p = 4 /\ n = 5 -> parallel_at ridge_verts (fun v => count_b (Z.eqb v) (concat ridge_faces)) 4 acc (p, 6, n) = Ok (acc ++ [6]).
Proof.
  intros H. assert (S2 : sqrt 4 = 2%R) by (replace 4%R with (2 * 2)%R by ring; apply sqrt_square; lra).
  assert (G4 : py_get ridge_verts 4 = Ok (V3 (A := RA) 2 2 0)%R) by reflexivity. assert (G5 : py_get ridge_verts 5 = Ok (V3 (A := RA) 6 2 0)%R) by reflexivity.
  assert (G6 : py_get ridge_verts 6 = Ok (V3 (A := RA) 4 2 0)%R) by reflexivity.
  assert (C : (Nat.ltb (count_b (Z.eqb 6) (concat ridge_faces)) 3 && (4 <=? 6)) = true) by (vm_compute; reflexivity).
  destruct H as [[-> ->]|[-> ->]]; unfold parallel_at; rewrite C, G4, G5, G6; cbn [bind]; unfold PARALLEL; runfold;
    repeat match goal with |- context [sqrt ?x] => progress replace x with 4%R by field end; rewrite S2;
    (destruct (Reqb_spec 2 (0 / 1)); [lra|]); cbn [negb andb]; (destruct (Reqb_spec (2 * 2) (0 / 1)); [lra|]); cbn [bind];
    match goal with |- context [Rabs ?x] => replace x with 0%R by field end; rewrite Rabs_R0; (destruct (Rltb_spec 0 (1 / 100)); [reflexivity|lra]).
Qed.

Lemma ridge_skip acc p t n : (Nat.ltb (count_b (Z.eqb t) (concat ridge_faces)) 3 && (4 <=? t)) = false ->
  parallel_at ridge_verts (fun v => count_b (Z.eqb v) (concat ridge_faces)) 4 acc (p, t, n) = Ok acc.
Proof. intros H. unfold parallel_at. rewrite H. reflexivity. Qed.

Lemma ridge_clean : clean_faces ridge_verts 4 ridge_faces = Ok ridge_cleaned.
Proof.
  assert (F1 : fix_parallel ridge_verts (fun v => count_b (Z.eqb v) (concat ridge_faces)) 4 [0; 1; 5; 6; 4] = Ok [0; 1; 5; 4]).
  { change (fix_parallel ridge_verts (fun v => count_b (Z.eqb v) (concat ridge_faces)) 4 [0; 1; 5; 6; 4]) with
      (rm <- parallel_scan ridge_verts (fun v => count_b (Z.eqb v) (concat ridge_faces)) 4 [] [(4, 0, 1); (0, 1, 5); (1, 5, 6); (5, 6, 4); (6, 4, 0)] ;; py_remove_all Z.eqb rm [0; 1; 5; 6; 4]).
    cbn [parallel_scan]. repeat (rewrite ridge_skip by (vm_compute; reflexivity); cbn [bind]). rewrite ridge_at by auto. cbn [bind].
    repeat (rewrite ridge_skip by (vm_compute; reflexivity); cbn [bind]). reflexivity. }
  assert (F2 : fix_parallel ridge_verts (fun v => count_b (Z.eqb v) (concat ridge_faces)) 4 [2; 3; 4; 6; 5] = Ok [2; 3; 4; 5]).
  { change (fix_parallel ridge_verts (fun v => count_b (Z.eqb v) (concat ridge_faces)) 4 [2; 3; 4; 6; 5]) with
      (rm <- parallel_scan ridge_verts (fun v => count_b (Z.eqb v) (concat ridge_faces)) 4 [] [(5, 2, 3); (2, 3, 4); (3, 4, 6); (4, 6, 5); (6, 5, 2)] ;; py_remove_all Z.eqb rm [2; 3; 4; 6; 5]).
    cbn [parallel_scan]. repeat (rewrite ridge_skip by (vm_compute; reflexivity); cbn [bind]). rewrite ridge_at by auto. cbn [bind].
    repeat (rewrite ridge_skip by (vm_compute; reflexivity); cbn [bind]). reflexivity. }
  unfold clean_faces. cbv zeta. unfold ridge_faces at 2. cbn [mapM]. rewrite F1, F2. reflexivity.
Qed.
