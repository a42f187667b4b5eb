(** * RenumProofs: the faces of a renumbered roof are the renumbered faces *)

From Coq Require Import ZArith List Lia Bool.
From Verif Require Import Py PyFacts Arith Euclid PySort Heapq Graph Lav Cluster Poly TurnSpec SymLav RenumLav.
Set Implicit Arguments.
Unset Strict Implicit.

(** ** sorting and lists under a map *)
Section SortMap.
Variables S T : Type.
Variable f : S -> T.
Variable lt : T -> T -> res bool.
Variable lt' : S -> S -> res bool.
Hypothesis same : forall a b, lt (f a) (f b) = lt' a b.

Lemma run_len_map down l : forall p, run_len lt down (f p) (map f l) = run_len lt' down p l.
Proof. induction l as [|x l IH]; intros p; cbn [map run_len]; auto. rewrite same. destruct (lt' x p) as [b|]; cbn [bind]; auto. rewrite IH. auto. Qed.

Lemma count_run_map l : count_run lt (map f l) = count_run lt' l.
Proof. destruct l as [|x [|y l]]; auto. cbn [map count_run]. rewrite same. destruct (lt' y x) as [b|]; cbn [bind]; auto. rewrite run_len_map. auto. Qed.

Lemma bsearch_map fuel x l : forall lo hi, bsearch lt fuel (f x) (map f l) lo hi = bsearch lt' fuel x l lo hi.
Proof.
  induction fuel as [|n IH]; intros lo hi; auto. cbn [bsearch]. destruct (Nat.ltb lo hi); auto. cbv zeta. rewrite nth_error_map. destruct (nth_error l _) as [y|]; cbn [option_map]; auto.
  rewrite same. destruct (lt' x y) as [[|]|]; cbn [bind]; auto.
Qed.

Lemma binarysort_map l : forall p, binarysort lt (map f p) (map f l) = res_map (map f) (binarysort lt' p l).
Proof.
  induction l as [|x l IH]; intros p; auto. cbn [map binarysort]. rewrite map_length, bsearch_map. destruct (bsearch lt' _ x p _ _) as [i|]; cbn [bind]; auto.
  rewrite <- IH. f_equal. rewrite map_app. cbn [map]. rewrite <- firstn_map, <- skipn_map. auto.
Qed.

Lemma py_sorted_map l : py_sorted lt (map f l) = res_map (map f) (py_sorted lt' l).
Proof.
  unfold py_sorted. destruct l as [|x [|y l]]; auto. change (map f (x :: y :: l)) with (f x :: f y :: map f l). cbv iota.
  change (f x :: f y :: map f l) with (map f (x :: y :: l)). rewrite count_run_map. destruct (count_run lt' _) as [[d k]|]; cbn [bind]; auto.
  rewrite <- binarysort_map, skipn_map, firstn_map. f_equal. destruct d; auto. rewrite map_rev. auto.
Qed.
End SortMap.

Lemma combine_map2 S T X Y (f : S -> T) (g : X -> Y) (a : list S) : forall b, combine (map f a) (map g b) = map (fun p => (f (fst p), g (snd p))) (combine a b).
Proof. induction a as [|x a IH]; intros [|y b]; cbn [map combine]; auto. rewrite IH. auto. Qed.

Section ListMap.
Variables S T : Type.
Variable f : S -> T.

Lemma rot_map i (l : list S) : rot i (map f l) = map f (rot i l).
Proof. unfold rot. rewrite map_app, firstn_map, skipn_map. auto. Qed.

Lemma circ3_map (l : list S) : circ_prev_this_next (map f l) = res_map (map (fun p => (f (fst (fst p)), f (snd (fst p)), f (snd p)))) (circ_prev_this_next l).
Proof.
  destruct l as [|x l]; auto. unfold circ_prev_this_next. cbn [map]. change (f x :: map f l) with (map f (x :: l)). rewrite last_map_f, removelast_map. cbn [res_map]. f_equal.
  change (f (last (x :: l) x) :: map f (removelast (x :: l))) with (map f (last (x :: l) x :: removelast (x :: l))).
  change [f x] with (map f [x]). rewrite <- map_app. rewrite !combine_map2. auto.
Qed.

Variable eqb : T -> T -> bool.
Variable eqb' : S -> S -> bool.
Hypothesis same : forall a b, eqb (f a) (f b) = eqb' a b.

Lemma py_in_map x l : py_in eqb (f x) (map f l) = py_in eqb' x l.
Proof. unfold py_in. apply existsb_map_f. auto. Qed.

Lemma py_remove_map x l : py_remove eqb (f x) (map f l) = res_map (map f) (py_remove eqb' x l).
Proof. induction l as [|y l IH]; cbn [map py_remove]; auto. rewrite same. destruct (eqb' y x); auto. rewrite IH. destruct (py_remove eqb' x l); auto. Qed.

Lemma py_remove_all_map xs : forall l, py_remove_all eqb (map f xs) (map f l) = res_map (map f) (py_remove_all eqb' xs l).
Proof. induction xs as [|x xs IH]; intros l; cbn [map py_remove_all]; auto. rewrite py_remove_map. destruct (py_remove eqb' x l); cbn [res_map bind]; auto. Qed.

Lemma list_eqb_map a : forall b, list_eqb eqb (map f a) (map f b) = list_eqb eqb' a b.
Proof. induction a as [|x a IH]; intros [|y b]; cbn [map list_eqb]; auto. rewrite same. fold (list_eqb eqb) (list_eqb eqb'). rewrite IH. auto. Qed.

Lemma find_map_f (p : T -> bool) (q : S -> bool) l : (forall x, p (f x) = q x) -> find p (map f l) = option_map f (find q l).
Proof. intros H. induction l as [|x l IH]; cbn [map find]; auto. rewrite H. destruct (q x); auto. Qed.
End ListMap.

(** ** the graph *)
Section Graph.
Context {A : arith}.
Variable r : Z -> Z.
Hypothesis inj : forall a b, r a = r b -> a = b.
Variables V V' : list (vec3 A).
Hypothesis good : forall i, py_get V' (r i) = py_get V i.
Variables n n' : Z.
Hypothesis thr : forall i, (r i <? n')%Z = (i <? n)%Z.
Hypothesis n_le : (n <= n')%Z.
Variables sw sw' : Z -> Z -> bool.
Hypothesis sw_same : forall a b, sw' (r a) (r b) = sw a b.
Variables sch sch' : schedule.
Definition rd (e : dart) : dart := (r (fst e), r (snd e)).
Definition rg (g : gdict) : gdict := map (fun kl => (r (fst kl), map r (snd kl))) g.
Hypothesis sch_same : forall k s, sch' k (map rd s) = sch k s.

Lemma zeqb_r a b : (r a =? r b)%Z = (a =? b)%Z.
Proof. apply eq_iff_eq_true. rewrite !Z.eqb_eq. split; [apply inj|congruence]. Qed.

Lemma dart_eqb_r a b : dart_eqb (rd a) (rd b) = dart_eqb a b.
Proof. unfold dart_eqb, rd. cbn [fst snd]. rewrite !zeqb_r. auto. Qed.

Lemma dict_find_r g v : dict_find (rg g) (r v) = option_map (map r) (dict_find g v).
Proof. induction g as [|[k l] g IH]; cbn [rg map dict_find fst snd]; auto. rewrite zeqb_r. destruct (k =? v)%Z; auto. Qed.

Lemma neighbours_r g v : neighbours (rg g) (r v) = map r (neighbours g v).
Proof. unfold neighbours. rewrite dict_find_r. destruct (dict_find g v); auto. Qed.

Lemma add_vertex_r g v : add_vertex (rg g) (r v) = rg (add_vertex g v).
Proof. unfold add_vertex. rewrite dict_find_r. destruct (dict_find g v); cbn [option_map]; auto. unfold rg. rewrite map_app. auto. Qed.

Lemma append_to_r g v w : append_to (rg g) (r v) (r w) = rg (append_to g v w).
Proof.
  induction g as [|[k l] g IH]; cbn [rg map append_to fst snd]; auto. rewrite zeqb_r. destruct (k =? v)%Z; cbn [map fst snd]; [rewrite map_app; auto|]. f_equal. exact IH.
Qed.

Lemma add_edge_r g e : add_edge sw' (rg g) (rd e) = rg (add_edge sw g e).
Proof.
  destruct e as [a b]. unfold add_edge, rd. cbn [fst snd]. rewrite zeqb_r, sw_same. destruct (a =? b)%Z; auto. destruct (sw a b); rewrite !add_vertex_r, !append_to_r; auto.
Qed.

Lemma add_edges_r es : forall g, fold_left (add_edge sw') (map rd es) (rg g) = rg (fold_left (add_edge sw) es g).
Proof. induction es as [|e es IH]; intros g; cbn [map fold_left]; auto. rewrite add_edge_r. apply IH. Qed.

Lemma edges_r g : edges (rg g) = map rd (edges g).
Proof.
  unfold edges. induction g as [|[k l] g IH]; cbn [rg map flat_map]; auto. rewrite map_app. f_equal; [|exact IH]. cbn [fst snd]. rewrite !map_map. auto.
Qed.

Lemma angle_lt_r c a b : angle_lt V' (r c) (r a) (r b) = angle_lt V c a b.
Proof. unfold angle_lt, compare_angles. rewrite !good. auto. Qed.

Lemma embedding_r g ccw : circular_embedding (rg g) V' ccw = res_map rg (circular_embedding g V ccw).
Proof.
  unfold circular_embedding, rg. apply mapM_map. intros [k l]. cbn [fst snd]. rewrite (py_sorted_map (angle_lt_r k)).
  destruct (py_sorted _ l) as [l'|]; cbn [res_map bind fst snd]; auto. destruct ccw; auto. rewrite map_rev. auto.
Qed.

Lemma set_add_r x s : set_add (rd x) (map rd s) = map rd (set_add x s).
Proof. unfold set_add. rewrite (py_in_map dart_eqb_r). destruct (py_in _ _ _); auto. rewrite map_app. auto. Qed.

Lemma set_remove_r x s : set_remove (rd x) (map rd s) = map rd (set_remove x s).
Proof. unfold set_remove. apply filter_map_f. intros y. rewrite dart_eqb_r. auto. Qed.

Lemma edge_set_r g : edge_set (rg g) = map rd (edge_set g).
Proof.
  unfold edge_set. rewrite edges_r. change (@nil dart) with (map rd []) at 1. generalize (@nil dart). induction (edges g) as [|e es IH]; intros s; cbn [map fold_left]; auto.
  change (fst (rd e), snd (rd e)) with (rd (fst e, snd e)). change (snd (rd e), fst (rd e)) with (rd (snd e, fst e)). rewrite !set_add_r. apply IH.
Qed.

Lemma pick_r k s : pick_dart sch' k (map rd s) = option_map rd (pick_dart sch k s).
Proof.
  unfold pick_dart. destruct s as [|x s]; auto. change (map rd (x :: s)) with (rd x :: map rd s). cbv iota. change (rd x :: map rd s) with (map rd (x :: s)).
  rewrite sch_same, map_length, nth_error_map. auto.
Qed.

Lemma start_path_r k s : start_path sch' k (map rd s) = (map rd (fst (start_path sch k s)), map rd (snd (start_path sch k s))).
Proof. unfold start_path. rewrite pick_r. destruct (pick_dart sch k s); cbn [option_map fst snd map]; auto. rewrite set_remove_r. auto. Qed.

Lemma next_node_r emb u v : next_node (rg emb) (r u) (r v) = res_map r (next_node emb u v).
Proof.
  unfold next_node. cbv zeta. rewrite neighbours_r. rewrite (@find_pos_map _ _ r _ (fun x => (x =? u)%Z)) by (intros; apply zeqb_r).
  destruct (find_pos _ _) as [i|]; cbn [of_option bind]; auto. rewrite map_length, nth_error_map. destruct (nth_error _ _); auto.
Qed.

Lemma trace_r emb : forall fuel k s p fs,
  trace fuel sch' k (rg emb) (map rd s) (map rd p) (map (map rd) fs) = res_map (map (map rd)) (trace fuel sch k emb s p fs).
Proof.
  induction fuel as [|f IH]; intros k s p fs; auto. cbn [trace]. destruct s as [|x s].
  - cbn [map]. destruct p as [|y p]; cbn [map res_map]; auto. rewrite map_app. auto.
  - change (map rd (x :: s)) with (rd x :: map rd s). cbv iota. change (rd x :: map rd s) with (map rd (x :: s)). destruct p as [|p0 p]; auto.
    change (map rd (p0 :: p)) with (rd p0 :: map rd p). cbv iota. change (rd p0 :: map rd p) with (map rd (p0 :: p)). rewrite last_map_f.
    destruct (last (p0 :: p) p0) as [u v]. cbn [rd fst snd]. rewrite next_node_r. destruct (next_node emb u v) as [w|]; cbn [res_map bind]; auto. cbv zeta.
    change (r v, r w) with (rd (v, w)). rewrite dart_eqb_r, (py_in_map dart_eqb_r), set_remove_r, start_path_r. destruct (dart_eqb (v, w) p0).
    + destruct (start_path sch k (x :: s)) as [p' s']. cbn [fst snd]. change [map rd (p0 :: p)] with (map (map rd) [p0 :: p]). rewrite <- map_app. apply IH.
    + destruct (py_in dart_eqb (v, w) (p0 :: p)); auto. change [rd (v, w)] with (map rd [(v, w)]). rewrite <- map_app. apply IH.
Qed.

Lemma face_paths_r g emb : face_paths sch' (rg g) (rg emb) = res_map (map (map rd)) (face_paths sch g emb).
Proof.
  unfold face_paths. cbv zeta. rewrite edge_set_r, start_path_r. destruct (start_path sch 0 (edge_set g)) as [p s]. cbn [fst snd].
  unfold trace_fuel. rewrite map_length. apply (@trace_r emb _ 1%nat s p []).
Qed.

Lemma final_faces_r ps : final_faces n' (map (map rd) ps) = map (map r) (final_faces n ps).
Proof.
  unfold final_faces. rewrite map_map.
  assert (E : map (fun face => map fst (rotate_orig n' (map rd face))) ps = map (map r) (map (fun face => map fst (rotate_orig n face)) ps)).
  { rewrite map_map. apply map_ext. intros f. unfold rotate_orig. rewrite (@find_pos_map _ _ rd _ (is_orig_edge n)).
    - destruct (find_pos _ f); rewrite ?rot_map, !map_map; auto.
    - intros [a b]. unfold is_orig_edge. cbn [rd fst snd]. rewrite !thr. auto. }
  rewrite E. apply filter_map_f. intros vl. apply existsb_map_f. intros i. pose proof (thr i). lia.
Qed.

Lemma graph_faces_r g emb : graph_faces sch' (rg g) (rg emb) n' = res_map (map (map r)) (graph_faces sch g emb n).
Proof. unfold graph_faces. rewrite face_paths_r. destruct (face_paths sch g emb); cbn [res_map bind]; auto. rewrite final_faces_r. auto. Qed.

(** ** spikes *)
Definition r3 (p : Z * Z * Z) := (r (fst (fst p)), r (snd (fst p)), r (snd p)).

Lemma is_spike_r p : is_spike V' (r3 p) = is_spike V p.
Proof. destruct p as [[a b] c]. unfold is_spike, r3. cbn [fst snd]. rewrite !good. auto. Qed.

Lemma find_spike_r l : find_spike V' (map r3 l) = res_map (option_map r3) (find_spike V l).
Proof. induction l as [|p l IH]; cbn [map find_spike]; auto. rewrite is_spike_r. destruct (is_spike V p) as [[|]|]; cbn [bind res_map]; auto. Qed.

Lemma has_edge_r a b f : has_edge (r a) (r b) (map r f) = has_edge a b f.
Proof.
  unfold has_edge. rewrite circ_map. destruct (circ_prev_next f) as [pn|]; cbn [res_map bind]; auto. f_equal. apply existsb_map_f. intros p. cbn [fst snd]. rewrite !zeqb_r. auto.
Qed.

Lemma adjacent_r a b c fs : forall i x y, adjacent_faces (r a) (r b) (r c) i (map (map r) fs) x y = adjacent_faces a b c i fs x y.
Proof.
  induction fs as [|f fs IH]; intros i x y; cbn [map adjacent_faces]; auto. rewrite !has_edge_r. destruct (has_edge b a f); cbn [bind]; auto. destruct (has_edge c b f); cbn [bind]; auto.
Qed.

Lemma rotate_to_r x l : rotate_to (r x) (map r l) = res_map (map r) (rotate_to x l).
Proof.
  unfold rotate_to. rewrite (@find_pos_map _ _ r _ (fun y => (y =? x)%Z)) by (intros; apply zeqb_r). destruct (find_pos _ l); cbn [of_option bind res_map]; auto. rewrite rot_map. auto.
Qed.

(** the position found in the smaller list is found in the larger one; the larger one may find one where the smaller finds none *)
Lemma next_orig_r l : next_orig n l <> Err StopIteration -> next_orig n' (map r l) = next_orig n l.
Proof.
  unfold next_orig. rewrite enumerate_map. intros H.
  assert (E : find (fun ix => ((Z.of_nat (fst ix) <? n') && (snd ix <? n'))%Z) (map (fun p => (fst p, r (snd p))) (enumerate l)) =
    option_map (fun p => (fst p, r (snd p))) (find (fun ix => ((Z.of_nat (fst ix) <? n) && (snd ix <? n))%Z) (enumerate l))); [|rewrite E; destruct (find _ _) as [[i x]|]; auto].
  destruct (find (fun ix => ((Z.of_nat (fst ix) <? n) && (snd ix <? n))%Z) (enumerate l)) as [[i x]|] eqn:F; [|congruence]. clear H. cbn [option_map fst snd].
  unfold enumerate in *. revert F. assert (G : forall k m, (In (i, x) (combine (seq k m) l) -> k <= i)%nat).
  { intros k m I. apply in_combine_l in I. apply in_seq in I. lia. }
  revert G. generalize (length l) as m. generalize 0%nat as k. intros k m G. clear G. revert l k. induction m as [|m IH]; intros [|y l] k; cbn [seq combine map find]; try discriminate.
  cbn [fst snd]. rewrite thr. destruct (y <? n)%Z eqn:Y; rewrite ?andb_true_r, ?andb_false_r; [|apply IH].
  destruct (Z.of_nat k <? n)%Z eqn:B; [|intros F; exfalso].
  - intros F. injection F as <- <-. assert (Z.of_nat k <? n' = true)%Z as -> by lia. auto.
  - apply find_some in F as [I F]. cbn [fst snd] in F. apply in_combine_l in I. apply in_seq in I. lia.
Qed.

Definition no_stop {X} (x : res X) : Prop := x <> Err StopIteration.

Lemma merge_faces_r rf lf a b : no_stop (merge_faces n rf lf a b) -> merge_faces n' (map r rf) (map r lf) (r a) (r b) = res_map (map r) (merge_faces n rf lf a b).
Proof.
  unfold merge_faces, no_stop. rewrite !rotate_to_r. destruct (rotate_to a rf) as [x|]; cbn [res_map bind]; auto. destruct (rotate_to b lf) as [y|]; cbn [res_map bind]; auto. cbv zeta.
  assert (E : map r x ++ tl (map r y) = map r (x ++ tl y)) by (rewrite map_app; destruct y; auto). rewrite E. intros H.
  rewrite next_orig_r by (intros K; rewrite K in H; cbn [bind] in H; congruence). destruct (next_orig n _); cbn [bind res_map]; auto. rewrite rot_map. auto.
Qed.

Lemma nth_r i (fs : list (list Z)) : nth i (map (map r) fs) [] = map r (nth i fs []).
Proof. apply (map_nth (map r) fs [] i). Qed.

Lemma remove_spike_r fs fi a b x y : no_stop (remove_spike n fs fi a b x y) -> remove_spike n' (map (map r) fs) fi (r a) (r b) x y = res_map (map (map r)) (remove_spike n fs fi a b x y).
Proof.
  unfold remove_spike. rewrite !nth_r. destruct (Nat.eqb x y).
  - intros _. rewrite (py_remove_map zeqb_r). destruct (py_remove Z.eqb b _) as [c1|]; cbn [res_map bind]; auto. rewrite (py_remove_map zeqb_r).
    destruct (py_remove Z.eqb a c1) as [c2|]; cbn [res_map bind]; auto. cbv zeta. rewrite set_at_map, nth_r, (py_in_map zeqb_r). destruct (py_in Z.eqb b _); auto.
    rewrite (py_remove_map zeqb_r). destruct (py_remove Z.eqb b _) as [f'|]; cbn [res_map bind]; auto. rewrite set_at_map. auto.
  - intros H. rewrite merge_faces_r by (intros K; rewrite K in H; apply H; auto). destruct (merge_faces n _ _ a b) as [m|]; cbn [res_map bind]; auto. unfold zlist_eqb.
    rewrite (list_eqb_map zeqb_r). destruct (list_eqb Z.eqb m _); auto. rewrite (py_remove_map zeqb_r). destruct (py_remove Z.eqb b _) as [f'|]; cbn [res_map bind]; auto.
    f_equal. rewrite set_at_map. unfold del_two. rewrite map_app. destruct (Nat.ltb x y); rewrite !del_at_map; auto.
Qed.

Lemma spike_pass_r fs fis : no_stop (spike_pass V n fs fis) -> spike_pass V' n' (map (map r) fs) fis = res_map (option_map (map (map r))) (spike_pass V n fs fis).
Proof.
  induction fis as [|fi fis IH]; cbn [spike_pass]; auto. cbv zeta. rewrite nth_r, map_length. destruct (Nat.leb _ 3); auto. rewrite circ3_map.
  destruct (circ_prev_this_next _) as [ptn|]; cbn [res_map bind]; auto. fold r3. rewrite find_spike_r. destruct (find_spike V ptn) as [[[[a b] c]|]|]; cbn [res_map bind option_map r3 fst snd]; auto.
  rewrite adjacent_r. destruct (adjacent_faces a b c 0 fs None None) as [[[x|] [y|]]|]; cbn [bind res_map]; auto. intros H.
  rewrite remove_spike_r by (intros K; rewrite K in H; apply H; auto). destruct (remove_spike n fs fi a b x y); auto.
Qed.

Lemma spike_loop_r fuel : forall fs, no_stop (spike_loop fuel V n fs) -> spike_loop fuel V' n' (map (map r) fs) = res_map (map (map r)) (spike_loop fuel V n fs).
Proof.
  induction fuel as [|f IH]; intros fs; auto. cbn [spike_loop]. rewrite map_length. intros H. rewrite spike_pass_r by (intros K; rewrite K in H; apply H; auto).
  destruct (spike_pass V n fs _) as [[fs'|]|]; cbn [res_map bind option_map] in *; auto.
Qed.

Lemma remove_spikes_r fs : no_stop (remove_spikes V n fs) -> remove_spikes V' n' (map (map r) fs) = res_map (map (map r)) (remove_spikes V n fs).
Proof. unfold remove_spikes, total_length. rewrite <- concat_map, map_length. apply spike_loop_r. Qed.

(** ** clean-up *)
Lemma parallel_at_r (k k' : Z -> nat) acc p : (forall v, k' (r v) = k v) -> parallel_at V' k' n' (map r acc) (r3 p) = res_map (map r) (parallel_at V k n acc p).
Proof.
  intros Hk. destruct p as [[a b] c]. unfold parallel_at, r3. cbn [fst snd]. rewrite Hk, !good. assert ((n' <=? r b)%Z = (n <=? b)%Z) as -> by (pose proof (thr b); lia).
  destruct (_ && _)%bool; auto. destruct (py_get V b); cbn [bind]; auto. destruct (py_get V a); cbn [bind]; auto. destruct (py_get V c); cbn [bind]; auto. cbv zeta.
  rewrite (py_in_map zeqb_r). destruct (_ && _)%bool.
  - destruct (pdiv _ _); cbn [bind res_map]; auto. destruct (nltb _ _); auto. rewrite map_app. auto.
  - destruct (py_in Z.eqb b acc); cbn [res_map]; auto. rewrite map_app. auto.
Qed.

Lemma parallel_scan_r (k k' : Z -> nat) l : (forall v, k' (r v) = k v) -> forall acc, parallel_scan V' k' n' (map r acc) (map r3 l) = res_map (map r) (parallel_scan V k n acc l).
Proof.
  intros Hk. induction l as [|p l IH]; intros acc; cbn [map parallel_scan]; auto. rewrite (parallel_at_r _ _ Hk). destruct (parallel_at V k n acc p); cbn [res_map bind]; auto.
Qed.

Lemma clean_r fs : clean_faces V' n' (map (map r) fs) = res_map (map (map r)) (clean_faces V n fs).
Proof.
  unfold clean_faces. cbv zeta. rewrite <- concat_map. set (k' := fun v => count_b (Z.eqb v) (map r (concat fs))). set (k := fun v => count_b (Z.eqb v) (concat fs)).
  assert (Hk : forall v, k' (r v) = k v) by (intros v; unfold k, k'; apply count_map_f; intros; apply zeqb_r).
  apply mapM_map. intros f. unfold fix_parallel. rewrite map_length.
  assert (E : (if Nat.ltb 3 (length f) then ptn <- circ_prev_this_next (map r f);; rm <- parallel_scan V' k' n' [] ptn;; py_remove_all Z.eqb rm (map r f) else Ok (map r f)) =
     res_map (map r) (if Nat.ltb 3 (length f) then ptn <- circ_prev_this_next f;; rm <- parallel_scan V k n [] ptn;; py_remove_all Z.eqb rm f else Ok f)).
  { destruct (Nat.ltb 3 (length f)); auto. rewrite circ3_map. destruct (circ_prev_this_next f) as [ptn|]; cbn [res_map bind]; auto. fold r3.
    pose proof (parallel_scan_r ptn Hk []) as P. cbn [map] in P. rewrite P. clear P. destruct (parallel_scan V k n [] ptn) as [rm|]; cbn [res_map bind]; auto. apply (py_remove_all_map zeqb_r). }
  rewrite E. clear E. destruct (if Nat.ltb 3 (length f) then _ else _) as [f1|]; cbn [res_map bind]; auto. unfold fix_identical. rewrite circ_map.
  destruct (circ_prev_next f1) as [pn|]; cbn [res_map bind]; auto.
  rewrite (@filter_map_f _ _ (fun p : Z * Z => (r (fst p), r (snd p))) _ (fun p => (fst p =? snd p)%Z)) by (intros p; apply zeqb_r).
  rewrite map_map. cbn [fst]. rewrite <- (map_map fst r). apply (py_remove_all_map zeqb_r).
Qed.

(** ** the roof *)
Hypothesis nodes_r : forall i : nat, r (Z.of_nat i + n)%Z = (Z.of_nat i + n')%Z.

Lemma sink_index_r (es : list (@edge2 A)) sk p : r (-1)%Z = (-1)%Z -> sink_index (map (renumbered r) es) sk n' p = r (sink_index es sk n p).
Proof.
  intros missing_r. unfold sink_index. rewrite (@find_map_f _ _ (renumbered r) _ (fun e => veq (ep1 e) p)) by auto. destruct (find _ es); cbn [option_map]; auto. destruct (find_pos _ sk); auto.
Qed.

Lemma skeleton_edges_r (es : list (@edge2 A)) sk : (sk <> [] -> r (-1)%Z = (-1)%Z) -> skeleton_graph_edges (map (renumbered r) es) sk n' = map rd (skeleton_graph_edges es sk n).
Proof.
  intros missing_r. destruct sk as [|b sk]; auto. assert (M : r (-1)%Z = (-1)%Z) by (apply missing_r; discriminate). clear missing_r.
  unfold skeleton_graph_edges. rewrite !flat_map_concat_map, concat_map, map_map. f_equal. apply map_ext. intros [i a]. cbn [fst snd]. rewrite map_map. apply map_ext. intros p.
  unfold rd. cbn [fst snd]. rewrite sink_index_r, nodes_r by auto. auto.
Qed.

Variables (first cnt first' : Z) (holes holes' : list (Z * Z)).
Hypothesis outer_r : zrange first' (first' + cnt) = map r (zrange first (first + cnt)).
Hypothesis holes_r : Forall2 (fun h h' => zrange (fst h') (fst h' + snd h') = map r (zrange (fst h) (fst h + snd h))) holes holes'.

Lemma build_graph_r (es : list (@edge2 A)) sk : (sk <> [] -> r (-1)%Z = (-1)%Z) -> build_graph sw' first' cnt holes' (map (renumbered r) es) sk n' = res_map rg (build_graph sw first cnt holes es sk n).
Proof.
  intros missing_r. unfold build_graph, contour_graph_edges. rewrite outer_r, circ_map. destruct (circ_prev_next _) as [o|]; cbn [res_map bind]; auto.
  assert (E : mapM (B := list dart) (fun h : Z * Z => circ_prev_next (zrange (fst h) (fst h + snd h))) holes' = res_map (map (map rd)) (mapM (B := list dart) (fun h : Z * Z => circ_prev_next (zrange (fst h) (fst h + snd h))) holes)).
  { generalize holes_r. clear. generalize holes, holes'. intros l l' HF. induction HF as [|h h' hs hs' E _ IH]; auto. cbn [mapM]. rewrite E, circ_map, IH. destruct (circ_prev_next _); cbn [res_map bind]; auto.
    destruct (mapM _ hs); cbn [res_map bind]; reflexivity. }
  rewrite E. clear E. destruct (mapM _ holes) as [hs|]; cbn [res_map bind]; auto. f_equal. rewrite skeleton_edges_r by auto. change (fun p : Z * Z => (r (fst p), r (snd p))) with rd.
  rewrite <- concat_map, <- !map_app. apply (add_edges_r _ []).
Qed.

Theorem roof_faces_r (es : list (@edge2 A)) sk : (sk <> [] -> r (-1)%Z = (-1)%Z) -> no_stop (roof_faces sw sch V first cnt holes es sk n) ->
  roof_faces sw' sch' V' first' cnt holes' (map (renumbered r) es) sk n' = res_map (map (map r)) (roof_faces sw sch V first cnt holes es sk n).
Proof.
  intros missing_r. unfold roof_faces. rewrite build_graph_r by auto. destruct (build_graph _ _ _ _ _ _ _) as [g|]; cbn [res_map bind]; auto. rewrite embedding_r.
  destruct (circular_embedding g V true) as [emb|]; cbn [res_map bind]; auto. rewrite graph_faces_r. destruct (graph_faces sch g emb n) as [fs|]; cbn [res_map bind]; auto. intros H.
  rewrite remove_spikes_r by (intros K; rewrite K in H; apply H; auto). destruct (remove_spikes V n fs) as [fs1|]; cbn [res_map bind]; auto. apply clean_r.
Qed.
End Graph.
