(** * RaiseProofs: which exceptions a call can end with (C68) *)

From Coq Require Import Lia Permutation Sorting.Sorted.
From Verif Require Import Py PyFacts Arith Euclid PySort SortProofs Heapq HeapProofs Graph GraphSpec GraphProofs Lav LavSpec LavInit Cluster
  ClusterSpec GhostProofs MergeProofs SkeletonFacts Poly PolySpec PolyProofs PolyFaces PatSpec PatProofs PatEvents RaiseSpec.
Set Implicit Arguments.
Unset Strict Implicit.
Local Open Scope nat_scope.

Definition errs {T} (P : exn -> Prop) (r : res T) : Prop := forall e, r = Err e -> P e.

Lemma errs_ok T P (x : T) : errs P (Ok x).
Proof. intros e H. discriminate. Qed.

Lemma errs_err T (P : exn -> Prop) x : P x -> errs P (@Err T x).
Proof. intros H e E. injection E as <-. auto. Qed.

Lemma errs_bind T U P (x : res T) (f : T -> res U) : errs P x -> (forall a, x = Ok a -> errs P (f a)) -> errs P (bind x f).
Proof. intros Hx Hf e H. apply bind_err in H as [H|(a & Ha & H)]; [auto|eapply Hf; eauto]. Qed.

Lemma errs_mapM T U P (f : T -> res U) l : (forall x, In x l -> errs P (f x)) -> errs P (mapM f l).
Proof. intros H e E. apply mapM_err in E as (x & Hx & E). eapply H; eauto. Qed.

Lemma errs_impl T (P Q : exn -> Prop) (r : res T) : errs P r -> (forall e, P e -> Q e) -> errs Q r.
Proof. intros H HQ e E. auto. Qed.

Definition only (x : exn) : exn -> Prop := fun e => e = x.
Definition zero := only ZeroDivisionError.

(** ** sorting *)
Section Sorting.
Variable T : Type.
Variable lt : T -> T -> res bool.
Variable P : exn -> Prop.

Lemma run_len_errs down : forall l prev, (forall a b, In a (prev :: l) -> In b (prev :: l) -> errs P (lt a b)) -> errs P (run_len lt down prev l).
Proof.
  induction l as [|x t IH]; intros prev H; cbn [run_len]; [apply errs_ok|].
  apply errs_bind; [apply H; simpl; auto|]. intros b _. destruct (Bool.eqb b down); [|apply errs_ok].
  apply errs_bind; [apply IH; intros; apply H; simpl in *; tauto|]. intros; apply errs_ok.
Qed.

Lemma binarysort_errs : forall rest pre, (forall a b, In a (pre ++ rest) -> In b (pre ++ rest) -> errs P (lt a b)) ->
  errs P (binarysort lt pre rest).
Proof.
  induction rest as [|p t IH]; intros pre H; cbn [binarysort]; [apply errs_ok|]. apply errs_bind.
  - intros e E. apply bsearch_err in E as (b & Hb & E); try lia. apply (H p b) in E; auto; apply in_or_app; simpl; auto.
  - intros i _. apply IH.
    assert (K : forall c, In c ((firstn i pre ++ p :: skipn i pre) ++ t) -> In c (pre ++ p :: t)).
    { intros c Hc. rewrite <- (firstn_skipn i pre). rewrite !in_app_iff in *. simpl in *. tauto. }
    intros a b Ha Hb. auto.
Qed.

Lemma py_sorted_errs l : (forall a b, In a l -> In b l -> errs P (lt a b)) -> errs P (py_sorted lt l).
Proof.
  intros H. destruct l as [|x [|y t]]; try apply errs_ok. cbn [py_sorted]. apply errs_bind.
  - unfold count_run. apply errs_bind; [apply H; simpl; auto|]. intros b _.
    apply errs_bind; [apply run_len_errs; intros; apply H; simpl in *; tauto|]. intros; apply errs_ok.
  - intros [desc n] _. apply binarysort_errs.
    assert (K : forall c, In c ((if desc then rev (firstn n (x :: y :: t)) else firstn n (x :: y :: t)) ++ skipn n (x :: y :: t)) -> In c (x :: y :: t)).
    { intros c Hc. rewrite <- (firstn_skipn n (x :: y :: t)). apply in_app_or in Hc. apply in_or_app. destruct Hc as [Hc|Hc]; auto.
      left. destruct desc; auto. apply in_rev; auto. }
    intros a b Ha Hb. auto.
Qed.
End Sorting.

(** ** tracing the faces *)
Section Tracing.
Variable emb : gdict.
Variable D : list dart.
Hypothesis Hsym : forall u v, In u (neighbours emb v) -> In v (neighbours emb u).
Hypothesis HD : forall u v, In u (neighbours emb v) <-> In (u, v) D.

Lemma next_node_in_emb u v : In u (neighbours emb v) -> exists w, next_node emb u v = Ok w /\ In w (neighbours emb v).
Proof.
  intros H. unfold next_node. set (ns := neighbours emb v) in *.
  destruct (find_pos (fun x => (x =? u)%Z) ns) as [i|] eqn:E; cbn [of_option bind].
  - assert (Hl : (i + 1) mod length ns < length ns) by (apply Nat.mod_upper_bound; destruct ns; [destruct H|discriminate]).
    apply nth_error_Some in Hl. destruct (nth_error ns _) as [w|] eqn:Ew; [|congruence].
    exists w. split; auto. eapply nth_error_In; eauto.
  - exfalso. clear - H E. induction ns as [|x t IH]; [destruct H|]. simpl in E.
    destruct (Z.eqb_spec x u) as [->|Hx]; [discriminate|]. destruct H as [H|H]; [congruence|].
    destruct (find_pos _ t); [discriminate|]. auto.
Qed.

Lemma set_remove_length d s : In d s -> length (set_remove d s) < length s.
Proof.
  induction s as [|x t IH]; intros H; [destruct H|]. unfold set_remove in *. cbn [filter].
  destruct (dart_eqb x d) eqn:E; cbn [negb length].
  - assert (length (filter (fun y => negb (dart_eqb y d)) t) <= length t); [|lia].
    clear. induction t as [|y t IH]; simpl; auto. destruct (negb (dart_eqb y d)); simpl; lia.
  - destruct H as [->|H]; [|apply IH in H; lia]. assert (dart_eqb d d = true) by (apply dart_eqb_eq; auto). congruence.
Qed.

Lemma set_remove_le d s : length (set_remove d s) <= length s.
Proof. unfold set_remove. induction s as [|x t IH]; simpl; auto. destruct (negb _); simpl; lia. Qed.

Lemma trace_errs sch : forall fuel n s path faces, incl s D -> incl path D -> NoDup path -> (s <> [] -> path <> []) ->
  length s * S (length D) + (length D - length path) < fuel ->
  errs (only EndlessFaces) (trace fuel sch n emb s path faces).
Proof.
  induction fuel as [|f IH]; intros n s path faces Hs Hp Hnd Hne Hf; [lia|]. cbn [trace].
  destruct s as [|d0 s0]; [apply errs_ok|]. set (s := d0 :: s0) in *.
  destruct path as [|p0 pt]; [destruct Hne; [discriminate|auto]|].
  destruct (last (p0 :: pt) p0) as [u v] eqn:El.
  assert (Huv : In (u, v) D).
  { apply Hp. rewrite <- El. eapply nth_error_In. apply last_nth. discriminate. }
  apply HD in Huv. destruct (next_node_in_emb Huv) as (w & -> & Hw). cbn [bind].
  assert (Hvw : In (v, w) D) by (apply HD, Hsym; auto).
  destruct (dart_eqb (v, w) p0).
  - unfold start_path. assert (Hsn : s <> []) by discriminate. destruct (@pick_dart_some sch n s Hsn) as (d & -> & Hd).
    pose proof (set_remove_length Hd) as Hl. apply IH.
    + intros x Hx. apply In_set_remove in Hx. apply Hs; tauto.
    + intros x [<-|[]]. auto.
    + constructor; auto. constructor.
    + discriminate.
    + simpl length at 3. nia.
  - destruct (py_in dart_eqb (v, w) (p0 :: pt)) eqn:Ein; [apply errs_err; reflexivity|].
    assert (Hni : ~ In (v, w) (p0 :: pt)) by (intros K; apply py_in_dart in K; congruence).
    assert (Hnd' : NoDup ((p0 :: pt) ++ [(v, w)])).
    { eapply Permutation_NoDup; [apply Permutation_cons_append|]. constructor; auto. }
    assert (Hp' : incl ((p0 :: pt) ++ [(v, w)]) D).
    { intros x Hx. apply in_app_or in Hx as [Hx|[<-|[]]]; auto. }
    pose proof (NoDup_incl_length Hnd' Hp') as Hlen. rewrite app_length in Hlen. simpl length in Hlen.
    apply IH; auto.
    + intros x Hx. apply In_set_remove in Hx. apply Hs; tauto.
    + discriminate.
    + pose proof (set_remove_le (v, w) s). rewrite app_length. simpl length in *. nia.
Qed.
End Tracing.

(** ** reading vertices *)
Section Reading.
Context {A : arith}.
Variable vl : list (vec3 A).
Variable firstSkel : Z.
Definition there (i : Z) : Prop := exists p, py_get vl i = Ok p.

Lemma py_get_errs P i : there i -> errs P (py_get vl i).
Proof. intros [p ->]. apply errs_ok. Qed.

Lemma pdiv_errs (x y : num A) : errs zero (pdiv x y).
Proof. intros e H. eapply pdiv_err; eauto. Qed.

Lemma angle_lt_errs c a b : there c -> there a -> there b -> errs zero (angle_lt vl c a b).
Proof.
  intros Hc Ha Hb. assert (Hp : forall d : vec3 A, errs zero (pseudoangle d)).
  { intros d. unfold pseudoangle. apply errs_bind; [apply pdiv_errs|]. intros p _. destruct (nltb _ _); apply errs_ok. }
  unfold angle_lt, compare_angles. apply errs_bind; [|intros; apply errs_ok].
  apply errs_bind; [apply py_get_errs; auto|intros v1 _]. apply errs_bind; [apply py_get_errs; auto|intros c1 _].
  apply errs_bind; [apply Hp|intros a1 _]. apply errs_bind; [apply py_get_errs; auto|intros v2 _].
  apply errs_bind; [apply Hp|intros a2 _]. apply errs_ok.
Qed.

Lemma circular_embedding_errs g dir : (forall k l, In (k, l) g -> there k /\ Forall there l) ->
  errs zero (circular_embedding g vl dir).
Proof.
  intros H. unfold circular_embedding. apply errs_mapM. intros [k l] Hkl. destruct (H k l Hkl) as [Hk Hl].
  rewrite Forall_forall in Hl. apply errs_bind; [|intros; apply errs_ok]. apply py_sorted_errs. intros a b Ha Hb.
  apply angle_lt_errs; simpl in *; auto.
Qed.

Definition corner_there (p : Z * Z * Z) : Prop := there (fst (fst p)) /\ there (snd (fst p)) /\ there (snd p).

Lemma find_spike_errs l : (forall p, In p l -> corner_there p) -> errs zero (find_spike vl l).
Proof.
  induction l as [|[[a b] c] t IH]; intros H; cbn [find_spike]; [apply errs_ok|].
  destruct (H (a, b, c)) as (Ha & Hb & Hc); [simpl; auto|]. simpl in Ha, Hb, Hc.
  apply errs_bind.
  - unfold is_spike. apply errs_bind; [apply py_get_errs; auto|intros vt _]. apply errs_bind; [apply py_get_errs; auto|intros vp _].
    apply errs_bind; [apply py_get_errs; auto|intros vn _]. cbv zeta. destruct (_ && _); [|apply errs_ok].
    apply errs_bind; [apply pdiv_errs|intros; apply errs_ok].
  - intros [|] _; [apply errs_ok|]. apply IH. intros p Hp. apply H. simpl; auto.
Qed.

Lemma parallel_scan_errs counts : forall l acc, (forall p, In p l -> corner_there p) ->
  errs zero (parallel_scan vl counts firstSkel acc l).
Proof.
  induction l as [|[[a b] c] t IH]; intros acc H; cbn [parallel_scan]; [apply errs_ok|].
  destruct (H (a, b, c)) as (Ha & Hb & Hc); [simpl; auto|]. simpl in Ha, Hb, Hc.
  apply errs_bind; [|intros acc' _; apply IH; intros p Hp; apply H; simpl; auto].
  unfold parallel_at. destruct (_ && _); [|apply errs_ok].
  apply errs_bind; [apply py_get_errs; auto|intros vt _]. apply errs_bind; [apply py_get_errs; auto|intros vp _].
  apply errs_bind; [apply py_get_errs; auto|intros vn _]. cbv zeta. destruct (_ && _); [|apply errs_ok].
  apply errs_bind; [apply pdiv_errs|intros; apply errs_ok].
Qed.

Definition spike_exn (e : exn) : Prop := e = ZeroDivisionError \/ e = ValueError \/ e = StopIteration \/ e = EndlessSpike.

Lemma value_spike T (r : res T) : (forall e, r = Err e -> e = ValueError) -> errs spike_exn r.
Proof. intros H e E. apply H in E. unfold spike_exn; auto. Qed.

Lemma zero_spike T (r : res T) : errs zero r -> errs spike_exn r.
Proof. intros H e E. apply H in E. unfold spike_exn; auto. Qed.

Lemma remove_spike_errs faces fi prev this r l : errs spike_exn (remove_spike firstSkel faces fi prev this r l).
Proof.
  assert (Hr : forall l, errs spike_exn (py_remove Z.eqb this l)) by (intros; apply value_spike; intros e; apply py_remove_err).
  unfold remove_spike. destruct (Nat.eqb r l).
  - apply errs_bind; [auto|intros c1 _]. apply errs_bind; [apply value_spike; intros e; apply py_remove_err|intros c2 _].
    cbv zeta. destruct (py_in _ _ _); [|apply errs_ok]. apply errs_bind; [auto|intros; apply errs_ok].
  - apply errs_bind.
    + assert (Hrot : forall x l, errs spike_exn (rotate_to x l)).
      { intros x l'. unfold rotate_to. apply errs_bind; [|intros; apply errs_ok]. destruct (find_pos _ _); [apply errs_ok|].
        apply errs_err. unfold spike_exn; auto. }
      unfold merge_faces. apply errs_bind; [auto|intros r' _]. apply errs_bind; [auto|intros l' _]. cbv zeta.
      apply errs_bind; [|intros; apply errs_ok]. unfold next_orig. destruct (find _ _) as [[? ?]|]; [apply errs_ok|].
      apply errs_err. unfold spike_exn; auto.
    + intros m _. destruct (zlist_eqb _ _); [apply errs_err; unfold spike_exn; auto|].
      apply errs_bind; [auto|intros; apply errs_ok].
Qed.

Lemma face_there faces fi : (forall v, In v (concat faces) -> there v) -> forall v, In v (nth fi faces []) -> there v.
Proof.
  intros HS v Hv. apply HS. apply in_concat. exists (nth fi faces []); split; auto.
  apply nth_In. destruct (Nat.lt_ge_cases fi (length faces)); auto.
  rewrite nth_overflow in Hv by auto. destruct Hv.
Qed.

Lemma spike_pass_errs faces fis : (forall v, In v (concat faces) -> there v) -> errs spike_exn (spike_pass vl firstSkel faces fis).
Proof.
  intros HS. induction fis as [|fi t IH]; cbn [spike_pass]; [apply errs_ok|].
  destruct (Nat.leb _ 3); auto.
  apply errs_bind; [apply value_spike; intros e E; apply circ_prev_this_next_err in E; tauto|intros ptn E].
  apply errs_bind.
  { apply zero_spike, find_spike_errs. intros p Hp. destruct (circ_ptn_in _ _ E Hp) as (H1 & H2 & H3).
    pose proof (face_there HS (fi := fi)). unfold corner_there. auto. }
  intros [[[a b] c]|] _; auto. apply errs_bind; [apply value_spike; intros e; apply adjacent_faces_err|].
  intros [[r|] [l|]] _; auto. apply errs_bind; [apply remove_spike_errs|intros; apply errs_ok].
Qed.

Lemma spike_loop_errs : forall fuel faces, (forall v, In v (concat faces) -> there v) ->
  errs (fun e => spike_exn e \/ e = OutOfFuel) (spike_loop fuel vl firstSkel faces).
Proof.
  induction fuel as [|f IH]; intros faces HS; cbn [spike_loop]; [apply errs_err; auto|].
  apply errs_bind; [eapply errs_impl; [apply spike_pass_errs; auto|auto]|].
  intros [fs|] E; [|apply errs_ok]. apply IH. intros v Hv. apply HS.
  destruct (spike_pass_corners _ _ _ E) as (gone & P & _).
  eapply Permutation_in; [symmetry; exact P|]. apply in_or_app; auto.
Qed.

Lemma remove_spikes_errs faces : (forall v, In v (concat faces) -> there v) -> errs spike_exn (remove_spikes vl firstSkel faces).
Proof.
  intros HS e E. destruct (spike_loop_errs HS E) as [K| ->]; auto.
  exfalso. revert E. apply spike_loop_fuel. lia.
Qed.

Lemma clean_faces_errs faces : (forall v, In v (concat faces) -> there v) -> errs spike_exn (clean_faces vl firstSkel faces).
Proof.
  intros HS. unfold clean_faces. apply errs_mapM. intros f Hf. apply errs_bind.
  - unfold fix_parallel. destruct (Nat.ltb 3 (length f)); [|apply errs_ok].
    apply errs_bind; [apply value_spike; intros e E; apply circ_prev_this_next_err in E; tauto|intros ptn E].
    apply errs_bind.
    + apply zero_spike, parallel_scan_errs. intros p Hp. destruct (circ_ptn_in _ _ E Hp) as (H1 & H2 & H3).
      assert (Hin : forall v, In v f -> there v) by (intros v Hv; apply HS, in_concat; eauto). unfold corner_there; auto.
    + intros rm _. apply value_spike. intros e. apply py_remove_all_err.
  - intros f1 _. unfold fix_identical. apply errs_bind; [apply value_spike; intros e E; apply circ_prev_next_err in E; tauto|].
    intros pn _. apply value_spike. intros e. apply py_remove_all_err.
Qed.
End Reading.

(** ** the faces *)
Section Faces.
Context {A : arith}.

Lemma contour_graph_edges_total first cnt : (1 <= cnt)%Z -> exists es, contour_graph_edges first cnt = Ok es.
Proof.
  intros Hc. unfold contour_graph_edges. destruct (zrange first (first + cnt)) as [|x t] eqn:E; [|simpl; eauto].
  apply (f_equal (@length Z)) in E. rewrite zrange_length in E. simpl in E. lia.
Qed.

Lemma roof_faces_errs sw sch (vl : list (vec3 A)) first cnt holes edges2D sk firstSkel :
  (1 <= cnt)%Z -> (forall h, In h holes -> 1 <= snd h)%Z ->
  (forall e, In e edges2D -> in_blocks first cnt holes (ei1 e)) ->
  (forall i, in_blocks first cnt holes i \/ node_index firstSkel sk i \/ bad_sink edges2D sk i -> there vl i) ->
  errs faces_exn (roof_faces sw sch vl first cnt holes edges2D sk firstSkel).
Proof.
  intros Hc Hh He HS. unfold roof_faces. apply errs_bind.
  { unfold build_graph. destruct (@contour_graph_edges_total first cnt Hc) as [es ->]. cbn [bind].
    destruct (@mapM_total _ _ (fun h => contour_graph_edges (fst h) (snd h)) holes) as [hs ->].
    { intros h Hin. apply contour_graph_edges_total; auto. }
    apply errs_ok. }
  intros g Hg. destruct (build_graph_vertices _ _ _ _ He Hg) as [Hk Hgv].
  assert (Hb : exists es, g = build sw es).
  { unfold build_graph in Hg. apply bind_ok in Hg. destruct Hg as (outer & Ho & Hg).
    apply bind_ok in Hg. destruct Hg as (hs & Hhs & Hg). apply Ok_inj in Hg. subst g. eexists. reflexivity. }
  destruct Hb as [es Hes].
  apply errs_bind.
  { eapply errs_impl; [apply circular_embedding_errs|unfold zero, only, faces_exn; auto].
    intros k l Hin. pose proof (@dict_vertices g k l Hk Hin) as El.
    assert (Hl : l <> []) by (subst g; eapply build_keys_nonempty; exact Hin).
    destruct l as [|w t]; [congruence|]. split.
    - apply HS, (Hgv k w). rewrite El; simpl; auto.
    - rewrite Forall_forall. intros x Hx. apply HS, (Hgv k x). rewrite El; auto. }
  intros emb Hemb. destruct (circular_embedding_perm _ _ _ Hemb) as [_ Hperm].
  assert (Hn : forall u v, In u (neighbours emb v) <-> has_edge_between es v u).
  { intros u v. rewrite <- (In_neighbours_build sw), <- Hes. split; intros H.
    - eapply Permutation_in; [apply Hperm|auto].
    - eapply Permutation_in; [apply Permutation_sym, Hperm|auto]. }
  assert (Hsy : forall u v, has_edge_between es u v <-> has_edge_between es v u).
  { intros u v. unfold has_edge_between. intuition congruence. }
  apply errs_bind.
  { unfold graph_faces, face_paths. apply errs_bind; [|intros; apply errs_ok].
    assert (HD : forall u v, In u (neighbours emb v) <-> In (u, v) (edge_set g)).
    { intros u v. rewrite Hes, In_edge_set_build, Hn. apply Hsy. }
    unfold start_path. destruct (pick_dart sch 0 (edge_set g)) as [d|] eqn:Ed.
    - apply pick_dart_in in Ed. pose proof (set_remove_length Ed) as Hl.
      eapply errs_impl; [apply (@trace_errs emb (edge_set g))|unfold only, faces_exn; auto].
      + intros u v H. apply Hn. apply Hn in H. apply Hsy; auto.
      + exact HD.
      + intros x Hx. apply In_set_remove in Hx. tauto.
      + intros x [<-|[]]; auto.
      + constructor; auto. constructor.
      + discriminate.
      + unfold trace_fuel. simpl length. nia.
    - assert (E0 : edge_set g = []).
      { destruct (edge_set g) as [|d t] eqn:E; auto. destruct (@pick_dart_some sch 0 (d :: t)) as (x & Hx & _); [discriminate|congruence]. }
      rewrite E0. apply errs_ok. }
  intros faces Hf.
  assert (HP : forall v, In v (concat faces) -> there vl v).
  { intros v Hv. apply HS. apply in_concat in Hv. destruct Hv as (f0 & Hf0 & Hv0).
    eapply (@graph_faces_vertices (fun v => in_blocks first cnt holes v \/ node_index firstSkel sk v \/ bad_sink edges2D sk v) emb);
      [|exact Hgv|exact Hk|exact Hf|exact Hf0|exact Hv0].
    intros a b Hb. apply (embedding_neighbours _ _ _ Hemb) in Hb. apply Hgv in Hb. exact (proj2 Hb). }
  apply errs_bind; [eapply errs_impl; [apply remove_spikes_errs; auto|unfold spike_exn, faces_exn; intuition]|].
  intros faces1 H1. eapply errs_impl; [apply clean_faces_errs|unfold spike_exn, faces_exn; intuition].
  intros v Hv. apply HP. apply remove_spikes_corners in H1. destruct H1 as (gone & Pm).
  eapply Permutation_in; [symmetry; exact Pm|]. apply in_or_app; auto.
Qed.
End Faces.

(** ** the skeleton *)
Section Skeleton.
Context {A : arith}.
Notation edge2 := (@edge2 A).

Lemma walk_errs vs h : forall fuel cur visited l x, walk (A := A) fuel vs h cur visited = (l, Some x) -> x = RuntimeError \/ x = OutOfFuel.
Proof.
  induction fuel as [|f IH]; intros cur visited l x; cbn [walk]; [intros [= <- <-]; auto|].
  destruct (Nat.eqb _ h); [discriminate|]. destruct (existsb _ visited); [intros [= <- <-]; auto|].
  destruct (walk f vs h _ _) as [l' e] eqn:E. intros [= <- ->]. eapply IH; eauto.
Qed.

Lemma lav_list_errs (s : @slav A) l : errs skeleton_exn (lav_list s l).
Proof.
  unfold lav_list, lav_iter. destruct (walk _ _ _ _ _) as [ids [x|]] eqn:E; [|apply errs_ok].
  apply walk_errs in E. apply errs_err. unfold skeleton_exn; tauto.
Qed.

Lemma remove_lav_errs (s : @slav A) l : errs skeleton_exn (remove_lav s l).
Proof.
  unfold remove_lav. destruct l as [l|]; [|apply errs_err; unfold skeleton_exn; auto].
  apply errs_bind; [|intros; apply errs_ok]. intros e E. apply py_remove_err in E. unfold skeleton_exn; auto.
Qed.

Lemma from_chain_errs (s : @slav A) h : errs skeleton_exn (from_chain s h).
Proof. unfold from_chain. apply errs_bind; [apply lav_list_errs|intros; apply errs_ok]. Qed.

Lemma next_event_errs (s : @slav A) i : errs skeleton_exn (next_event s i).
Proof.
  unfold next_event, candidates. apply errs_bind; [|intros; apply errs_ok]. apply errs_bind; [|intros; apply errs_ok].
  destruct (v_reflex _); [|apply errs_ok]. destruct (v_lav _); [apply errs_ok|apply errs_err]. unfold skeleton_exn; tauto.
Qed.

Lemma next_events_errs (s : @slav A) : forall ids, errs skeleton_exn (next_events s ids).
Proof.
  induction ids as [|i t IH]; cbn [next_events]; [apply errs_ok|]. apply errs_bind; [apply next_event_errs|intros e _].
  apply errs_bind; [auto|intros; apply errs_ok].
Qed.

Lemma find_split_lavs_errs (s : @slav A) ip opp : forall ls, errs skeleton_exn (find_split_lavs s ip opp ls).
Proof.
  induction ls as [|l t IH]; cbn [find_split_lavs]; [apply errs_ok|].
  destruct (lav_iter s l) as [ids [x|]] eqn:E; destruct (find_split _ _ _ _); try apply errs_ok; auto.
  unfold lav_iter in E. apply walk_errs in E. apply errs_err. unfold skeleton_exn; tauto.
Qed.

Lemma settle_errs : forall ls (acc : res (@slav A * list nat * list (vec A))), errs skeleton_exn acc -> errs skeleton_exn (fold_left settle_lav ls acc).
Proof.
  induction ls as [|l t IH]; intros acc H; cbn [fold_left]; auto. apply IH. unfold settle_lav.
  apply errs_bind; auto. intros [[s verts] snks] _. cbv zeta. destruct (2 <? _)%Z; [apply errs_ok|].
  apply errs_bind; [apply lav_list_errs|intros; apply errs_ok].
Qed.

Lemma handle_event_errs (s : @slav A) e : errs skeleton_exn (handle_event s e).
Proof.
  destruct e as [d ip va vb|d ip v opp|d dp vp dn vn de ipe va vb]; cbn [handle_event].
  - destruct (_ || _); [apply errs_ok|]. unfold handle_edge_event. cbv zeta. destruct (Nat.eqb _ _).
    + apply errs_bind; [apply remove_lav_errs|intros s1 _].
      apply errs_bind; [destruct (v_lav _); [apply errs_ok|apply errs_err; unfold skeleton_exn; tauto]|intros l _].
      apply errs_bind; [apply lav_list_errs|intros; apply errs_ok].
    + apply errs_bind; [destruct (v_lav _); [apply errs_ok|apply errs_err; unfold skeleton_exn; tauto]|intros l _].
      destruct (unify _ _ _ _ _) as [s1 nv]. apply errs_bind; [apply next_event_errs|intros; apply errs_ok].
  - destruct (negb _); [apply errs_ok|]. unfold handle_split_event. cbv zeta.
    apply errs_bind; [apply find_split_lavs_errs|]. intros [[x y]|] _; [|apply errs_ok].
    apply errs_bind; [apply remove_lav_errs|intros s2 _]. apply errs_bind.
    { match goal with |- errs _ (if ?b then _ else _) => destruct b end.
      - apply errs_bind; [apply remove_lav_errs|intros s' _]. apply errs_bind; [apply from_chain_errs|intros [? ?] _; apply errs_ok].
      - apply errs_bind; [apply from_chain_errs|intros [? ?] _]. apply errs_bind; [apply from_chain_errs|intros [? ?] _; apply errs_ok]. }
    intros [s3 new] _. apply errs_bind; [apply settle_errs, errs_ok|]. intros [[s4 verts] snks] _.
    apply errs_bind; [apply next_events_errs|intros; apply errs_ok].
  - destruct (_ || _); [apply errs_ok|]. unfold handle_dormer_event. destruct (v_lav _) as [l|]; [|apply errs_ok]. cbv zeta.
    apply errs_bind; [apply from_chain_errs|intros [s2 l2] _]. apply errs_bind; [apply remove_lav_errs|intros s3 _].
    destruct (line_intersect _ _); [apply errs_ok|apply errs_err; unfold skeleton_exn; tauto].
Qed.

Lemma handle_batch_errs : forall evs (st : @loop_state A), errs skeleton_exn (handle_batch st evs).
Proof.
  induction evs as [|e t IH]; intros st; cbn [handle_batch]; [apply errs_ok|].
  apply errs_bind; [apply handle_event_errs|]. intros [[s arcs] new] _. apply IH.
Qed.

Lemma event_loop_errs : forall fuel (st : @loop_state A), errs skeleton_exn (event_loop fuel st).
Proof.
  induction fuel as [|f IH]; intros st; cbn [event_loop]; [apply errs_err; unfold skeleton_exn; tauto|].
  destruct (lo_queue st) as [|e q] eqn:Eq; [apply errs_ok|]. destruct (s_act _) as [|a act]; [apply errs_ok|].
  unfold getAllEqualDistance. destruct (heappop ev_lt (e :: q)) as [[item q']|] eqn:Eh.
  - destruct (pop_equal _ _ _) as [l q'']. apply errs_bind; [apply handle_batch_errs|intros st' _; apply IH].
  - apply heappop_none in Eh. discriminate.
Qed.

Lemma detectDormers_errs (c : list edge2) rest : c <> [] -> errs zero (detectDormers (c :: rest)).
Proof.
  intros Hc e E. destruct (detectDormers_spec rest Hc) as (ss & _ & Hss & H1 & H2).
  assert (Hdec : covered c ss \/ ~ covered c ss).
  { rewrite <- covered_count by (intros s H; apply Hss in H; tauto). lia. }
  destruct Hdec as [K|K]; [rewrite (H1 K) in E; discriminate|]. specialize (H2 K). rewrite E in H2.
  destruct H2 as (s & e0 & e2 & _ & _ & _ & H). eapply pdiv_err; eauto.
Qed.

Lemma chain_list_errs (s : @slav A) : forall ls, errs skeleton_exn (chain_list s ls).
Proof.
  induction ls as [|l t IH]; cbn [chain_list]; [apply errs_ok|]. apply errs_bind; [apply lav_list_errs|intros a _].
  apply errs_bind; [auto|intros; apply errs_ok].
Qed.

Lemma initial_events_errs (s : @slav A) : errs skeleton_exn (initial_events s).
Proof. apply errs_bind; [apply chain_list_errs|]. intros ids _. apply errs_mapM. intros; apply next_event_errs. Qed.

Lemma skeleton_start_errs (c : list edge2) rest : (forall c', In c' (c :: rest) -> c' <> []) -> errs skeleton_exn (skeleton_start (c :: rest)).
Proof.
  intros Hne. assert (Hc : c <> []) by (apply Hne; simpl; auto).
  unfold skeleton_start. destruct (init_slav_ok Hne) as (s & -> & W & _). cbn [bind]. apply errs_bind.
  { eapply errs_impl; [apply detectDormers_errs; auto|unfold zero, only, skeleton_exn; auto]. }
  intros dms Ed. apply errs_bind; [apply initial_events_errs|]. intros evs Ee.
  apply errs_bind; [|intros; apply errs_ok]. destruct dms as [|d0 dt] eqn:Edm; [apply errs_ok|]. rewrite <- Edm in *. clear Edm d0 dt.
  unfold initial_events in Ee. rewrite (chain_wavefront W Hne) in Ee. cbn [bind] in Ee.
  pose proof (mapM_length _ _ Ee) as Hlen. rewrite seq_length in Hlen.
  assert (Hdm : forall dm, In dm dms -> NoDup (fst dm) /\ length (fst dm) = 4 /\ forall i, In i (fst dm) -> i < length evs).
  { intros dm Hin. destruct (dormers_sound Hc Ed) as (HF & _). rewrite Forall_forall in HF.
    destruct (HF dm Hin) as (q & p & Q1 & _ & _ & _ & _ & Q2 & Q3 & _). split; auto. rewrite Q2. split; auto.
    intros i Hi. unfold dormer_vertices in Hi. apply in_map_iff in Hi as (k & <- & _).
    rewrite Hlen. simpl. rewrite app_length. pose proof (Nat.mod_upper_bound (q + k) (length c)). lia. }
  destruct (processDormers_spec s Hdm) as (idx & es & kept & _ & _ & ->). apply errs_ok.
Qed.

Lemma cdiv_errs (a b : @cpx A) : errs zero (cdiv a b).
Proof. unfold cdiv. destruct (ngeb _ _); [destruct (neqb _ _); [apply errs_err; reflexivity|]|]; apply errs_ok. Qed.

Lemma fitCircle_errs (pts : list (vec A)) : 2 <= length pts -> errs zero (fitCircle3Points pts).
Proof.
  intros Hl. assert (Hg : forall i, (-1 <= i < Z.of_nat (length pts))%Z -> errs zero (py_get pts i)).
  { intros i Hi. unfold py_get. cbv zeta.
    set (j := if (i <? 0)%Z then (i + Z.of_nat (length pts))%Z else i).
    assert (Hj : (0 <= j < Z.of_nat (length pts))%Z) by (unfold j; destruct (Z.ltb_spec i 0); lia).
    destruct (Z.leb_spec 0 j); [|lia]. destruct (Z.ltb_spec j (Z.of_nat (length pts))); [|lia]. cbn [andb].
    destruct (nth_error pts (Z.to_nat j)) eqn:E; [apply errs_ok|]. apply nth_error_None in E. lia. }
  unfold fitCircle3Points.
  apply errs_bind; [apply Hg; lia|intros p0 _].
  apply errs_bind; [apply Hg|intros pm _].
  { split; [|apply Z.div_lt_upper_bound; lia]. pose proof (Z.div_pos (Z.of_nat (length pts)) 2). lia. }
  apply errs_bind; [apply Hg; lia|intros pl _]. cbv zeta.
  apply errs_bind; [apply cdiv_errs|intros w _]. apply errs_bind; [apply cdiv_errs|intros q1 _].
  apply errs_bind; [apply cdiv_errs|intros; apply errs_ok].
Qed.

Lemma detectApses_errs (c : list edge2) : c <> [] -> errs zero (detectApses c).
Proof.
  intros Hc e E. destruct (detectApses_spec Hc) as (rs & _ & Hrs & _ & H0 & H1).
  destruct rs as [|r rt]; [rewrite H0 in E; [discriminate|auto]|]. rewrite E in H1.
  destruct H1 as (r' & pts & Hin & (Hl & _) & Hf); [discriminate|]. eapply fitCircle_errs; [|exact Hf].
  destruct r' as [s e']. apply Hrs in Hin. destruct Hin as (_ & Hin & _). simpl in *. lia.
Qed.

Lemma merge_loop_errs (c : list edge2) rest cv : c <> [] ->
  forall fuel sk, errs (fun e => zero e \/ e = OutOfFuel) (merge_loop fuel sk cv (c :: rest)).
Proof.
  intros Hc. induction fuel as [|f IH]; intros sk; cbn [merge_loop]; [apply errs_err; auto|]. apply errs_bind.
  - unfold findClusters. change (py_get (c :: rest) 0) with (Ok c). cbn [bind].
    apply errs_bind; [|intros; apply errs_ok]. eapply errs_impl; [apply detectApses_errs; auto|auto].
  - intros [|cl t] _; [apply errs_ok|]. apply errs_bind; [|intros; apply IH].
    intros e E. apply mergeCluster_err in E. left. exact E.
Qed.

Lemma skeletonize_errs fuel (c : list edge2) rest : (forall c', In c' (c :: rest) -> c' <> []) -> errs skeleton_exn (skeletonize fuel (c :: rest)).
Proof.
  intros Hne. assert (Hc : c <> []) by (apply Hne; simpl; auto). unfold skeletonize. apply errs_bind.
  { unfold raw_skeleton. apply errs_bind; [apply skeleton_start_errs; auto|]. intros st _.
    apply errs_bind; [apply event_loop_errs|intros; apply errs_ok]. }
  intros out _. apply errs_bind.
  { unfold mergeNodeClusters. eapply errs_impl; [apply merge_loop_errs; auto|].
    unfold zero, only, skeleton_exn. intros e [-> | ->]; tauto. }
  intros out' _ e E. destruct (removeGhosts_ends out') as [[sk K]|[K|K]]; rewrite K in E; injection E as <- || discriminate; unfold skeleton_exn; auto.
Qed.
End Skeleton.

(** ** the call *)
Section Call.
Context {A : arith}.

Lemma py_get_there T (l : list T) i : (0 <= i < Z.of_nat (length l))%Z -> exists p, py_get l i = Ok p.
Proof.
  intros Hi. rewrite py_get_nonneg by lia. destruct (nth_error l (Z.to_nat i)) as [p|] eqn:E; [simpl; eauto|].
  apply nth_error_None in E. lia.
Qed.

Lemma contour_edges_total (verts : list (vec3 A)) center us u0 id0 first cnt :
  block_inside (length verts) (first, cnt) ->
  (match us with None => True | Some l => 0 <= u0 /\ u0 + cnt <= Z.of_nat (length l) end)%Z ->
  exists es, contour_edges verts center us u0 id0 first cnt = Ok es.
Proof.
  intros (B1 & B2 & B3) Hu. simpl in B1, B2, B3.
  assert (Hun : forall k, (0 <= k < cnt)%Z -> exists u, opt_unit us (u0 + k) = Ok u).
  { intros k Hk. unfold opt_unit. destruct us as [l|]; [|eauto].
    destruct (@py_get_there _ l (u0 + k)) as [p ->]; [lia|]. simpl; eauto. }
  assert (Hed : forall id i j u, (0 <= i < Z.of_nat (length verts))%Z -> (0 <= j < Z.of_nat (length verts))%Z ->
    exists e, Edge2_idx id i j u verts center = Ok e).
  { intros id i j u Hi Hj. unfold Edge2_idx. destruct (py_get_there Hi) as [p ->], (py_get_there Hj) as [q ->]. cbn [bind]. eauto. }
  unfold contour_edges. cbv zeta.
  destruct (@mapM_total _ _ (fun k : nat => u <- opt_unit us (u0 + Z.of_nat k) ;;
    Edge2_idx (id0 + k) (first + Z.of_nat k) (first + Z.of_nat k + 1) u verts center) (seq 0 (Z.to_nat (cnt - 1)))) as [body ->].
  { intros k Hk. apply in_seq in Hk. destruct (Hun (Z.of_nat k)) as [u ->]; [lia|]. cbn [bind]. apply Hed; lia. }
  cbn [bind]. replace (u0 + cnt - 1)%Z with (u0 + (cnt - 1))%Z by lia. destruct (Hun (cnt - 1)%Z) as [u ->]; [lia|]. cbn [bind].
  destruct (Hed (id0 + Z.to_nat (cnt - 1)) (first + cnt - 1)%Z first u) as [e ->]; try lia. cbn [bind]. eauto.
Qed.

Lemma hole_edges_total (verts : list (vec3 A)) center us : forall holes u0 id0,
  (forall h, In h holes -> block_inside (length verts) h) ->
  (match us with None => True | Some l => 0 <= u0 /\ u0 + fold_right (fun h n => snd h + n) 0 holes <= Z.of_nat (length l) end)%Z ->
  exists hs, hole_edges verts center us u0 id0 holes = Ok hs.
Proof.
  induction holes as [|[f c] t IH]; intros u0 id0 Hb Hu; cbn [hole_edges]; [eauto|].
  assert (Hs : (0 <= fold_right (fun h n => snd h + n) 0 t)%Z).
  { assert (Hb' : forall h, In h t -> block_inside (length verts) h) by (intros; apply Hb; simpl; auto).
    clear - Hb'. induction t as [|h t IH]; simpl; [lia|]. destruct (Hb' h) as (_ & K & _); [simpl; auto|].
    assert (0 <= fold_right (fun h n => snd h + n) 0 t)%Z by (apply IH; intros; apply Hb'; simpl; auto). lia. }
  pose proof (Hb (f, c) (or_introl eq_refl)) as Hfc. pose proof Hfc as (_ & K & _). simpl in K.
  destruct (@contour_edges_total verts center us u0 id0 f c) as [es ->]; auto.
  { destruct us; auto. simpl in Hu. lia. }
  cbn [bind]. destruct (IH (u0 + c)%Z (id0 + length es)) as [hs ->].
  { intros; apply Hb; simpl; auto. }
  { destruct us; auto. simpl in Hu. lia. }
  cbn [bind]. eauto.
Qed.

Lemma prepare_errs (verts : list (vec3 A)) first cnt holes us :
  let hs := match holes with Some h => h | None => [] end in
  blocks_inside (length verts) first cnt hs -> units_inside us cnt hs ->
  errs zero (prepare verts first cnt holes us).
Proof.
  intros hs (Ho & Hh) Hu. pose proof Ho as (B1 & B2 & B3). simpl in B1, B2, B3.
  unfold prepare. destruct (@py_get_there _ verts first) as [v0 ->]; [lia|]. cbn [bind]. apply errs_bind.
  { unfold poly_center. assert (G : forall is acc, (forall i, In i is -> (0 <= i < Z.of_nat (length verts))%Z) -> exists c, sum_verts verts acc is = Ok c).
    { induction is as [|i t IH]; intros acc Hi; cbn [sum_verts]; [eauto|].
      destruct (@py_get_there _ verts i) as [p ->]; [apply Hi; simpl; auto|]. cbn [bind]. apply IH. intros; apply Hi; simpl; auto. }
    destruct (G (zrange first (first + cnt)) (mkvec3 zeroN zeroN zeroN)) as [c ->].
    { intros i Hi. apply In_zrange in Hi. lia. }
    cbn [bind]. cbv zeta. destruct (neqb _ _); [apply errs_err; reflexivity|apply errs_ok]. }
  intros center _. cbv zeta. fold hs.
  assert (Ht : match truthy_list us with None => True | Some l => (cnt + fold_right (fun h n => snd h + n) 0 hs <= Z.of_nat (length l))%Z end).
  { destruct us as [[|u ut]|]; simpl in *; auto. }
  assert (Hs : (0 <= fold_right (fun h n => snd h + n) 0 hs)%Z).
  { clear - Hh. induction hs as [|h t IH]; simpl; [lia|]. destruct (Hh h) as (_ & K & _); [simpl; auto|].
    assert (0 <= fold_right (fun h n => snd h + n) 0 t)%Z by (apply IH; intros; apply Hh; simpl; auto). lia. }
  destruct (@contour_edges_total verts center (truthy_list us) 0 0 first cnt Ho) as [outer ->].
  { destruct (truthy_list us); auto. lia. }
  cbn [bind]. destruct (@hole_edges_total verts center (truthy_list us) hs cnt (length outer) Hh) as [hes ->].
  { destruct (truthy_list us); auto. lia. }
  apply errs_ok.
Qed.

Lemma slope_errs (sk : list (@subtree A)) hgt tan : errs skeleton_exn (slope sk hgt tan).
Proof.
  unfold slope. destruct (ntruth hgt); [|apply errs_ok]. apply errs_bind.
  - unfold max_height. destruct (map _ sk); [apply errs_err|apply errs_ok]. unfold skeleton_exn; auto.
  - intros m _ e E. apply pdiv_err in E. unfold skeleton_exn; auto.
Qed.

Lemma call_faces_errs sw sch (verts : list (vec3 A)) first cnt holes us zBase center contours sk ta :
  let hs := match holes with Some h => h | None => [] end in
  blocks_inside (length verts) first cnt hs -> prepare verts first cnt holes us = Ok (zBase, center, contours) ->
  errs faces_exn (roof_faces sw sch (verts ++ map (skeleton_node3D center ta zBase) sk) first cnt hs (concat contours) sk (Z.of_nat (length verts))).
Proof.
  intros hs Hb Hp x Hf. pose proof Hb as ((B1 & B2 & B3) & Hh). simpl in B1, B2, B3.
  assert (Hh1 : forall h, In h hs -> (1 <= snd h)%Z) by (intros h Hin; apply Hh in Hin; destruct Hin; tauto).
  assert (Hrings := @prepare_rings _ verts first cnt holes us zBase center contours B2 Hh1 Hp). fold hs in Hrings.
  eapply roof_faces_errs; [exact B2|exact Hh1| | |exact Hf].
  - intros e' He. apply (rings_index _ Hrings He).
  - intros i Hi. unfold there. set (n := length verts) in *.
    assert (Hlen : length (verts ++ map (skeleton_node3D center ta zBase) sk) = n + length sk) by (rewrite app_length, map_length; auto).
    assert (Hin : forall b, In b ((first, cnt) :: hs) -> in_block (fst b) (snd b) i -> (0 <= i < Z.of_nat n)%Z).
    { intros b Hb' Hi'. assert (K : block_inside n b) by (destruct Hb' as [<-|Hb']; [split; auto|apply Hh; auto]).
      destruct K as (K1 & K2 & K3). unfold in_block in Hi'. lia. }
    destruct Hi as [[Hi|(h & Hh' & Hi)]|[Hi|[-> _]]].
    + apply py_get_there. rewrite Hlen. assert (0 <= i < Z.of_nat n)%Z by (apply (Hin (first, cnt)); simpl; auto). lia.
    + apply py_get_there. rewrite Hlen. assert (0 <= i < Z.of_nat n)%Z by (apply (Hin h); simpl; auto). lia.
    + apply py_get_there. rewrite Hlen. unfold node_index in Hi. lia.
    + unfold py_get. rewrite Hlen. change (-1 <? 0)%Z with true. cbv iota zeta.
      destruct (Z.leb_spec 0 (-1 + Z.of_nat (n + length sk))); [|lia].
      destruct (Z.ltb_spec (-1 + Z.of_nat (n + length sk)) (Z.of_nat (n + length sk))); [|lia]. cbn [andb].
      destruct (nth_error _ _) as [p|] eqn:E; [simpl; eauto|]. apply nth_error_None in E. lia.
Qed.

Theorem polygonize_exceptions fuel sw sch dbg (verts : list (vec3 A)) first cnt holes hgt tan faces us e :
  let hs := match holes with Some h => h | None => [] end in
  blocks_inside (length verts) first cnt hs -> units_inside us cnt hs ->
  let o := polygonize fuel sw sch dbg verts first cnt holes hgt tan faces us in
  o_result o = Err e ->
  o_faces o = faces /\
  (skeleton_exn e /\ o_verts o = verts \/
   faces_exn e /\ exists sk, o_verts o = verts ++ sk).
Proof.
  intros hs Hb Hu o Hr. pose proof Hb as ((B1 & B2 & B3) & Hh). simpl in B1, B2, B3.
  assert (Hh1 : forall h, In h hs -> (1 <= snd h)%Z) by (intros h Hin; apply Hh in Hin; destruct Hin; tauto).
  unfold o, polygonize in Hr |- *.
  destruct (prepare verts first cnt holes us) as [[[zBase center] contours]|x] eqn:Hp; cbn [bind] in Hr |- *.
  2: { simpl in Hr |- *. injection Hr as <-. split; auto. left. split; auto.
       apply (prepare_errs Hb Hu) in Hp. unfold zero, only in Hp. unfold skeleton_exn; auto. }
  assert (Hrings := @prepare_rings _ verts first cnt holes us zBase center contours B2 Hh1 Hp). fold hs in Hrings.
  destruct (skeletonize fuel contours) as [sk|x] eqn:Hs; cbn [bind] in Hr |- *.
  2: { simpl in Hr |- *. injection Hr as <-. split; auto. left. split; auto.
       destruct contours as [|c rest]; [inversion Hrings|]. apply skeletonize_errs in Hs; auto.
       intros c' Hc'. destruct (Forall2_In_r _ Hrings Hc') as (b & Hin & Hl & _).
       assert (1 <= snd b)%Z by (destruct Hin as [<-|Hin]; simpl; auto).
       intros ->. simpl in Hl. lia. }
  destruct (slope sk hgt tan) as [ta|x] eqn:Ht.
  2: { simpl in Hr |- *. injection Hr as <-. split; auto. left. split; auto. eapply slope_errs; eauto. }
  cbv zeta in Hr |- *. fold hs in Hr |- *.
  destruct (roof_faces _ _ _ _ _ _ _ _ _) as [fs|x] eqn:Hf; simpl in Hr |- *.
  { destruct faces; discriminate. }
  injection Hr as <-. split; auto. right. split; [|eauto]. eapply call_faces_errs; eauto.
Qed.

Theorem polygonize_no_index_error fuel sw sch dbg (verts : list (vec3 A)) first cnt holes hgt tan faces us :
  let hs := match holes with Some h => h | None => [] end in
  blocks_inside (length verts) first cnt hs -> units_inside us cnt hs ->
  let o := polygonize fuel sw sch dbg verts first cnt holes hgt tan faces us in
  o_result o <> Err IndexError /\ o_result o <> Err AssertionError.
Proof.
  intros hs Hb Hu o. split; intros Hr; destruct (polygonize_exceptions Hb Hu Hr) as (_ & [[K _]|[K _]]);
    unfold skeleton_exn, faces_exn in K; intuition discriminate.
Qed.
End Call.
