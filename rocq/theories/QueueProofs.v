(** * QueueProofs: the event queue (bpypolyskel.py:435-467) *)

From Coq Require Import Permutation Floats.SpecFloat Reals Lra Sorted.
From Verif Require Import Py PyFacts Arith Euclid Heapq Lav HeapSpec HeapProofs ArithF ArithR.
Set Implicit Arguments.
Local Open Scope nat_scope.

(** ** the order of binary64 *)

Definition not_nan (x : f64) : Prop := x <> S754_nan.

Lemma SFltb_asym x y : SFltb x y = true -> SFltb y x = false.
Proof.
  destruct x as [[]|[]| |[] mx ex], y as [[]|[]| |[] my ey]; cbn; try discriminate; auto;
  change (Pos.compare_cont Eq my mx) with (Pos.compare my mx);
  change (Pos.compare_cont Eq mx my) with (Pos.compare mx my);
  destruct (Z.compare_spec ex ey), (Z.compare_spec ey ex); try discriminate; auto; try lia;
  destruct (Pos.compare_spec mx my), (Pos.compare_spec my mx); cbn; try discriminate; auto; try lia.
Qed.

Lemma SFltb_trans x y z : not_nan x -> not_nan y -> not_nan z ->
  SFltb y x = false -> SFltb z y = false -> SFltb z x = false.
Proof.
  intros Hx Hy Hz.
  destruct x as [[]|[]| |[] mx ex]; try (destruct (Hx eq_refl));
  destruct y as [[]|[]| |[] my ey]; try (destruct (Hy eq_refl));
  destruct z as [[]|[]| |[] mz ez]; try (destruct (Hz eq_refl)); cbn; try discriminate; auto;
  change (Pos.compare_cont Eq my mx) with (Pos.compare my mx);
  change (Pos.compare_cont Eq mz my) with (Pos.compare mz my);
  change (Pos.compare_cont Eq mz mx) with (Pos.compare mz mx);
  destruct (Z.compare_spec ey ex), (Z.compare_spec ez ey), (Z.compare_spec ez ex); try discriminate; auto; try lia;
  destruct (Pos.compare_spec my mx), (Pos.compare_spec mz my), (Pos.compare_spec mz mx);
    cbn; try discriminate; auto; try lia.
Qed.

(** ** the queue *)
Section Queue.
Context {A : arith}.

(** the comparison is that of a total preorder on the distances satisfying D *)
Definition ordered_distances (D : num A -> Prop) : Prop :=
  (forall x y : num A, nltb x y = true -> nltb y x = false) /\
  (forall x y z : num A, D x -> D y -> D z -> nltb y x = false -> nltb z y = false -> nltb z x = false).

Definition ev_ok (D : num A -> Prop) (e : @event A) : Prop := D (ev_distance e).
Definition dist_ok (D : num A -> Prop) (o : pq_op (@event A)) : Prop :=
  match o with Put e => D (ev_distance e) | Got _ => True end.

Lemma queue_history D ops q : ordered_distances D -> Forall (dist_ok D) ops ->
  heap_run (@ev_lt A) [] ops q -> Forall (ev_ok D) q /\ heap (@ev_lt A) q /\ pq_history (@ev_lt A) [] ops q.
Proof.
  intros [H1 H2] Hops Hr.
  apply (@heap_run_history _ (@ev_lt A)) with (ok := ev_ok D); auto.
  - intros a b. apply H1.
  - intros a b c. apply H2.
  - apply heap_nil.
Qed.

Lemma pop_equal_perm fuel (item : @event A) q l q' : pop_equal fuel item q = (l, q') -> Permutation q (l ++ q').
Proof.
  revert q l q'. induction fuel as [|f IH]; intros q l q'; simpl.
  - intros [= <- <-]. auto.
  - destruct q as [|top t]; [intros [= <- <-]; auto|].
    destruct (near_distance top item); [|intros [= <- <-]; auto].
    destruct (heappop ev_lt (top :: t)) as [[x q1]|] eqn:E; [|intros [= <- <-]; auto].
    destruct (pop_equal f item q1) as [l1 q2] eqn:E1. intros [= <- <-].
    eapply Permutation_trans; [apply (heappop_perm _ _ E)|]. simpl. constructor. eapply IH; eauto.
Qed.

Lemma pop_equal_run fuel (item : @event A) q l q' : pop_equal fuel item q = (l, q') ->
  heap_run (@ev_lt A) q (map (fun e => Got (Some e)) l) q'.
Proof.
  revert q l q'. induction fuel as [|f IH]; intros q l q'; simpl.
  - intros [= <- <-]. constructor.
  - destruct q as [|top t]; [intros [= <- <-]; constructor|].
    destruct (near_distance top item); [|intros [= <- <-]; constructor].
    destruct (heappop ev_lt (top :: t)) as [[x q1]|] eqn:E; [|intros [= <- <-]; constructor].
    destruct (pop_equal f item q1) as [l1 q2] eqn:E1. intros [= <- <-].
    simpl. econstructor; eauto.
Qed.

Lemma heappop_length T (lt : T -> T -> bool) h x h' : heappop lt h = Some (x, h') -> length h = S (length h').
Proof. intros H. apply heappop_perm in H. apply Permutation_length in H. exact H. Qed.

(** the loop stops because the queue is empty or its first event is farther away *)
Lemma pop_equal_stop fuel (item : @event A) q l q' : length q <= fuel -> pop_equal fuel item q = (l, q') ->
  Forall (fun e => near_distance e item = true) l /\
  match q' with [] => True | top :: _ => near_distance top item = false end.
Proof.
  revert q l q'. induction fuel as [|f IH]; intros q l q' Hf; simpl.
  - intros [= <- <-]. destruct q; simpl in Hf; [auto|lia].
  - destruct q as [|top t]; [intros [= <- <-]; auto|].
    destruct (near_distance top item) eqn:En; [|intros [= <- <-]; auto].
    destruct (heappop ev_lt (top :: t)) as [[x q1]|] eqn:E; [|apply heappop_none in E; discriminate].
    destruct (pop_equal f item q1) as [l1 q2] eqn:E1. intros [= <- <-].
    assert (x = top) as -> by (apply heappop_hd in E; simpl in E; congruence).
    apply heappop_length in E. destruct (IH q1 l1 q2) as [H1 H2]; auto; simpl in E, Hf; try lia.
Qed.

Lemma getAllEqualDistance_run (q : list (@event A)) b q' : getAllEqualDistance q = Some (b, q') ->
  heap_run (@ev_lt A) q (map (fun e => Got (Some e)) b) q'.
Proof.
  unfold getAllEqualDistance. destruct (heappop ev_lt q) as [[x q1]|] eqn:E; [|discriminate].
  destruct (pop_equal (length q1) x q1) as [l q2] eqn:E1. intros [= <- <-].
  simpl. econstructor; eauto. eapply pop_equal_run; eauto.
Qed.

Lemma getAllEqualDistance_perm (q : list (@event A)) b q' : getAllEqualDistance q = Some (b, q') -> Permutation q (b ++ q').
Proof.
  unfold getAllEqualDistance. destruct (heappop ev_lt q) as [[x q1]|] eqn:E; [|discriminate].
  destruct (pop_equal (length q1) x q1) as [l q2] eqn:E1. intros [= <- <-].
  eapply Permutation_trans; [apply (heappop_perm _ _ E)|]. simpl. constructor. eapply pop_equal_perm; eauto.
Qed.

Lemma getAllEqualDistance_none (q : list (@event A)) : getAllEqualDistance q = None <-> q = [].
Proof.
  unfold getAllEqualDistance. destruct (heappop ev_lt q) as [[x q1]|] eqn:E.
  - destruct (pop_equal (length q1) x q1). split; [discriminate|]. intros ->. discriminate.
  - apply heappop_none in E. tauto.
Qed.

(** a run of removals yields the events in order *)
Lemma got_sorted bag (l : list (@event A)) bag' :
  pq_history (@ev_lt A) bag (map (fun e => Got (Some e)) l) bag' ->
  StronglySorted (fun a b => ev_lt b a = false) l /\
  Permutation bag (l ++ bag') /\
  (forall a b, In a l -> In b bag' -> ev_lt b a = false).
Proof.
  revert bag. induction l as [|e l IH]; intros bag H; simpl in H.
  - inversion H; subst. split; [constructor|]. split; [auto|]. intros ? ? [].
  - inversion H as [|  |b0 x0 rest ops0 b1 Hp Hl Hh|]; subst. destruct (IH _ Hh) as (S1 & S2 & S3). split; [|split].
    + constructor; auto. rewrite Forall_forall. intros y Hy. apply Hl.
      eapply Permutation_in; [apply Permutation_sym, S2|]. apply in_or_app; auto.
    + rewrite Hp. simpl. constructor. auto.
    + intros a b [<-|Ha] Hb; auto. apply Hl.
      eapply Permutation_in; [apply Permutation_sym, S2|]. apply in_or_app; auto.
Qed.

Lemma batch_spec D q b q' : ordered_distances D -> Forall (ev_ok D) q -> heap (@ev_lt A) q ->
  getAllEqualDistance q = Some (b, q') ->
  exists e t, b = e :: t /\ Permutation q (b ++ q') /\
    StronglySorted (fun a b => ev_lt b a = false) b /\
    (forall x y, In x b -> In y q' -> ev_lt y x = false) /\
    Forall (fun x => near_distance x e = true) t /\
    (forall top r, q' = top :: r -> near_distance top e = false) /\
    heap (@ev_lt A) q' /\ Forall (ev_ok D) q'.
Proof.
  intros [H1 H2] Hok Hh Hg. pose proof (getAllEqualDistance_run _ Hg) as Hr.
  destruct (@heap_run_history _ (@ev_lt A)) with (ok := ev_ok D) (h := q)
     (ops := map (fun e => Got (Some e)) b) (h' := q') as (R1 & R2 & R3); auto.
  { intros x y. apply H1. } { intros x y z. apply H2. }
  { rewrite Forall_forall. intros o Ho. apply in_map_iff in Ho as (x & <- & _). exact I. }
  destruct (got_sorted _ R3) as (S1 & S2 & S3).
  unfold getAllEqualDistance in Hg. destruct (heappop ev_lt q) as [[e q1]|] eqn:E; [|discriminate].
  destruct (pop_equal (length q1) e q1) as [l q2] eqn:E1. injection Hg as <- <-.
  destruct (pop_equal_stop _ _ (le_n _) E1) as [P1 P2].
  exists e, l. repeat (split; auto). intros top r ->. auto.
Qed.

Lemma put_all_run (q es : list (@event A)) : heap_run (@ev_lt A) q (map Put es) (put_all q es).
Proof.
  revert q. induction es as [|e es IH]; intros q; simpl; constructor. apply IH.
Qed.

Lemma heap_run_app (q q1 q2 : list (@event A)) ops1 ops2 :
  heap_run (@ev_lt A) q ops1 q1 -> heap_run (@ev_lt A) q1 ops2 q2 -> heap_run (@ev_lt A) q (ops1 ++ ops2) q2.
Proof. intros H. revert q2. induction H; intros q2 Hq; simpl; auto; econstructor; eauto. Qed.

Lemma reachable_queues (ops : list (pq_op (@event A))) (q : list (@event A)) :
  heap_run (@ev_lt A) [] ops q ->
  (forall es, exists ops', heap_run (@ev_lt A) [] ops' (put_all q es)) /\
  (forall b q', getAllEqualDistance q = Some (b, q') -> exists ops', heap_run (@ev_lt A) [] ops' q').
Proof.
  intros H. split.
  - intros es. eexists. eapply heap_run_app; [exact H | apply put_all_run].
  - intros b q' Hg. eexists. eapply heap_run_app; [exact H | apply getAllEqualDistance_run; exact Hg].
Qed.

End Queue.

(** ** exact arithmetic *)

Lemma RA_ordered : @ordered_distances RA (fun _ => True).
Proof.
  split.
  - intros x y H. apply Rltb_lt in H. apply Rltb_ge. lra.
  - intros x y z _ _ _ H1 H2. apply Rltb_ge in H1, H2. apply Rltb_ge. lra.
Qed.

Lemma F64_ordered : @ordered_distances F64 not_nan.
Proof. split; [exact SFltb_asym | exact SFltb_trans]. Qed.

(** the distance of an event as a real number *)
Definition dist_R (e : @event RA) : R := ev_distance e.

Lemma batch_R ops q b q' :
  heap_run (@ev_lt RA) [] ops q -> getAllEqualDistance q = Some (b, q') ->
  exists e t, b = e :: t /\ Permutation q (b ++ q') /\
    (forall x, In x q -> (dist_R e <= dist_R x)%R) /\
    StronglySorted (fun x y => (dist_R x <= dist_R y)%R) b /\
    (forall x, In x b -> (dist_R x - dist_R e < 1 / 1000)%R) /\
    (forall x, In x q' -> (1 / 1000 <= dist_R x - dist_R e)%R).
Proof.
  intros Hr Hg.
  destruct (@queue_history RA (fun _ => True) ops q RA_ordered) as (Hok & Hh & _); auto.
  { rewrite Forall_forall. intros [x|o] _; exact I. }
  destruct (@batch_spec RA (fun _ => True) q b q' RA_ordered Hok Hh Hg)
    as (e & t & -> & Hp & Hs & Hle & Hnear & Hstop & Hh' & _).
  assert (Hle' : forall x y : @event RA, ev_lt y x = false -> (dist_R x <= dist_R y)%R).
  { intros x y H. apply Rltb_ge in H. exact H. }
  assert (Hmin : forall x, In x (t ++ q') -> (dist_R e <= dist_R x)%R).
  { intros x Hx. apply in_app_or in Hx as [Hx|Hx].
    - apply Hle'. inversion Hs; subst. rewrite Forall_forall in H2. auto.
    - apply Hle'. apply Hle; auto. left; auto. }
  assert (Hnd : forall x : @event RA, near_distance x e = Rltb (Rabs (dist_R x - dist_R e)) (1 / 1000)).
  { reflexivity. }
  exists e, t. split; auto. split; auto. split; [|split; [|split]].
  - intros x Hx. apply (Permutation_in _ Hp) in Hx. destruct Hx as [->|Hx]; [lra|apply Hmin; auto].
  - clear - Hs Hle'. induction Hs; constructor; auto. eapply Forall_impl; [|eassumption]. intros y; apply Hle'.
  - intros x [->|Hx]; [lra|]. rewrite Forall_forall in Hnear. specialize (Hnear _ Hx).
    rewrite Hnd in Hnear. apply Rltb_lt in Hnear.
    pose proof (Rle_abs (dist_R x - dist_R e)). lra.
  - destruct q' as [|top r]; [intros x []|]. intros x Hx. specialize (Hstop _ _ eq_refl).
    rewrite Hnd in Hstop. apply Rltb_ge in Hstop.
    assert (Htop : (dist_R e <= dist_R top)%R) by (apply Hmin; apply in_or_app; right; left; auto).
    rewrite Rabs_right in Hstop by lra.
    assert (dist_R top <= dist_R x)%R; [|lra].
    apply In_nth_error in Hx as [k Hk].
    assert (Hk' : k < length (top :: r)) by (apply nth_error_Some; congruence).
    destruct (heappop ev_lt (top :: r)) as [[y h]|] eqn:E; [|apply heappop_none in E; discriminate].
    apply Hle'. refine (@nth_error_hd _ (@ev_lt RA) _ (fun _ => True) _ _ _ _ k E Hk' _ Hh' top x eq_refl Hk).
    + intros a c. apply (proj1 RA_ordered).
    + intros a c d. intros. eapply (proj2 RA_ordered); eauto.
    + rewrite Forall_forall. auto.
Qed.
