(** * PatEvents: processDormers (bpypolyskel.py:777-801) *)

From Coq Require Import Sorted Permutation.
From Verif Require Import Py PyFacts Arith Euclid Heapq HeapProofs Lav Cluster LavInit PatSpec PatProofs.
Set Implicit Arguments.
Unset Strict Implicit.
Local Open Scope nat_scope.

Lemma select_at T (p : nat -> bool) (l : list T) :
  Forall2 (fun i x => nth_error l i = Some x) (filter p (seq 0 (length l)))
          (map snd (filter (fun ie => p (fst ie)) (enumerate l))).
Proof.
  unfold enumerate.
  assert (G : forall (m : list T) k pre, l = pre ++ m -> length pre = k ->
    Forall2 (fun i x => nth_error l i = Some x) (filter p (seq k (length m)))
            (map snd (filter (fun ie => p (fst ie)) (combine (seq k (length m)) m)))).
  { induction m as [|x m IH]; intros k pre Hl Hk; simpl; [constructor|].
    assert (IH' := IH (S k) (pre ++ [x])). rewrite <- app_assoc, app_length in IH'. simpl in IH'.
    specialize (IH' Hl ltac:(lia)). destruct (p k); simpl; auto. constructor; auto.
    rewrite Hl, nth_error_app2 by lia. rewrite Hk, Nat.sub_diag. reflexivity. }
  apply (G l 0 []); reflexivity.
Qed.

Lemma seq_sorted k n : StronglySorted lt (seq k n).
Proof.
  revert k. induction n as [|n IH]; intros k; simpl; constructor; auto. apply Forall_forall. intros x Hx. apply in_seq in Hx. lia.
Qed.
Lemma filter_seq_sorted p n : StronglySorted lt (filter p (seq 0 n)).
Proof.
  pose proof (seq_sorted 0 n) as H. induction H as [|x l HS IH HF]; simpl; [constructor|]. destruct (p x); auto.
  constructor; auto. rewrite Forall_forall in *. intros y Hy. apply filter_In in Hy as [Hy _]. auto.
Qed.

Lemma existsb_nat i idx : existsb (Nat.eqb i) idx = true <-> In i idx.
Proof.
  rewrite existsb_exists. split; [intros (j & H1 & H2); apply Nat.eqb_eq in H2; subst; auto|].
  intros H. exists i. split; auto. apply Nat.eqb_refl.
Qed.

Lemma sorted_unique (l m : list nat) : StronglySorted lt l -> StronglySorted lt m -> Permutation l m -> l = m.
Proof.
  intros Hl. revert m. induction Hl as [|x l HS IH HF]; intros m Hm Hp; [apply Permutation_nil in Hp; auto|].
  destruct m as [|y m]; [apply Permutation_sym, Permutation_nil in Hp; discriminate|].
  inversion Hm as [|? ? HS' HF']; subst. rewrite Forall_forall in HF, HF'.
  assert (x = y).
  { assert (H1 : In x (y :: m)) by (eapply Permutation_in; [exact Hp|left; auto]).
    assert (H2 : In y (x :: l)) by (eapply Permutation_in; [apply Permutation_sym; exact Hp|left; auto]).
    destruct H1 as [->|H1]; auto. destruct H2 as [->|H2]; auto. apply HF' in H1. apply HF in H2. lia. }
  subst y. f_equal. apply IH; auto. apply Permutation_cons_inv in Hp. auto.
Qed.

Section Events.
Context {A : arith}.
Notation event := (@event A).

Lemma dormer_event_spec (s : @slav A) evs dm : NoDup (fst dm) -> length (fst dm) = 4 -> (forall i, In i (fst dm) -> i < length evs) ->
  exists o, dormer_event s evs dm = Ok o /\
    match o with Some e => makes evs dm e | None => forall e, ~ makes evs dm e end.
Proof.
  intros Hnd Hlen Hr. unfold dormer_event. cbv zeta.
  pose proof (select_at (fun i => existsb (Nat.eqb i) (fst dm)) evs) as Hsel.
  set (sel := map snd (filter (fun ie => existsb (Nat.eqb (fst ie)) (fst dm)) (enumerate evs))) in *.
  assert (Hsort := filter_seq_sorted (fun i => existsb (Nat.eqb i) (fst dm)) (length evs)).
  assert (Hperm : Permutation (fst dm) (filter (fun i => existsb (Nat.eqb i) (fst dm)) (seq 0 (length evs)))).
  { apply NoDup_Permutation; auto; [apply NoDup_filter, seq_NoDup|]. intros i. rewrite filter_In, existsb_nat, in_seq.
    split; [|tauto]. intros H. split; auto. apply Hr in H. lia. }
  set (js := filter (fun i => existsb (Nat.eqb i) (fst dm)) (seq 0 (length evs))) in *. clearbody js sel.
  assert (Hjl := Permutation_length Hperm). rewrite Hlen in Hjl.
  destruct js as [|j0 [|j1 [|j2 [|j3 [|]]]]]; try discriminate.
  inversion Hsel as [|? o0 ? l0 N0 F0]; subst. inversion F0 as [|? o1 ? l1 N1 F1]; subst.
  inversion F1 as [|? o2 ? l2 N2 F2]; subst. inversion F2 as [|? o3 ? l3 N3 F3]; subst. inversion F3; subst. clear F0 F1 F2 F3 Hsel.
  assert (Hlt : j0 < j1 /\ j1 < j2 /\ j2 < j3).
  { inversion Hsort as [|? ? S1 G1]; subst. inversion S1 as [|? ? S2 G2]; subst. inversion S2 as [|? ? S3 G3]; subst.
    rewrite Forall_forall in G1, G2, G3. repeat split; [apply G1|apply G2|apply G3]; simpl; auto. }
  assert (Huniq : forall e, makes evs dm e ->
    exists dp ipp vp op de ipe va vb x dn ipn vn on, o0 = Some (SplitEv dp ipp vp op) /\ o1 = Some (EdgeEv de ipe va vb) /\
      o2 = Some x /\ o3 = Some (SplitEv dn ipn vn on) /\ e = DormerEv (ndiv (snd dm) twoN) dp vp dn vn de ipe va vb).
  { intros e (i0 & i1 & i2 & i3 & dp & ipp & vp & op & de & ipe & va & vb & x & dn & ipn & vn & on & L0 & L1 & L2 & P & M0 & M1 & M2 & M3 & ->).
    assert (E : [j0; j1; j2; j3] = [i0; i1; i2; i3]).
    { apply sorted_unique; auto.
      - repeat (constructor; [|apply Forall_forall; intros y Hy; simpl in Hy; lia]). constructor.
      - eapply Permutation_trans; [apply Permutation_sym; exact Hperm|exact P]. }
    injection E as -> -> -> ->. exists dp, ipp, vp, op, de, ipe, va, vb, x, dn, ipn, vn, on. repeat split; congruence. }
  cbn [nth_error of_option bind forallb].
  assert (Hnone : (forall e, makes evs dm e -> False) -> exists o, Ok (@None event) = Ok o /\
     match o with Some e => makes evs dm e | None => forall e, ~ makes evs dm e end).
  { intros H. exists None. split; auto. }
  destruct o0 as [e0|]; cbn [andb]; [|apply Hnone; intros e He; apply Huniq in He as (? & ? & ? & ? & ? & ? & ? & ? & ? & ? & ? & ? & ? & K & _); discriminate].
  destruct o1 as [e1|]; cbn [andb]; [|apply Hnone; intros e He; apply Huniq in He as (? & ? & ? & ? & ? & ? & ? & ? & ? & ? & ? & ? & ? & _ & K & _); discriminate].
  destruct o2 as [e2|]; cbn [andb]; [|apply Hnone; intros e He; apply Huniq in He as (? & ? & ? & ? & ? & ? & ? & ? & ? & ? & ? & ? & ? & _ & _ & K & _); discriminate].
  destruct o3 as [e3|]; cbn [andb]; [|apply Hnone; intros e He; apply Huniq in He as (? & ? & ? & ? & ? & ? & ? & ? & ? & ? & ? & ? & ? & _ & _ & _ & K & _); discriminate].
  destruct e0 as [d0 ip0 a0 b0|dp ipp vp op|d0 dp0 vp0 dn0 vn0 de0 ipe0 va0 vb0];
    try (apply Hnone; intros e He; apply Huniq in He as (? & ? & ? & ? & ? & ? & ? & ? & ? & ? & ? & ? & ? & K & _); discriminate).
  destruct e1 as [de ipe va vb|d1 ip1 v1 o1|d0 dp0 vp0 dn0 vn0 de0 ipe0 va0 vb0];
    try (apply Hnone; intros e He; apply Huniq in He as (? & ? & ? & ? & ? & ? & ? & ? & ? & ? & ? & ? & ? & _ & K & _); discriminate).
  destruct e3 as [d1 ip1 a1 b1|dn ipn vn on|d0 dp0 vp0 dn0 vn0 de0 ipe0 va0 vb0];
    try (apply Hnone; intros e He; apply Huniq in He as (? & ? & ? & ? & ? & ? & ? & ? & ? & ? & ? & ? & ? & _ & _ & _ & K & _); discriminate).
  eexists. split; [reflexivity|]. destruct Hlt as (L0 & L1 & L2).
  exists j0, j1, j2, j3, dp, ipp, vp, op, de, ipe, va, vb, e2, dn, ipn, vn, on. repeat (split; auto).
Qed.

Theorem processDormers_spec (s : @slav A) dms evs :
  (forall dm, In dm dms -> NoDup (fst dm) /\ length (fst dm) = 4 /\ forall i, In i (fst dm) -> i < length evs) ->
  exists idx es kept, made evs dms idx es /\ without idx evs kept /\
    processDormers s dms evs = Ok (kept ++ map Some es).
Proof.
  intros Hd.
  assert (G : exists des idx es, mapM (fun dm => e <- dormer_event s evs dm ;; Ok (e, fst dm)) dms = Ok des /\ made evs dms idx es /\
    flat_map snd (filter (fun p => match fst p with Some _ => true | None => false end) des) = idx /\
    map fst (filter (fun p => match fst p with Some _ => true | None => false end) des) = map Some es).
  { induction dms as [|dm dms IH]; [exists [], [], []; repeat split; constructor|].
    destruct IH as (des & idx & es & H1 & H2 & H3 & H4); [intros; apply Hd; right; auto|].
    destruct (Hd dm (or_introl eq_refl)) as (D1 & D2 & D3).
    destruct (dormer_event_spec s D1 D2 D3) as (o & O1 & O2). simpl mapM. rewrite O1, H1. cbn [bind].
    destruct o as [e|].
    - exists ((Some e, fst dm) :: des), (fst dm ++ idx), (e :: es). split; auto. split; [constructor; auto|].
      simpl. rewrite H3, H4. auto.
    - exists ((None, fst dm) :: des), idx, es. split; auto. split; [apply made_no; auto|]. simpl. auto. }
  destruct G as (des & idx & es & H1 & H2 & H3 & H4).
  exists idx, es, (map snd (filter (fun ie => negb (existsb (Nat.eqb (fst ie)) idx)) (enumerate evs))).
  split; auto. split.
  - exists (filter (fun i => negb (existsb (Nat.eqb i) idx)) (seq 0 (length evs))). split; [apply filter_seq_sorted|]. split.
    + intros i. rewrite filter_In, negb_true_iff, in_seq. pose proof (existsb_nat i idx) as He.
      destruct (existsb (Nat.eqb i) idx); split; intros [K1 K2]; try discriminate.
      * exfalso. tauto.
      * split; [lia|]. intros K. assert (false = true) by tauto. discriminate.
      * split; [lia|auto].
    + apply (select_at (fun i => negb (existsb (Nat.eqb i) idx)) evs).
  - unfold processDormers. rewrite H1. cbn [bind]. rewrite H3, H4. reflexivity.
Qed.

(** ** the start of skeletonize *)
Fixpoint somes T (l : list (option T)) : list T :=
  match l with [] => [] | Some x :: t => x :: somes t | None :: t => somes t end.

Lemma somes_in T (l : list (option T)) x : In x (somes l) <-> In (Some x) l.
Proof.
  induction l as [|[y|] l IH]; simpl; [tauto| |].
  - rewrite IH. split; intros [H|H]; auto; left; congruence.
  - rewrite IH. split; auto. intros [H|H]; [discriminate|auto].
Qed.

Lemma put_fold_perm (evs : list (option event)) q : Permutation (fold_left put evs q) (somes evs ++ q).
Proof.
  revert q. induction evs as [|[e|] evs IH]; intros q; simpl; auto.
  eapply Permutation_trans; [apply IH|].
  eapply Permutation_trans; [apply Permutation_app_head, heappush_perm|]. apply Permutation_sym, Permutation_middle.
Qed.

Lemma somes_app T (l m : list (option T)) : somes (l ++ m) = somes l ++ somes m.
Proof. induction l as [|[x|] l IH]; simpl; rewrite ?IH; auto. Qed.
Lemma somes_map T (l : list T) : somes (map Some l) = l.
Proof. induction l; simpl; congruence. Qed.

Theorem start_events (c : list (@edge2 A)) rest st0 : skeleton_start (c :: rest) = Ok st0 ->
  exists evs dms idx es kept,
    detectDormers (c :: rest) = Ok dms /\
    length evs = length (concat (c :: rest)) /\
    (forall i o, nth_error evs i = Some o -> next_event (lo_slav st0) i = Ok o) /\
    made evs dms idx es /\ without idx evs kept /\
    Permutation (lo_queue st0) (somes kept ++ es).
Proof.
  intros H. unfold skeleton_start in H.
  destruct (init_slav (c :: rest)) as [s|x] eqn:Ei; [|discriminate H]. cbn [bind] in H.
  destruct (detectDormers (c :: rest)) as [dms|x] eqn:Ed; [|discriminate H]. cbn [bind] in H.
  destruct (initial_events s) as [evs|x] eqn:Ee; [|discriminate H]. cbn [bind] in H.
  assert (Hne : forall c', In c' (c :: rest) -> c' <> []).
  { intros c' Hc ->. rewrite init_slav_err in Ei; [discriminate Ei|]. exists []. auto. }
  destruct (init_slav_ok Hne) as (s' & E1 & W & _). rewrite Ei in E1. apply Ok_inj in E1. subst s'.
  unfold initial_events in Ee. rewrite (chain_wavefront W Hne) in Ee. cbn [bind] in Ee.
  pose proof (mapM_length _ _ Ee) as Hlen. rewrite seq_length in Hlen. apply mapM_ok in Ee.
  assert (Hev : forall i o, nth_error evs i = Some o -> next_event s i = Ok o).
  { assert (G : forall l es k, Forall2 (fun x y => next_event s x = Ok y) (seq k l) es ->
      forall i o, nth_error es i = Some o -> next_event s (k + i) = Ok o).
    { clear. induction l as [|l IH]; intros es k HF; inversion HF as [|? y ? es' H1 H2]; subst; intros [|i] o Ho; try discriminate; simpl in Ho.
      - injection Ho as <-. rewrite Nat.add_0_r. auto.
      - replace (k + S i) with (S k + i) by lia. eapply IH; eauto. }
    intros i o Ho. apply (G _ _ _ Ee i o Ho). }
  assert (Hdm : forall dm, In dm dms -> NoDup (fst dm) /\ length (fst dm) = 4 /\ forall i, In i (fst dm) -> i < length evs).
  { intros dm Hin. destruct (dormers_sound (Hne c (or_introl eq_refl)) Ed) as (HF & _). rewrite Forall_forall in HF.
    destruct (HF dm Hin) as (q & p & Q1 & _ & _ & _ & _ & Q2 & Q3 & _). split; auto. rewrite Q2. split; auto.
    intros i Hi. unfold dormer_vertices in Hi. apply in_map_iff in Hi as (k & <- & _).
    rewrite Hlen. simpl. rewrite app_length. pose proof (Nat.mod_upper_bound (q + k) (length c)). lia. }
  destruct (processDormers_spec s Hdm) as (idx & es & kept & P1 & P2 & P3).
  exists evs, dms, idx, es, kept. split; auto. split; auto.
  assert (Hp : (match dms with [] => Ok evs | _ => processDormers s dms evs end) = Ok (kept ++ map Some es)).
  { destruct dms as [|d dms]; [|exact P3]. inversion P1; subst. rewrite app_nil_r. f_equal.
    unfold processDormers in P3. cbn [mapM bind filter flat_map map] in P3. apply Ok_inj in P3. rewrite !app_nil_r in P3.
    rewrite <- P3. clear.
    assert (E : forall (m : list (nat * option event)), map snd (filter (fun ie => negb (existsb (Nat.eqb (fst ie)) [])) m) = map snd m)
      by (induction m as [|x m IH]; [reflexivity|simpl in *; rewrite IH; reflexivity]).
    rewrite E. unfold enumerate. generalize 0. induction evs as [|x l IH]; intros k; simpl; auto. f_equal. apply IH. }
  rewrite Hp in H. cbn [bind] in H. apply Ok_inj in H. subst st0. cbn [lo_slav lo_queue].
  split; auto. split; auto. split; auto.
  eapply Permutation_trans; [apply put_fold_perm|]. rewrite app_nil_r, somes_app, somes_map. apply Permutation_refl.
Qed.
End Events.
