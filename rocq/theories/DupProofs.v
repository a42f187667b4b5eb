(** * DupProofs: what the removal of adjacent identical vertices does (C62) *)

From Coq Require Import Permutation.
From Verif Require Import Py PyFacts Arith Poly PolySpec PolyProofs DupSpec.
Set Implicit Arguments.
Unset Strict Implicit.
Local Open Scope nat_scope.

(** ** counting along the list *)
Definition both (v p x : Z) : nat := if Z.eq_dec p v then if Z.eq_dec x v then 1 else 0 else 0.
Fixpoint adj (v p : Z) (l : list Z) : nat := match l with [] => 0 | x :: t => both v p x + adj v x t end.
Definition cadj (v : Z) (l : list Z) : nat := adj v (last l 0%Z) l.

Lemma adj_app v p a b : adj v p (a ++ b) = adj v p a + adj v (last a p) b.
Proof. revert p. induction a as [|x a IH]; intros p; auto. simpl app. cbn [adj]. rewrite IH. destruct a as [|y a]; [simpl; lia|]. replace (last (x :: y :: a) p) with (last (y :: a) x); [lia|]. clear. revert x p y. induction a as [|z a IH]; intros; auto. simpl in *. destruct a; auto. Qed.

Lemma both_ne1 v p x : p <> v -> both v p x = 0.
Proof. intros H. unfold both. destruct (Z.eq_dec p v); congruence. Qed.
Lemma both_ne2 v p x : x <> v -> both v p x = 0.
Proof. intros H. unfold both. destruct (Z.eq_dec p v), (Z.eq_dec x v); congruence. Qed.
Lemma both_eq v : both v v v = 1.
Proof. unfold both. destruct (Z.eq_dec v v); congruence. Qed.

Lemma adj_absent v p l : ~ In v l -> adj v p l = 0.
Proof. revert p. induction l as [|x t IH]; intros p H; auto. cbn [adj]. rewrite both_ne2, IH; simpl in *; auto. Qed.

Lemma adj_strict v p l : p <> v -> adj v p l = 0 \/ adj v p l < occurrences v l.
Proof.
  unfold occurrences. assert (G : forall l p, adj v p l <= count_occ Z.eq_dec l v).
  { clear. induction l as [|x t IH]; intros p; auto. cbn [adj count_occ]. specialize (IH x). unfold both. destruct (Z.eq_dec p v), (Z.eq_dec x v); lia. }
  revert p. induction l as [|x t IH]; intros p H; auto. cbn [adj count_occ]. rewrite both_ne1 by auto. destruct (Z.eq_dec x v) as [->|N]; [|destruct (IH x N); lia].
  specialize (G t v). destruct (adj v v t) eqn:E; [auto|right; lia].
Qed.

Lemma last_any (l : list Z) x d d' : last (x :: l) d = last (x :: l) d'.
Proof. revert x. induction l as [|y l IH]; intros x; auto. simpl in *. apply IH. Qed.

Lemma last_app_cons (a b : list Z) x d : last (a ++ x :: b) d = last (x :: b) d.
Proof. induction a as [|y a IH]; auto. simpl app. rewrite <- IH. simpl. destruct (a ++ x :: b) eqn:E; auto. destruct a; discriminate. Qed.

Lemma remove_split v l l' : py_remove Z.eqb v l = Ok l' -> exists a b, l = a ++ v :: b /\ l' = a ++ b /\ ~ In v a.
Proof.
  revert l'. induction l as [|y t IH]; intros l' H; [discriminate|]. cbn [py_remove] in H. destruct (Z.eqb_spec y v) as [->|N].
  - apply Ok_inj in H. subst. exists [], l'. simpl. auto.
  - apply bind_ok in H as (t' & H & E). apply Ok_inj in E. subst l'. destruct (IH _ H) as (a & b & -> & -> & Ha). exists (y :: a), b. simpl. split; auto. split; auto. intros [K|K]; auto.
Qed.

(** ** one removal *)
Lemma remove_one v l l' : py_remove Z.eqb v l = Ok l' -> 0 < cadj v l -> occurrences v l = S (cadj v l) ->
  cadj v l = S (cadj v l') /\ (forall u, u <> v -> cadj u l' = cadj u l) /\ l' <> [].
Proof.
  intros Hr Hp Ho. destruct (remove_split Hr) as (a & b & -> & -> & Ha). clear Hr. unfold cadj in *. rewrite last_app_cons in *.
  assert (Hcount : occurrences v (a ++ v :: b) = S (occurrences v b)).
  { unfold occurrences. rewrite count_occ_app, (proj1 (count_occ_not_In Z.eq_dec a v) Ha). simpl. destruct (Z.eq_dec v v); congruence. }
  destruct b as [|w b].
  - (* v is the last entry and the only one *)
    exfalso. rewrite Hcount in Ho. unfold occurrences in Ho. simpl count_occ in Ho. lia.
  - change (last (v :: w :: b) 0%Z) with (last (w :: b) 0%Z) in *. destruct (Z.eq_dec w v) as [->|Nw].
    + (* the run goes on *)
      rewrite last_app_cons. rewrite !adj_app. cbn [adj]. split; [rewrite both_eq; lia|]. split; [|intros K; apply app_eq_nil in K as [_ K]; discriminate].
      intros u Nu. rewrite !adj_app. cbn [adj]. rewrite (both_ne1 (v := u) (p := v) v) by auto. lia.
    + assert (Hlast : last (a ++ w :: b) 0%Z = last (w :: b) 0%Z) by apply last_app_cons. rewrite Hlast.
      assert (Hrest : adj v w b = 0 \/ adj v w b < occurrences v b) by (apply adj_strict; auto).
      assert (Ow : occurrences v (w :: b) = occurrences v b) by (unfold occurrences; simpl; destruct (Z.eq_dec w v); congruence).
      destruct a as [|y a].
      * simpl app in *. cbn [adj] in *. rewrite (both_ne2 v Nw) in *. set (z := last (w :: b) 0%Z) in *. destruct (Z.eq_dec z v) as [Ez|Nz].
        -- rewrite Ez in *. rewrite both_eq in *. split; [rewrite (both_ne2 v Nw); lia|]. split; [|discriminate]. intros u Nu. rewrite !(both_ne1 (v := u) (p := v)) by auto. lia.
        -- exfalso. rewrite (both_ne1 v Nz) in *. lia.
      * exfalso. assert (Ny : last (y :: a) 0%Z <> v).
        { intros K. apply Ha. rewrite <- K. clear. revert y. induction a as [|x a IH]; intros y; simpl; auto. right. apply IH. }
        rewrite adj_app in Hp, Ho. rewrite (adj_absent _ Ha) in Hp, Ho. rewrite (last_any a y _ 0%Z) in Hp, Ho. cbn [adj] in Hp, Ho. rewrite (both_ne1 v Ny), (both_ne2 v Nw) in Hp, Ho. lia.
Qed.

(** ** all removals *)
Lemma remove_many rm l l' : py_remove_all Z.eqb rm l = Ok l' -> l <> [] -> (forall v, count_occ Z.eq_dec rm v = cadj v l) ->
  (forall v, 0 < cadj v l -> occurrences v l = S (cadj v l)) -> (forall v, cadj v l' = 0) /\ l' <> [].
Proof.
  revert l. induction rm as [|x rm IH]; intros l H Hne Hc Ho.
  - apply Ok_inj in H. subst l'. split; auto. intros v. rewrite <- Hc. auto.
  - cbn [py_remove_all] in H. apply bind_ok in H as (l1 & H1 & H).
    assert (Hx : 0 < cadj x l) by (rewrite <- Hc; simpl; destruct (Z.eq_dec x x); [lia|congruence]).
    destruct (remove_one H1 Hx (Ho x Hx)) as (E1 & E2 & E3).
    destruct (remove_split H1) as (a & b & El & El1 & Ha).
    assert (Hocc : forall v, occurrences v l = (if Z.eq_dec x v then 1 else 0) + occurrences v l1).
    { intros v. unfold occurrences. rewrite El, El1, !count_occ_app. simpl. destruct (Z.eq_dec x v); lia. }
    apply (IH l1); auto.
    + intros v. specialize (Hc v). simpl in Hc. destruct (Z.eq_dec x v) as [<-|N]; [lia|]. rewrite E2 by auto. auto.
    + intros v Hv. specialize (Hocc v). destruct (Z.eq_dec x v) as [<-|N].
      * specialize (Ho x Hx). lia.
      * rewrite E2 in * by auto. rewrite <- (Ho v Hv). lia.
Qed.

(** ** the list of removals *)
Definition same_pair (p : Z * Z) : bool := (fst p =? snd p)%Z.

Lemma removals_adj v l p : count_occ Z.eq_dec (map fst (filter same_pair (combine (p :: removelast l) l))) v = adj v p l.
Proof.
  revert p. induction l as [|x t IH]; intros p; auto.
  assert (E : combine (p :: removelast (x :: t)) (x :: t) = (p, x) :: combine (x :: removelast t) t) by (destruct t; reflexivity).
  rewrite E. cbn [filter]. unfold same_pair at 1. cbn [fst snd adj]. unfold both. rewrite <- IH. destruct (Z.eqb_spec p x) as [->|N].
  - cbn [map fst count_occ]. destruct (Z.eq_dec x v); lia.
  - destruct (Z.eq_dec p v), (Z.eq_dec x v); try congruence; lia.
Qed.

Lemma removals_pn v l pn : circ_prev_next l = Ok pn -> count_occ Z.eq_dec (map fst (filter same_pair pn)) v = cadj v l.
Proof. destruct l as [|x t]; intros H; [discriminate|]. apply Ok_inj in H. subst pn. rewrite removals_adj. unfold cadj. rewrite (last_any t x _ 0%Z). auto. Qed.

(** ** the specification counts the same *)
Lemma pn_count v pn : count_occ Z.eq_dec (map fst (filter same_pair pn)) v =
  length (filter (fun i => match nth_error pn i with Some q => if Z.eq_dec (fst q) v then if Z.eq_dec (snd q) v then true else false else false | None => false end) (seq 0 (length pn))).
Proof.
  induction pn as [|q t IH]; auto. cbn [length seq]. rewrite <- seq_shift. cbn [filter nth_error].
  assert (E : length (filter (fun i => match nth_error (q :: t) i with Some q => if Z.eq_dec (fst q) v then if Z.eq_dec (snd q) v then true else false else false | None => false end) (map S (seq 0 (length t)))) =
    count_occ Z.eq_dec (map fst (filter same_pair t)) v).
  { rewrite IH. generalize (seq 0 (length t)). intros s. induction s as [|i s IHs]; auto. cbn [map filter nth_error]. destruct (nth_error t i) as [r|]; [|auto].
    destruct (Z.eq_dec (fst r) v), (Z.eq_dec (snd r) v); simpl; auto. }
  unfold same_pair at 1. destruct (Z.eqb_spec (fst q) (snd q)) as [Eq|N].
  - cbn [map count_occ]. rewrite <- Eq. destruct (Z.eq_dec (fst q) v); cbn [length]; rewrite E; auto.
  - destruct (Z.eq_dec (fst q) v), (Z.eq_dec (snd q) v); try congruence; rewrite E; auto.
Qed.

Lemma doublings_cadj v l n : l <> [] -> (doublings v l n <-> n = cadj v l).
Proof.
  intros Hne. destruct (circ_prev_next_total Hne) as (pn & Hpn). pose proof (circ_prev_next_length _ Hpn) as Hlen.
  rewrite <- (removals_pn v Hpn), pn_count. set (test := fun i : nat => _). set (ps := filter test (seq 0 (length pn))).
  assert (Hnd : NoDup ps) by apply NoDup_filter, seq_NoDup.
  assert (Hin : forall i, In i ps <-> i < length l /\ doubled_at v l i).
  { intros i. unfold ps. rewrite filter_In, in_seq, Hlen. unfold test. split.
    - intros [[_ Hi] T]. split; [lia|]. destruct (circ_prev_next_nth _ Hpn (i := i)) as (p & q & E1 & E2 & E3); [lia|]. rewrite E3 in T. cbn [fst snd] in T.
      destruct (Z.eq_dec p v), (Z.eq_dec q v); try discriminate. subst. split; auto.
    - intros [Hi [D1 D2]]. split; [lia|]. destruct (circ_prev_next_nth _ Hpn Hi) as (p & q & E1 & E2 & E3). rewrite E3. cbn [fst snd]. rewrite D1 in E1. rewrite D2 in E2. injection E1 as <-. injection E2 as <-.
      destruct (Z.eq_dec v v); congruence. }
  split.
  - intros (qs & Q1 & Q2 & ->). apply Permutation_length, NoDup_Permutation; auto. intros i. rewrite Q2, Hin. tauto.
  - intros ->. exists ps. auto.
Qed.

(** ** the statements *)
Lemma identical_counts f f' v n : fix_identical f = Ok f' -> doublings v f n -> occurrences v f = n + occurrences v f'.
Proof.
  unfold fix_identical. intros H Hd. apply bind_ok in H as (pn & Hpn & H). assert (Hne : f <> []) by (intros ->; discriminate).
  apply (doublings_cadj v n Hne) in Hd. subst n. rewrite <- (removals_pn v Hpn). pose proof (py_remove_all_perm _ _ H) as P.
  unfold occurrences. rewrite (proj1 (Permutation_count_occ Z.eq_dec _ _) P v), count_occ_app. auto.
Qed.

Lemma identical_clean f : f <> [] -> (forall v, one_run v f) -> exists f', fix_identical f = Ok f' /\ f' <> [] /\ no_doubles f' /\ subsequence f' f /\
  (forall v, In v f -> In v f') /\ forall v n, doublings v f (S n) -> occurrences v f' = 1.
Proof.
  intros Hne H1. destruct (fix_identical_total Hne) as (f' & Hf). exists f'. split; auto.
  assert (Hrun : forall v, 0 < cadj v f -> occurrences v f = S (cadj v f)).
  { intros v Hv. destruct (cadj v f) as [|n] eqn:E; [lia|]. apply H1. apply (doublings_cadj v (S n) Hne). auto. }
  pose proof Hf as H. unfold fix_identical in H. apply bind_ok in H as (pn & Hpn & H).
  destruct (remove_many H Hne) as [Z0 N0]; auto. { intros v. apply (removals_pn v Hpn). }
  split; auto. split; [|split; [apply (fix_identical_ok _ Hf)|]].
  - intros v i Hi Hdb. assert (Hd : doublings v f' 0) by (apply (doublings_cadj v 0 N0); auto). destruct Hd as (ps & _ & Hin & E). destruct ps; [|discriminate]. apply (proj2 (Hin i)). auto.
  - assert (Hone : forall v n, doublings v f (S n) -> occurrences v f' = 1).
    { intros v n Hd. pose proof (identical_counts Hf Hd) as K. rewrite (H1 v n Hd) in K. lia. }
    split; auto. intros v Hv. destruct (cadj v f) as [|n] eqn:E.
    + assert (Hd : doublings v f 0) by (apply (doublings_cadj v 0 Hne); auto). pose proof (identical_counts Hf Hd) as K. simpl in K.
      apply (count_occ_In Z.eq_dec) in Hv. apply (count_occ_In Z.eq_dec). unfold occurrences in K. lia.
    + assert (Hd : doublings v f (S n)) by (apply (doublings_cadj v (S n) Hne); auto). specialize (Hone v n Hd). apply (count_occ_In Z.eq_dec). unfold occurrences in Hone. lia.
Qed.

(** ** the whole clean-up *)
Lemma count_b_occ v (l : list Z) : count_b (Z.eqb v) l = occurrences v l.
Proof.
  unfold occurrences, count_b. induction l as [|x t IH]; auto. cbn [filter count_occ]. destruct (Z.eqb_spec v x) as [->|N].
  - cbn [length]. rewrite IH. destruct (Z.eq_dec x x); congruence.
  - rewrite IH. destruct (Z.eq_dec x v); congruence.
Qed.

Section Clean.
Variable A : arith.
Variables (vl : list (vec3 A)) (ns : Z) (faces : list (list Z)).

Lemma settled_parallel f g : settled ns faces f -> fix_parallel vl (fun v => count_b (Z.eqb v) (concat faces)) ns f = Ok g -> g = f.
Proof.
  intros Hs. unfold fix_parallel. destruct (Nat.ltb 3 (length f)); [|intros H; apply Ok_inj in H; auto]. intros H. apply bind_ok in H as (ptn & Hptn & H).
  apply bind_ok in H as (rm & Hrm & H). assert (E : rm = []); [|subst rm; apply Ok_inj in H; auto].
  assert (Hin : forall p t x, In (p, t, x) ptn -> In t f).
  { intros p t x K. apply In_nth_error in K as (i & Hi). assert (L : i < length f) by (rewrite <- (circ_prev_this_next_length _ Hptn); apply nth_error_Some; congruence).
    destruct (circ_prev_this_next_nth _ Hptn L) as (a & b & d & _ & E2 & _ & E4). rewrite Hi in E4. injection E4 as _ -> _. eapply nth_error_In; eauto. }
  clear - Hs Hrm Hin. revert Hrm. induction ptn as [|[[p t] x] ptn IH]; intros H; [apply Ok_inj in H; auto|]. cbn [parallel_scan] in H.
  assert (E : parallel_at vl (fun v => count_b (Z.eqb v) (concat faces)) ns [] (p, t, x) = Ok []).
  { unfold parallel_at. rewrite count_b_occ. destruct (Hs t (Hin p t x (or_introl eq_refl))) as [L|L].
    - destruct (Z.leb_spec ns t); [lia|]. rewrite andb_false_r. auto.
    - destruct (Nat.ltb_spec (occurrences t (concat faces)) 3); [lia|]. auto. }
  rewrite E in H. cbn [bind] in H. apply IH; auto. intros a b d K. apply (Hin a b d). right. auto.
Qed.

Lemma clean_one out i f f' : clean_faces vl ns faces = Ok out -> nth_error faces i = Some f -> nth_error out i = Some f' -> settled ns faces f -> fix_identical f = Ok f'.
Proof.
  intros H Hf Hf' Hs. apply mapM_ok in H. destruct (Forall2_nth _ H Hf) as (x & Hx & K). rewrite Hf' in Hx. injection Hx as <-.
  apply bind_ok in K as (g & Hg & K). apply (settled_parallel Hs) in Hg. subst g. auto.
Qed.

Lemma clean_counts out i f f' v n : clean_faces vl ns faces = Ok out -> nth_error faces i = Some f -> nth_error out i = Some f' -> settled ns faces f ->
  doublings v f n -> occurrences v f = n + occurrences v f'.
Proof. intros H Hf Hf' Hs Hd. apply (@identical_counts f f' v n); auto. eapply clean_one; eauto. Qed.

Lemma clean_doubles out i f f' : clean_faces vl ns faces = Ok out -> nth_error faces i = Some f -> nth_error out i = Some f' -> settled ns faces f ->
  (forall v, one_run v f) -> f' <> [] /\ no_doubles f' /\ subsequence f' f /\ (forall v, In v f -> In v f') /\ forall v n, doublings v f (S n) -> occurrences v f' = 1.
Proof.
  intros H Hf Hf' Hs H1. pose proof (clean_one H Hf Hf' Hs) as K. destruct (@identical_clean f) as (g & G & R); auto; [intros ->; discriminate|]. rewrite K in G. apply Ok_inj in G. subst g. auto.
Qed.
End Clean.
