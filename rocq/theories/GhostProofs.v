(** * GhostProofs: lemmas about removeGhosts (bpypolyskel.py:494-546) *)

From Verif Require Import Py PyFacts Arith Euclid Lav Cluster.
Set Implicit Arguments.
Unset Strict Implicit.
Local Open Scope nat_scope.

Section Ghosts.
Context {A : arith}.
Notation num := (num A).
Notation vec := (vec A).
Notation subtree := (@subtree A).
Implicit Types sk : list subtree.

(** p is a sink of some node *)
Definition a_sink sk (p : vec) : Prop := exists a, In a sk /\ In p (sinks a).

Lemma map_set_at X Y (f : X -> Y) i x (l : list X) d : (i < length l -> f x = f (nth i l d)) -> map f (set_at i x l) = map f l.
Proof.
  revert i. induction l as [|y t IH]; intros [|i] H; simpl; auto.
  - rewrite H by (simpl; lia). auto.
  - f_equal. apply IH. intros Hi. apply H. simpl. lia.
Qed.

Lemma set_sinks_sources k l sk : map (@source A) (set_sinks k l sk) = map (@source A) sk.
Proof. unfold set_sinks. eapply map_set_at with (d := dummy_subtree). intros _. reflexivity. Qed.

Lemma set_sinks_heights k l sk : map (@height A) (set_sinks k l sk) = map (@height A) sk.
Proof. unfold set_sinks. eapply map_set_at with (d := dummy_subtree). intros _. reflexivity. Qed.

Lemma set_sinks_length k l sk : length (set_sinks k l sk) = length sk.
Proof. apply set_at_length. Qed.

Lemma get_set_sinks k j l sk : j < length sk ->
  sinks (get_arc (set_sinks j l sk) k) = if Nat.eqb k j then l else sinks (get_arc sk k).
Proof.
  intros Hj. unfold get_arc, set_sinks. destruct (Nat.eqb_spec k j) as [->|N].
  - rewrite nth_set_at_eq; auto.
  - rewrite nth_set_at_neq; auto.
Qed.

Lemma get_arc_sink sk k p : In p (sinks (get_arc sk k)) -> a_sink sk p.
Proof.
  unfold get_arc. intros H. destruct (Nat.lt_ge_cases k (length sk)) as [Hk|Hk].
  - eexists. split; [apply nth_In; exact Hk|]. eauto.
  - rewrite nth_overflow in H by lia. destruct H.
Qed.

Lemma get_arc_range sk k p : In p (sinks (get_arc sk k)) -> k < length sk.
Proof.
  intros H. destruct (Nat.lt_ge_cases k (length sk)) as [Hk|Hk]; auto.
  unfold get_arc in H. rewrite nth_overflow in H by lia. destruct H.
Qed.

Lemma set_sinks_sink k l sk p : a_sink (set_sinks k l sk) p -> In p l \/ a_sink sk p.
Proof.
  intros (a & Ha & Hp). apply In_set_at in Ha as [->|Ha]; simpl in Hp; auto. right. exists a; auto.
Qed.

(** ** one move *)
Lemma ghost_move_facts sk k ni f n sk' : ghost_move sk k ni f n = Ok sk' -> ni < length sk ->
  map (@source A) sk' = map (@source A) sk /\ map (@height A) sk' = map (@height A) sk /\
  (forall p, a_sink sk' p -> p = f \/ a_sink sk p) /\
  length (sinks (get_arc sk' k)) < length (sinks (get_arc sk k)).
Proof.
  unfold ghost_move. intros H Hni.
  set (sk1 := set_sinks ni (sinks (get_arc sk ni) ++ [f]) sk) in *.
  destruct (py_remove veq f (sinks (get_arc sk1 k))) as [l1|] eqn:E1; [|discriminate]. cbn [bind] in H.
  set (sk2 := set_sinks k l1 sk1) in *.
  destruct (py_remove veq n (sinks (get_arc sk2 k))) as [l2|] eqn:E2; [|discriminate]. cbn [bind] in H.
  apply Ok_inj in H. subst sk'.
  assert (Hk : k < length sk1).
  { apply py_remove_ok in E1 as (a & y & b & E & _). apply get_arc_range with (p := y). rewrite E. apply in_app_iff. simpl; auto. }
  assert (Hk2 : k < length sk2) by (unfold sk2; rewrite set_sinks_length; auto).
  split; [|split; [|split]].
  - unfold sk2, sk1. rewrite !set_sinks_sources. auto.
  - unfold sk2, sk1. rewrite !set_sinks_heights. auto.
  - assert (G1 : forall p, a_sink sk1 p -> p = f \/ a_sink sk p).
    { intros p Hp. apply set_sinks_sink in Hp as [Hp|Hp]; auto. apply in_app_iff in Hp as [Hp|[->|[]]]; auto.
      right. eapply get_arc_sink; eauto. }
    assert (G2 : forall p, a_sink sk2 p -> p = f \/ a_sink sk p).
    { intros p Hp. apply set_sinks_sink in Hp as [Hp|Hp]; auto. eapply py_remove_incl in Hp; [|exact E1].
      apply G1. eapply get_arc_sink; eauto. }
    intros p Hp. apply set_sinks_sink in Hp as [Hp|Hp]; auto. eapply py_remove_incl in Hp; [|exact E2].
    apply G2. eapply get_arc_sink; eauto.
  - rewrite get_set_sinks by auto. rewrite Nat.eqb_refl. apply py_remove_length in E1, E2.
    unfold sk2 in E2. rewrite get_set_sinks in E2 by auto. rewrite Nat.eqb_refl in E2.
    unfold sk1 in E1. rewrite get_set_sinks in E1 by auto. destruct (Nat.eqb_spec k ni) as [->|N].
    + rewrite app_length in E1. simpl in E1. lia.
    + lia.
Qed.

Lemma ghost_move_err sk k ni f n x : ghost_move sk k ni f n = Err x -> x = ValueError.
Proof.
  assert (G : forall (q : vec) l y, py_remove veq q l = Err y -> y = ValueError).
  { intros q l y H. destruct (py_in veq q l) eqn:E.
    - destruct (py_remove_total _ _ _ E) as [l' Hl]. rewrite Hl in H. discriminate.
    - rewrite py_remove_fail in H by auto. congruence. }
  unfold ghost_move. destruct (py_remove veq f _) as [l1|e1] eqn:E1; cbn [bind].
  - destruct (py_remove veq n _) as [l2|e2] eqn:E2; cbn [bind]; [discriminate|]. intros [= <-]. eapply G; eauto.
  - intros [= <-]. eapply G; eauto.
Qed.

(** ** the pairs *)
Definition outcome_sk (o : @pair_outcome A) := match o with PairNext sk _ => sk | PairBreak sk _ => sk end.
Definition outcome_alt (o : @pair_outcome A) := match o with PairNext _ b => b | PairBreak _ b => b end.

(** what may happen to the skeleton: nodes stay, sinks come from the sinks before *)
Definition kept sk sk' : Prop :=
  map (@source A) sk' = map (@source A) sk /\ map (@height A) sk' = map (@height A) sk /\
  (forall p, a_sink sk' p -> a_sink sk p).

Lemma kept_refl sk : kept sk sk.
Proof. repeat split; auto. Qed.
Lemma kept_trans a b c : kept a b -> kept b c -> kept a c.
Proof. intros (H1 & H2 & H3) (K1 & K2 & K3). repeat split; try congruence. auto. Qed.

(** like kept, but sinks may also be among the given points *)
Definition kept_or (P : vec -> Prop) sk sk' : Prop :=
  map (@source A) sk' = map (@source A) sk /\ map (@height A) sk' = map (@height A) sk /\
  (forall p, a_sink sk' p -> P p \/ a_sink sk p).

Lemma ghost_pair_facts sk k alt pair o : ghost_pair sk k alt pair = Ok o ->
  kept_or (fun p => p = fst pair \/ p = snd pair) sk (outcome_sk o) /\
  ((outcome_sk o = sk /\ outcome_alt o = alt) \/
   (outcome_alt o = true /\ length (sinks (get_arc (outcome_sk o) k)) < length (sinks (get_arc sk k)))).
Proof.
  assert (Triv : forall P, kept_or P sk sk) by (intros P; repeat split; auto).
  unfold ghost_pair. cbv zeta. destruct (ntruth _ && ntruth _); [|intros H; apply Ok_inj in H; subst; simpl; auto].
  destruct (pdiv _ _) as [c|]; [|discriminate]. cbn [bind].
  destruct (nltb _ PARALLEL); [|intros H; apply Ok_inj in H; subst; simpl; auto].
  assert (G : forall f n, (f = fst pair \/ f = snd pair) ->
    match find_pos (fun node : subtree => veq (source node) n) sk with
    | Some nodeIndex =>
        if nltb (nabs (nsub c oneN)) EPSILON
        then sk' <- ghost_move sk k nodeIndex f n;; Ok (PairBreak sk' true)
        else
         if existsb (fun sink : vec => seg_intersect (source (get_arc sk k)) f n sink) (sinks (get_arc sk nodeIndex))
         then sk' <- ghost_move sk k nodeIndex f n;; Ok (PairNext sk' true)
         else Ok (PairNext sk alt)
    | None => Ok (PairBreak sk alt)
    end = Ok o ->
    kept_or (fun p => p = fst pair \/ p = snd pair) sk (outcome_sk o) /\
    ((outcome_sk o = sk /\ outcome_alt o = alt) \/
     (outcome_alt o = true /\ length (sinks (get_arc (outcome_sk o) k)) < length (sinks (get_arc sk k))))).
  { intros f n Hf. destruct (find_pos _ sk) as [ni|] eqn:Ef; [|intros H; apply Ok_inj in H; subst; simpl; auto].
    apply find_pos_lt in Ef.
    assert (M : forall sk', ghost_move sk k ni f n = Ok sk' ->
      kept_or (fun p => p = fst pair \/ p = snd pair) sk sk' /\
      length (sinks (get_arc sk' k)) < length (sinks (get_arc sk k))).
    { intros sk' Hm. destruct (ghost_move_facts Hm Ef) as (M1 & M2 & M3 & M4). split; auto.
      split; auto. split; auto. intros p Hp. apply M3 in Hp as [->|Hp]; auto. }
    destruct (nltb _ EPSILON); [|destruct (existsb _ _)]; [| |intros H; apply Ok_inj in H; subst; simpl; auto];
      destruct (ghost_move sk k ni f n) as [sk'|] eqn:Em; try discriminate; cbn [bind];
      intros H; apply Ok_inj in H; subst o; destruct (M sk' eq_refl); simpl; auto. }
  destruct (nltb (vlen _) (vlen _)); apply G; auto.
Qed.

Lemma ghost_pair_err sk k alt pair x : ghost_pair sk k alt pair = Err x -> x = ValueError \/ x = ZeroDivisionError.
Proof.
  unfold ghost_pair. cbv zeta. destruct (ntruth _ && ntruth _); [|discriminate].
  unfold pdiv. destruct (neqb _ zeroN); cbn [bind]; [intros [= <-]; auto|].
  destruct (nltb _ PARALLEL); [|discriminate].
  assert (G : forall f n, 
    match find_pos (fun node : subtree => veq (source node) n) sk with
    | Some nodeIndex =>
        if nltb (nabs (nsub (ndiv (vdot (vsub (fst pair) (source (get_arc sk k))) (vsub (snd pair) (source (get_arc sk k)))) 
           (nmul (vlen (vsub (fst pair) (source (get_arc sk k)))) (vlen (vsub (snd pair) (source (get_arc sk k)))))) oneN)) EPSILON
        then sk' <- ghost_move sk k nodeIndex f n;; Ok (PairBreak sk' true)
        else
         if existsb (fun sink : vec => seg_intersect (source (get_arc sk k)) f n sink) (sinks (get_arc sk nodeIndex))
         then sk' <- ghost_move sk k nodeIndex f n;; Ok (PairNext sk' true)
         else Ok (PairNext sk alt)
    | None => Ok (PairBreak sk alt)
    end = Err x -> x = ValueError).
  { intros f n. destruct (find_pos _ sk) as [ni|]; [|discriminate].
    destruct (nltb _ EPSILON); [|destruct (existsb _ _)]; [| |discriminate];
      destruct (ghost_move sk k ni f n) as [sk'|] eqn:Em; cbn [bind]; try discriminate;
      apply ghost_move_err in Em; subst; intros [= <-]; auto. }
  destruct (nltb (vlen _) (vlen _)); intros H; left; eapply G; eauto.
Qed.

Lemma ghost_pairs_facts pairs : forall sk k alt sk' alt', ghost_pairs sk k alt pairs = Ok (sk', alt') ->
  kept_or (fun p => exists q, In q pairs /\ (p = fst q \/ p = snd q)) sk sk' /\
  length (sinks (get_arc sk' k)) <= length (sinks (get_arc sk k)) /\
  (alt' = true -> alt = true \/ length (sinks (get_arc sk' k)) < length (sinks (get_arc sk k))).
Proof.
  induction pairs as [|q t IH]; intros sk k alt sk' alt' H; cbn [ghost_pairs] in H.
  - apply Ok_inj in H. injection H as <- <-. repeat split; auto.
  - destruct (ghost_pair sk k alt q) as [o|] eqn:Eo; [|discriminate]. cbn [bind] in H.
    destruct (ghost_pair_facts Eo) as ((F1 & F2 & F3) & F4).
    destruct o as [sk1 a1|sk1 a1]; simpl in *.
    + destruct (IH _ _ _ _ _ H) as ((I1 & I2 & I3) & I4 & I5). split; [split; [congruence|split; [congruence|]]|split].
      * intros p Hp. apply I3 in Hp as [(q' & Hq & Hp)|Hp]; [left; exists q'; simpl; auto|].
        apply F3 in Hp as [Hp|Hp]; auto. left. exists q. simpl; auto.
      * destruct F4 as [[-> ->]|[-> F4]]; lia.
      * intros Ha. destruct F4 as [[-> ->]|[-> F4]]; auto. right. lia.
    + apply Ok_inj in H. injection H as <- <-. split; [split; auto; split; auto|split].
      * intros p Hp. apply F3 in Hp as [Hp|Hp]; auto. left. exists q. simpl; auto.
      * destruct F4 as [[-> ->]|[-> F4]]; lia.
      * intros Ha. destruct F4 as [[-> ->]|[-> F4]]; auto.
Qed.

Lemma ghost_pairs_err pairs : forall sk k alt x, ghost_pairs sk k alt pairs = Err x -> x = ValueError \/ x = ZeroDivisionError.
Proof.
  induction pairs as [|q t IH]; intros sk k alt x H; cbn [ghost_pairs] in H; [discriminate|].
  destruct (ghost_pair sk k alt q) as [o|e] eqn:Eo; cbn [bind] in H.
  - destruct o; [eapply IH; eauto|discriminate].
  - injection H as <-. eapply ghost_pair_err; eauto.
Qed.

(** ** the while loop *)
Lemma ghost_while_facts fuel : forall sk k, length (sinks (get_arc sk k)) < fuel ->
  match ghost_while fuel sk k with
  | Ok sk' => kept sk sk'
  | Err x => x = ValueError \/ x = ZeroDivisionError
  end.
Proof.
  induction fuel as [|f IH]; intros sk k Hf; [lia|]. cbn [ghost_while].
  destruct (ghost_pairs sk k false _) as [[sk' alt]|x] eqn:E; cbn [bind].
  2: { eapply ghost_pairs_err; eauto. }
  destruct (ghost_pairs_facts E) as ((F1 & F2 & F3) & F4 & F5).
  assert (K : kept sk sk').
  { split; auto. split; auto. intros p Hp. apply F3 in Hp as [(q & Hq & Hp)|Hp]; auto.
    destruct q as [q1 q2]. apply In_combinations2 in Hq as [Q1 Q2].
    simpl in Hp. destruct Hp as [->| ->]; eapply get_arc_sink; eauto. }
  destruct alt; auto. destruct (F5 eq_refl) as [F|F]; [discriminate|].
  assert (Hf' : length (sinks (get_arc sk' k)) < f) by lia. specialize (IH sk' k Hf').
  destruct (ghost_while f sk' k); auto. eapply kept_trans; eauto.
Qed.

(** more fuel does not change the result *)
Lemma ghost_while_fuel f1 : forall f2 sk k, length (sinks (get_arc sk k)) < f1 -> length (sinks (get_arc sk k)) < f2 ->
  ghost_while f1 sk k = ghost_while f2 sk k.
Proof.
  induction f1 as [|f1 IH]; intros [|f2] sk k H1 H2; try lia. cbn [ghost_while].
  destruct (ghost_pairs sk k false _) as [[sk' alt]|x] eqn:E; cbn [bind]; auto. destruct alt; auto.
  destruct (ghost_pairs_facts E) as (_ & _ & F5). destruct (F5 eq_refl) as [F|F]; [discriminate|].
  apply IH; lia.
Qed.

Lemma ghost_arcs_facts ks : forall sk,
  match ghost_arcs sk ks with
  | Ok sk' => kept sk sk'
  | Err x => x = ValueError \/ x = ZeroDivisionError
  end.
Proof.
  induction ks as [|k t IH]; intros sk; cbn [ghost_arcs]; [apply kept_refl|].
  pose proof (@ghost_while_facts (S (length (sinks (get_arc sk k)))) sk k) as W.
  destruct (ghost_while _ sk k) as [sk'|x]; cbn [bind]; [|apply W; lia].
  specialize (IH sk'). destruct (ghost_arcs sk' t); auto. eapply kept_trans; eauto.
Qed.

Lemma remove_loop_facts sk : kept sk (map remove_loop sk).
Proof.
  assert (G : forall a : subtree, source (remove_loop a) = source a /\ height (remove_loop a) = height a /\
                      incl (sinks (remove_loop a)) (sinks a)).
  { intros a. unfold remove_loop. destruct (py_in _ _ _); [|split; [auto|split; [auto|apply incl_refl]]].
    destruct (py_remove veq (source a) (sinks a)) as [l|] eqn:E; simpl.
    - split; auto. split; auto. eapply py_remove_incl; eauto.
    - split; auto. split; auto. apply incl_refl. }
  split; [|split].
  - rewrite map_map. apply map_ext. intros; apply G.
  - rewrite map_map. apply map_ext. intros; apply G.
  - intros p (a & Ha & Hp). apply in_map_iff in Ha as (b & <- & Hb). exists b. split; auto. apply (proj2 (proj2 (G b))); auto.
Qed.

Theorem removeGhosts_facts sk :
  match removeGhosts sk with
  | Ok sk' => kept sk sk'
  | Err x => x = ValueError \/ x = ZeroDivisionError
  end.
Proof.
  unfold removeGhosts. pose proof (ghost_arcs_facts (seq 0 (length (map (@remove_loop A) sk))) (map remove_loop sk)) as G.
  destruct (ghost_arcs _ _); auto. eapply kept_trans; eauto. apply remove_loop_facts.
Qed.

End Ghosts.
