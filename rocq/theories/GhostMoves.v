(** * GhostMoves: removeGhosts resolves the ghost links as GhostSpec says *)

From Coq Require Import Permutation.
From Verif Require Import Py PyFacts Arith Euclid Lav Cluster GhostProofs GhostSpec.
Set Implicit Arguments.
Unset Strict Implicit.
Local Open Scope nat_scope.

Section GhostMoves.
Context {A : arith}.
Notation num := (num A).
Notation vec := (vec A).
Notation subtree := (@subtree A).
Implicit Types sk : list subtree.

Lemma links_app a b : links (a ++ b) = links a ++ links b :> list (vec * vec).
Proof. unfold links. apply flat_map_app. Qed.

Lemma split_at sk k : k < length sk -> exists a b, sk = a ++ get_arc sk k :: b /\ length a = k.
Proof.
  intros H. exists (firstn k sk), (skipn (S k) sk). split; [|rewrite firstn_length; lia].
  unfold get_arc. revert k H. induction sk as [|x t IH]; intros [|k] H; simpl in *; try lia; auto.
  f_equal. apply IH. lia.
Qed.

Lemma set_at_app X (x y : X) a b : set_at (length a) x (a ++ y :: b) = a ++ x :: b.
Proof. induction a as [|z t IH]; simpl; auto. f_equal; auto. Qed.

(** the links when the sinks of one node change *)
Lemma links_set k l sk : k < length sk ->
  exists rest, Permutation (links sk) (map (pair (source (get_arc sk k))) (sinks (get_arc sk k)) ++ rest) /\
               Permutation (links (set_sinks k l sk)) (map (pair (source (get_arc sk k))) l ++ rest).
Proof.
  intros H. destruct (split_at H) as (a & b & E & El). unfold set_sinks. set (x := get_arc sk k) in *. clearbody x. subst sk k.
  rewrite set_at_app. exists (links a ++ links b).
  rewrite !links_app.
  change (links (x :: b)) with (map (pair (source x)) (sinks x) ++ links b).
  change (links (with_sinks l x :: b)) with (map (pair (source x)) l ++ links b).
  split; rewrite !app_assoc; apply Permutation_app_tail, Permutation_app_comm.
Qed.

Lemma set_sinks_other j k l sk : j <> k -> nth_error (set_sinks k l sk) j = nth_error sk j.
Proof. intros. unfold set_sinks. rewrite nth_error_set_at_neq; auto. Qed.

Lemma set_sinks_source j k l sk : source (get_arc (set_sinks k l sk) j) = source (get_arc sk j).
Proof.
  pose proof (set_sinks_sources k l sk) as H. unfold get_arc.
  rewrite <- !(map_nth (@source A)), H. auto.
Qed.

Lemma ghost_move_links sk k ni f n sk' : ghost_move sk k ni f n = Ok sk' -> ni < length sk ->
  exists f' n', k < length sk /\ veq f' f = true /\ veq n' n = true /\
    map (@source A) sk' = map (@source A) sk /\ map (@height A) sk' = map (@height A) sk /\
    Permutation ((source (get_arc sk ni), f) :: links sk)
                ((source (get_arc sk k), f') :: (source (get_arc sk k), n') :: links sk') /\
    forall j, j <> k -> j <> ni -> nth_error sk' j = nth_error sk j.
Proof.
  intros H Hni. destruct (ghost_move_facts H Hni) as (F1 & F2 & _). unfold ghost_move in H.
  set (sk1 := set_sinks ni (sinks (get_arc sk ni) ++ [f]) sk) in *.
  destruct (py_remove veq f (sinks (get_arc sk1 k))) as [l1|] eqn:E1; [|discriminate]. cbn [bind] in H.
  set (sk2 := set_sinks k l1 sk1) in *.
  destruct (py_remove veq n (sinks (get_arc sk2 k))) as [l2|] eqn:E2; [|discriminate]. cbn [bind] in H.
  apply Ok_inj in H. subst sk'.
  pose proof E1 as R1. pose proof E2 as R2.
  apply py_remove_ok in R1 as (a1 & f' & b1 & P1 & Q1 & V1 & _).
  apply py_remove_ok in R2 as (a2 & n' & b2 & P2 & Q2 & V2 & _).
  assert (Hk1 : k < length sk1) by (apply get_arc_range with (p := f'); rewrite P1; apply in_app_iff; simpl; auto).
  assert (Hk2 : k < length sk2) by (unfold sk2; rewrite set_sinks_length; auto).
  assert (Hk : k < length sk) by (unfold sk1 in Hk1; rewrite set_sinks_length in Hk1; auto).
  exists f', n'. split; auto. split; auto. split; auto. split; auto. split; auto. split.
  - destruct (links_set (sinks (get_arc sk ni) ++ [f]) Hni) as (r1 & A1 & B1). fold sk1 in B1.
    destruct (links_set l1 Hk1) as (r2 & A2 & B2). fold sk2 in B2.
    destruct (links_set l2 Hk2) as (r3 & A3 & B3).
    assert (S1 : source (get_arc sk1 k) = source (get_arc sk k)) by apply set_sinks_source.
    assert (S2 : source (get_arc sk2 k) = source (get_arc sk k)) by (unfold sk2; rewrite set_sinks_source; auto).
    rewrite S1 in A2, B2. rewrite S2 in A3, B3. set (s := source (get_arc sk k)) in *.
    rewrite P1 in A2. rewrite P2 in A3. subst l1 l2. rewrite !map_app in *. cbn [map] in *.
    assert (C1 : Permutation (links sk1) ((source (get_arc sk ni), f) :: links sk)).
    { rewrite B1, A1. rewrite <- app_assoc. symmetry. apply Permutation_middle. }
    assert (C2 : Permutation (links sk1) ((s, f') :: links sk2)).
    { rewrite A2, B2. rewrite <- app_assoc. cbn [app]. symmetry. rewrite <- app_assoc. apply Permutation_middle. }
    assert (C3 : Permutation (links sk2) ((s, n') :: links (set_sinks k (a2 ++ b2) sk2))).
    { rewrite A3, B3. rewrite <- app_assoc. cbn [app]. symmetry. rewrite <- app_assoc. apply Permutation_middle. }
    rewrite <- C1, C2. constructor. exact C3.
  - intros j N1 N2. rewrite set_sinks_other by auto. unfold sk2. rewrite set_sinks_other by auto. apply set_sinks_other; auto.
Qed.

(** ** one pair *)
Lemma get_arc_nth sk k a : nth_error sk k = Some a -> get_arc sk k = a.
Proof. intros H. unfold get_arc. apply nth_error_nth. auto. Qed.

Lemma find_first sk p ni : find_pos (fun node : subtree => veq (source node) p) sk = Some ni ->
  first_node sk p (get_arc sk ni) /\ nth_error sk ni = Some (get_arc sk ni).
Proof.
  intros H. destruct (find_pos_some _ _ H) as (x & H1 & H2 & H3). rewrite (get_arc_nth H1). split; auto.
  apply nth_error_split in H1 as (a & b & E & El). exists a, b. split; auto. split; auto. intros m Hm.
  subst sk ni. rewrite firstn_app, firstn_all, Nat.sub_diag, firstn_O, app_nil_r in H3.
  rewrite forallb_forall in H3. apply negb_true_iff, H3. auto.
Qed.

Lemma first_unique sk p n n' : first_node sk p n -> first_node sk p n' -> n = n'.
Proof.
  intros (a & b & E & V & N) (a' & b' & E' & V' & N'). rewrite E in E'. clear E. revert a' E' N'.
  induction a as [|x t IH]; intros [|x' t'] E' N'; simpl in E'.
  - injection E' as -> _. auto.
  - injection E' as -> _. rewrite N' in V by (simpl; auto). discriminate.
  - injection E' as -> _. rewrite N in V' by (simpl; auto). discriminate.
  - injection E' as -> E'. apply (IH (fun m H => N m (or_intror H)) t' E'). intros; apply N'; simpl; auto.
Qed.

Lemma first_not_none sk p n : first_node sk p n -> no_node sk p -> False.
Proof. intros (a & b & E & V & _) N. rewrite (N n) in V; [discriminate|]. subst. apply in_app_iff. simpl; auto. Qed.

Definition out_moved sk k (o : @pair_outcome A) alt : Prop :=
  match o with
  | PairNext sk' a' => moved k sk sk' /\ a' = true \/ sk' = sk /\ a' = alt
  | PairBreak sk' a' => moved k sk sk' /\ a' = true \/ sk' = sk /\ a' = alt
  end.

Lemma ghost_pair_moved sk k alt p q o a : nth_error sk k = Some a -> ghost_pair sk k alt (p, q) = Ok o -> out_moved sk k o alt.
Proof.
  intros Ha. unfold ghost_pair. rewrite (get_arc_nth Ha). cbv zeta. cbn [fst snd].
  destruct (ntruth (vlen (vsub p (source a)))) eqn:T1; cbn [andb]; [|intros H; apply Ok_inj in H; subst; simpl; auto].
  destruct (ntruth (vlen (vsub q (source a)))) eqn:T2; cbn [andb]; [|intros H; apply Ok_inj in H; subst; simpl; auto].
  destruct (pdiv _ _) as [c|] eqn:Ec; [|discriminate]. cbn [bind].
  destruct (nltb _ PARALLEL) eqn:Hp; [|intros H; apply Ok_inj in H; subst; simpl; auto].
  assert (AP : aligned PARALLEL (source a) p q) by (split; auto; split; auto; eauto).
  assert (G : forall far near, sorted (source a) p q near far ->
    match find_pos (fun node : subtree => veq (source node) near) sk with
    | Some nodeIndex =>
        if nltb (nabs (nsub c oneN)) EPSILON
        then sk' <- ghost_move sk k nodeIndex far near;; Ok (PairBreak sk' true)
        else
         if existsb (fun sink : vec => seg_intersect (source a) far near sink) (sinks (get_arc sk nodeIndex))
         then sk' <- ghost_move sk k nodeIndex far near;; Ok (PairNext sk' true)
         else Ok (PairNext sk alt)
    | None => Ok (PairBreak sk alt)
    end = Ok o -> out_moved sk k o alt).
  { intros far near Hs. destruct (find_pos _ sk) as [ni|] eqn:Ef; [|intros H; apply Ok_inj in H; subst; simpl; auto].
    destruct (find_first Ef) as [Hf Hn]. apply find_pos_lt in Ef.
    assert (M : forall sk', (nltb (nabs (nsub c oneN)) EPSILON = true \/
        existsb (fun sink : vec => seg_intersect (source a) far near sink) (sinks (get_arc sk ni)) = true) ->
       ghost_move sk k ni far near = Ok sk' -> moved k sk sk').
    { intros sk' Hg Hm. destruct (ghost_move_links Hm Ef) as (f' & n' & Hk & V1 & V2 & S1 & S2 & Pm & O).
      exists a, (get_arc sk ni), p, q, near, far, n', f'. split; auto. split.
      { split; auto. split; auto. split; auto. destruct Hg as [Hg|Hg]; [left; split; auto; split; auto; eauto|].
        right. apply existsb_exists in Hg. exact Hg. }
      split; auto. split; auto. split; auto. split; auto. rewrite (get_arc_nth Ha) in Pm. split; auto.
      intros j b Hj Hb Nb. rewrite O; auto. intros ->. apply Nb. congruence. }
    destruct (nltb _ EPSILON) eqn:He; [|destruct (existsb _ _) eqn:Hx]; [| |intros H; apply Ok_inj in H; subst; simpl; auto];
      destruct (ghost_move sk k ni far near) as [sk'|] eqn:Em; try discriminate; cbn [bind];
      intros H; apply Ok_inj in H; subst o; left; split; auto. }
  destruct (nltb (vlen _) (vlen _)) eqn:El; apply G; [left|right]; auto.
Qed.

(** the outcome of a pair that changes nothing *)
Lemma ghost_pair_still sk k p q o a : nth_error sk k = Some a -> ghost_pair sk k false (p, q) = Ok o ->
  match o with
  | PairNext sk' false => sk' = sk /\ (forall near far n, ~ ghost sk (source a) p q near far n)
  | PairBreak sk' false => sk' = sk /\ blocked sk (source a) p q
  | _ => True
  end.
Proof.
  intros Ha. unfold ghost_pair. rewrite (get_arc_nth Ha). cbv zeta. cbn [fst snd].
  assert (NT : (ntruth (vlen (vsub p (source a))) && ntruth (vlen (vsub q (source a))))%bool = false ->
     forall near far n, ~ ghost sk (source a) p q near far n).
  { intros T near far n (_ & _ & (T1 & T2 & _) & _). rewrite T1, T2 in T. discriminate. }
  destruct (ntruth (vlen (vsub p (source a))) && ntruth (vlen (vsub q (source a))))%bool eqn:T;
    [|intros H; apply Ok_inj in H; subst; split; auto].
  apply andb_true_iff in T as [T1 T2].
  destruct (pdiv _ _) as [c|] eqn:Ec; [|discriminate]. cbn [bind].
  destruct (nltb _ PARALLEL) eqn:Hp.
  2: { intros H; apply Ok_inj in H; subst. split; auto. intros near far n (_ & _ & (_ & _ & c' & E' & L') & _).
       rewrite Ec in E'. apply Ok_inj in E'. subst c'. congruence. }
  assert (AP : aligned PARALLEL (source a) p q) by (split; auto; split; auto; eauto).
  assert (G : forall far near, sorted (source a) p q near far ->
    (forall near' far' n, ghost sk (source a) p q near' far' n -> near' = near /\ far' = far) ->
    match find_pos (fun node : subtree => veq (source node) near) sk with
    | Some nodeIndex =>
        if nltb (nabs (nsub c oneN)) EPSILON
        then sk' <- ghost_move sk k nodeIndex far near;; Ok (PairBreak sk' true)
        else
         if existsb (fun sink : vec => seg_intersect (source a) far near sink) (sinks (get_arc sk nodeIndex))
         then sk' <- ghost_move sk k nodeIndex far near;; Ok (PairNext sk' true)
         else Ok (PairNext sk false)
    | None => Ok (PairBreak sk false)
    end = Ok o -> 
    match o with
    | PairNext sk' false => sk' = sk /\ (forall near far n, ~ ghost sk (source a) p q near far n)
    | PairBreak sk' false => sk' = sk /\ blocked sk (source a) p q
    | _ => True
    end).
  { intros far near Hs Hu. destruct (find_pos _ sk) as [ni|] eqn:Ef.
    2: { intros H; apply Ok_inj in H; subst. split; auto. split; auto. exists near, far. split; auto.
         intros m Hm. rewrite find_pos_none in Ef. apply Ef. auto. }
    destruct (find_first Ef) as [Hf Hn].
    destruct (nltb _ EPSILON) eqn:He; [|destruct (existsb _ _) eqn:Hx];
     [destruct (ghost_move sk k ni far near) as [sk'|] eqn:Em; try discriminate; cbn [bind];
      intros H; apply Ok_inj in H; subst o; exact I
     |destruct (ghost_move sk k ni far near) as [sk'|] eqn:Em; try discriminate; cbn [bind];
      intros H; apply Ok_inj in H; subst o; exact I|].
    intros H; apply Ok_inj in H; subst. split; auto. intros near' far' n Hg.
    destruct (Hu _ _ _ Hg) as [-> ->]. destruct Hg as (_ & Hfn & _ & [(_ & _ & c' & E' & L')|(t & Ht & Hc)]).
    - rewrite Ec in E'. apply Ok_inj in E'. subst c'. congruence.
    - rewrite <- (first_unique Hf Hfn) in Ht. enough (false = true) by discriminate. rewrite <- Hx. apply existsb_exists. eauto. }
  assert (U : forall near far near' far', sorted (source a) p q near far -> sorted (source a) p q near' far' -> near' = near /\ far' = far).
  { intros near far near' far' [(L & -> & ->)|(L & -> & ->)] [(L' & -> & ->)|(L' & -> & ->)]; auto; congruence. }
  destruct (nltb (vlen _) (vlen _)) eqn:El; apply G; [left; auto| |right; auto|];
    intros near' far' n (Hs & _); (eapply U; [|exact Hs]); [left|right]; auto.
Qed.

Lemma pairs_of_combinations l : combinations2 l = pairs_of l :> list (vec * vec).
Proof. induction l as [|x t IH]; simpl; auto. rewrite IH. auto. Qed.

Lemma moves_trans k m1 m2 a b c : moves k m1 a b -> moves k m2 b c -> moves k (m1 + m2) (a : list subtree) c.
Proof. intros H. revert m2. induction H; intros m2 K; simpl; auto. econstructor; eauto. Qed.

Lemma moved_sources k sk sk' : moved k sk sk' -> map (@source A) sk' = map (@source A) sk.
Proof. intros (a & n & p & q & near & far & n' & f' & _ & _ & _ & _ & H & _). auto. Qed.

Lemma moved_node k sk sk' a : moved k sk sk' -> nth_error sk k = Some a -> exists a', nth_error sk' k = Some a' /\ source a' = source a.
Proof.
  intros H Ha. apply moved_sources in H. pose proof (map_nth_error (@source A) _ _ Ha) as E. rewrite <- H in E.
  rewrite nth_error_map in E. destruct (nth_error sk' k) as [a'|]; [|discriminate]. exists a'. split; auto. simpl in E. congruence.
Qed.

Lemma moves_node k m sk sk' a : moves k m sk sk' -> nth_error sk k = Some a -> exists a', nth_error sk' k = Some a' /\ source a' = source a.
Proof.
  intros H. revert a. induction H as [sk|sk1 sk2 sk3 m H1 H2 IH]; intros a Ha; eauto.
  destruct (moved_node H1 Ha) as (a1 & E1 & S1). destruct (IH _ E1) as (a2 & E2 & S2). exists a2. split; auto. congruence.
Qed.

Lemma ghost_pairs_moves ps : forall sk k alt sk' alt' a, nth_error sk k = Some a -> ghost_pairs sk k alt ps = Ok (sk', alt') ->
  (exists m, moves k m sk sk') /\
  (alt' = false -> alt = false /\ sk' = sk /\ exists looked rest, ps = looked ++ rest /\
     (forall p q near far n, In (p, q) looked -> ~ ghost sk (source a) p q near far n) /\
     match rest with [] => True | (p, q) :: _ => blocked sk (source a) p q end).
Proof.
  induction ps as [|[p q] t IH]; intros sk k alt sk' alt' a Ha H; cbn [ghost_pairs] in H.
  - apply Ok_inj in H. injection H as <- <-. split; [exists 0; constructor|]. intros ->. split; auto. split; auto.
    exists [], []. simpl. split; auto.
  - destruct (ghost_pair sk k alt (p, q)) as [o|] eqn:Eo; [|discriminate]. cbn [bind] in H.
    pose proof (ghost_pair_moved Ha Eo) as M.
    destruct o as [sk1 a1|sk1 a1]; cbn [out_moved] in M.
    + destruct M as [[M ->]|[-> ->]].
      * destruct (moved_node M Ha) as (a' & Ha' & Sa). destruct (IH _ _ _ _ _ _ Ha' H) as [[m Hm] F]. split.
        { exists (S m). econstructor; eauto. }
        intros E. destruct (F E) as [X _]. discriminate.
      * destruct (IH _ _ _ _ _ _ Ha H) as [Hm F]. split; auto. intros E. destruct (F E) as (-> & -> & lk & rs & E1 & E2 & E3).
        split; auto. split; auto. pose proof (ghost_pair_still Ha Eo) as [_ St]. exists ((p, q) :: lk), rs. split; [simpl; congruence|].
        split; auto. intros p' q' near far n [Hin|Hin]; eauto. injection Hin as <- <-. auto.
    + apply Ok_inj in H. injection H as <- <-. destruct M as [[M ->]|[-> ->]].
      * split; [exists 1; econstructor; [eauto|constructor]|discriminate].
      * split; [exists 0; constructor|]. intros ->. split; auto. split; auto. pose proof (ghost_pair_still Ha Eo) as [_ St].
        exists [], ((p, q) :: t). simpl. split; auto.
Qed.

Lemma ghost_while_moves fuel : forall sk k sk' a, nth_error sk k = Some a -> ghost_while fuel sk k = Ok sk' ->
  (exists m, moves k m sk sk') /\ settled k sk'.
Proof.
  induction fuel as [|f IH]; intros sk k sk' a Ha H; cbn [ghost_while] in H; [discriminate|].
  destruct (ghost_pairs sk k false _) as [[sk1 alt]|] eqn:E; cbn [bind] in H; [|discriminate].
  rewrite (get_arc_nth Ha), pairs_of_combinations in E.
  destruct (ghost_pairs_moves Ha E) as [[m Hm] F]. destruct alt.
  - destruct (moves_node Hm Ha) as (a1 & Ha1 & _). destruct (IH _ _ _ _ Ha1 H) as [[m' Hm'] S].
    split; auto. exists (m + m'). eapply moves_trans; eauto.
  - apply Ok_inj in H. subst sk1. split; eauto. destruct (F eq_refl) as (_ & -> & G). intros b Hb. rewrite Ha in Hb. injection Hb as <-. auto.
Qed.

Lemma moves_length k m sk sk' : moves k m sk sk' -> length sk' = length (sk : list subtree).
Proof.
  induction 1; auto. rewrite IHmoves. apply moved_sources in H. apply (f_equal (@length _)) in H. rewrite !map_length in H. auto.
Qed.

Lemma ghost_arcs_resolved ks : forall sk sk', (forall k, In k ks -> k < length sk) -> ghost_arcs sk ks = Ok sk' -> exists m, resolved ks m sk sk'.
Proof.
  induction ks as [|k t IH]; intros sk sk' Hk H; cbn [ghost_arcs] in H.
  - apply Ok_inj in H. subst. exists 0. constructor.
  - destruct (ghost_while _ sk k) as [sk1|] eqn:E; cbn [bind] in H; [|discriminate].
    destruct (nth_error sk k) as [a|] eqn:Ha; [|apply nth_error_None in Ha; specialize (Hk k (or_introl eq_refl)); lia].
    destruct (ghost_while_moves Ha E) as [[m Hm] S]. destruct (IH sk1 sk') as [m' Hm']; auto.
    { intros j Hj. rewrite (moves_length Hm). apply Hk. simpl; auto. }
    exists (m + m'). econstructor; eauto.
Qed.

Lemma remove_loop_unlooped a : unlooped a (remove_loop a : subtree).
Proof.
  unfold remove_loop, unlooped. destruct (py_in veq (source a) (sinks a)) eqn:E.
  - destruct (py_remove_total _ _ _ E) as [l Hl]. rewrite Hl. cbn [with_sinks source height sinks]. split; auto. split; auto.
    right. apply py_remove_ok in Hl as (l1 & y & l2 & E1 & E2 & V & N). exists l1, y, l2. split; auto. split; auto. split; auto.
    intros z Hz. unfold py_in in N. destruct (veq z (source a)) eqn:Ez; auto. enough (false = true) by discriminate.
    rewrite <- N. apply existsb_exists. eauto.
  - split; auto. split; auto. left. split; auto. intros x Hx. unfold py_in in E. destruct (veq x (source a)) eqn:Ez; auto.
    enough (false = true) by discriminate. rewrite <- E. apply existsb_exists. eauto.
Qed.

Theorem removeGhosts_resolved sk sk' : removeGhosts sk = Ok sk' ->
  exists sk0 m, Forall2 unlooped sk sk0 /\ resolved (seq 0 (length sk)) m sk0 sk'.
Proof.
  unfold removeGhosts. intros H. rewrite map_length in H. apply ghost_arcs_resolved in H.
  - destruct H as [m Hm]. exists (map remove_loop sk), m. split; auto. clear. induction sk; simpl; constructor; auto. apply remove_loop_unlooped.
  - intros k Hk. apply in_seq in Hk. rewrite map_length. lia.
Qed.

(** ** the number of links *)
Lemma moved_links k sk sk' : moved k sk sk' -> length (links sk) = S (length (links sk')).
Proof.
  intros (a & n & p & q & near & far & n' & f' & _ & _ & _ & _ & _ & _ & Pm & _). apply Permutation_length in Pm. simpl in Pm. lia.
Qed.
Lemma moves_links k m sk sk' : moves k m sk sk' -> length (links sk) = m + length (links (sk' : list subtree)).
Proof. induction 1; auto. apply moved_links in H. simpl. lia. Qed.
Lemma resolved_links ks m sk sk' : resolved ks m sk sk' -> length (links sk) = m + length (links (sk' : list subtree)).
Proof. induction 1; auto. apply moves_links in H. lia. Qed.
End GhostMoves.
