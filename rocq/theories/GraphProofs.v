(** * GraphProofs: proofs about Graph.v *)

From Coq Require Import Permutation.
From Verif Require Import Py PyFacts Arith PySort SortProofs Graph GraphSpec.
Set Implicit Arguments.

Definition Z_pair_dec : forall x y : Z * Z, {x = y} + {x <> y}.
Proof. decide equality; apply Z.eq_dec. Defined.
#[global] Arguments Z_pair_dec : simpl never.

Lemma dart_eqb_eq a b : dart_eqb a b = true <-> a = b.
Proof.
  destruct a as [a1 a2], b as [b1 b2]; unfold dart_eqb; simpl.
  rewrite andb_true_iff, !Z.eqb_eq. split; [intros [-> ->]; auto | intros E; injection E; auto].
Qed.

Lemma py_in_dart x s : py_in dart_eqb x s = true <-> In x s.
Proof. apply py_in_In, dart_eqb_eq. Qed.

Lemma In_set_remove x y s : In x (set_remove y s) <-> In x s /\ x <> y.
Proof.
  unfold set_remove; rewrite filter_In, negb_true_iff. split; intros [H1 H2]; split; auto.
  - intros ->. assert (dart_eqb y y = true) by (apply dart_eqb_eq; auto). congruence.
  - destruct (dart_eqb x y) eqn:E; auto. apply dart_eqb_eq in E; congruence.
Qed.

Lemma set_remove_perm x s : NoDup s -> In x s -> Permutation s (x :: set_remove x s).
Proof.
  intros Hnd Hin. apply NoDup_Permutation; auto.
  - constructor; [rewrite In_set_remove; tauto|]. apply NoDup_filter; auto.
  - intros y; simpl; rewrite In_set_remove. split.
    + intros H. destruct (dart_eqb x y) eqn:E; [apply dart_eqb_eq in E; auto|].
      right; split; auto. intros ->. assert (dart_eqb x x = true) by (apply dart_eqb_eq; auto). congruence.
    + intros [<-|[H _]]; auto.
Qed.

Lemma set_remove_id x s : ~ In x s -> set_remove x s = s.
Proof.
  unfold set_remove; induction s as [|y t IH]; simpl; intros H; auto.
  destruct (dart_eqb y x) eqn:E; [apply dart_eqb_eq in E; tauto|]. simpl. rewrite IH; tauto.
Qed.

Lemma concat_snoc A (l : list (list A)) x : concat (l ++ [x]) = concat l ++ x.
Proof. rewrite concat_app; simpl; rewrite app_nil_r; auto. Qed.

(** ** tracing, abstractly: a successor function that is injective on a finite set *)
Section Trace.
Variable sch : schedule.
Variable emb : gdict.
Variable D : list dart.
Variable nxt : dart -> dart.
Hypothesis HDnd : NoDup D.
Hypothesis Hnode : forall u v, In (u, v) D -> next_node emb u v = Ok (snd (nxt (u, v))).
Hypothesis Hfst : forall u v, In (u, v) D -> fst (nxt (u, v)) = v.
Hypothesis HnD : forall d, In d D -> In (nxt d) D.
Hypothesis Hinj : forall d1 d2, In d1 D -> In d2 D -> nxt d1 = nxt d2 -> d1 = d2.

Definition linked (f : list dart) : Prop :=
  forall i x y, nth_error f i = Some x -> nth_error f (S i) = Some y -> y = nxt x.

Definition closed (f : list dart) : Prop :=
  exists p0 t, f = p0 :: t /\ linked f /\ nxt (last f p0) = p0.

Lemma linked_snoc f d : f <> [] -> linked f -> linked (f ++ [nxt (last f d)]).
Proof.
  intros Hne Hl i x y Hx Hy.
  assert (Hi : S i < length (f ++ [nxt (last f d)])) by (apply nth_error_Some; congruence).
  rewrite app_length in Hi; simpl in Hi.
  rewrite nth_error_app1 in Hx by lia.
  destruct (Nat.eq_dec (S i) (length f)) as [E|E].
  - rewrite nth_error_app2 in Hy by lia. rewrite E, Nat.sub_diag in Hy. simpl in Hy.
    injection Hy; intros <-. f_equal.
    pose proof (last_nth d Hne) as K. replace (length f - 1) with i in K by lia. congruence.
  - rewrite nth_error_app1 in Hy by lia. eapply Hl; eauto.
Qed.

(** every element of a closed path is the successor of one of its elements *)
Lemma closed_pred f d : closed f -> In d f -> exists e, In e f /\ nxt e = d.
Proof.
  intros (p0 & t & -> & Hl & Hc) Hd. apply In_nth_error in Hd. destruct Hd as [[|i] Hi].
  - simpl in Hi; injection Hi; intros; subst. exists (last (d :: t) d); split; auto.
    eapply nth_error_In. apply last_nth; discriminate.
  - destruct (nth_error (p0 :: t) i) as [x|] eqn:E.
    + exists x; split; [eapply nth_error_In; eauto|]. symmetry; eapply Hl; eauto.
    + apply nth_error_None in E. assert (S i < length (p0 :: t)) by (apply nth_error_Some; congruence). lia.
Qed.

Lemma linked_pred p0 t d : linked (p0 :: t) -> In d (p0 :: t) -> d <> p0 ->
  exists i, nth_error (p0 :: t) (S i) = Some d /\ exists e, nth_error (p0 :: t) i = Some e /\ nxt e = d.
Proof.
  intros Hl Hd Hne. apply In_nth_error in Hd. destruct Hd as [[|i] Hi].
  - simpl in Hi; congruence.
  - exists i; split; auto. destruct (nth_error (p0 :: t) i) as [x|] eqn:E.
    + exists x; split; auto. symmetry; eapply Hl; eauto.
    + apply nth_error_None in E. assert (S i < length (p0 :: t)) by (apply nth_error_Some; congruence). lia.
Qed.

Lemma NoDup_nth_inj (f : list dart) i j x : NoDup f -> nth_error f i = Some x -> nth_error f j = Some x -> i = j.
Proof.
  intros Hnd Hi Hj. rewrite NoDup_nth_error in Hnd. apply Hnd; [apply nth_error_Some; congruence | congruence].
Qed.

Definition inv (path s : list dart) (faces : list (list dart)) : Prop :=
  Permutation D (path ++ s ++ concat faces) /\ linked path /\ Forall closed faces.

(** the next dart either closes the path or is still unused *)
Lemma next_dart p0 t s faces : inv (p0 :: t) s faces ->
  let d := last (p0 :: t) p0 in
  In d D /\ (nxt d <> p0 -> ~ In (nxt d) (p0 :: t) /\ In (nxt d) s).
Proof.
  intros (HP & Hl & Hc) d.
  assert (Hd : nth_error (p0 :: t) (length (p0 :: t) - 1) = Some d) by (apply last_nth; discriminate).
  assert (Hdp : In d (p0 :: t)) by (eapply nth_error_In; eauto).
  assert (HdD : In d D).
  { eapply Permutation_in; [symmetry; exact HP|]. apply in_or_app; auto. }
  assert (Hnd : NoDup ((p0 :: t) ++ s ++ concat faces)) by (eapply Permutation_NoDup; eauto).
  assert (HinD : forall x, In x ((p0 :: t) ++ s ++ concat faces) -> In x D).
  { intros x Hx. eapply Permutation_in; [symmetry; exact HP|auto]. }
  split; auto. intros Hne.
  assert (Hnp : ~ In (nxt d) (p0 :: t)).
  { intros Hin. destruct (linked_pred Hl Hin Hne) as (i & Hi & e & He & E).
    assert (e = d).
    { apply Hinj; auto. apply HinD, in_or_app; left. eapply nth_error_In; eauto. }
    subst e.
    assert (NoDup (p0 :: t)) by (apply NoDup_app_iff in Hnd; tauto).
    assert (i = length (p0 :: t) - 1) by (eapply NoDup_nth_inj; eauto). subst i.
    assert (S (length (p0 :: t) - 1) < length (p0 :: t)) by (apply nth_error_Some; congruence). lia. }
  split; auto.
  assert (Hin : In (nxt d) ((p0 :: t) ++ s ++ concat faces)).
  { eapply Permutation_in; [exact HP|]. apply HnD; auto. }
  apply in_app_or in Hin. destruct Hin as [Hin|Hin]; [tauto|].
  apply in_app_or in Hin. destruct Hin as [Hin|Hin]; auto. exfalso.
  apply in_concat in Hin. destruct Hin as (f & Hf & Hin).
  rewrite Forall_forall in Hc. destruct (@closed_pred f (nxt d) (Hc _ Hf) Hin) as (e & He & E).
  assert (Hec : In e (concat faces)) by (apply in_concat; eauto).
  assert (e = d).
  { apply Hinj; auto. apply HinD. apply in_or_app; right; apply in_or_app; auto. }
  subst e.
  (* d is in the path and in a closed face *)
  apply NoDup_app_iff in Hnd. destruct Hnd as (_ & _ & Hdis).
  apply (Hdis d); auto. apply in_or_app; auto.
Qed.

Lemma pick_dart_some n s : s <> [] -> exists d, pick_dart sch n s = Some d /\ In d s.
Proof.
  intros Hs; unfold pick_dart. destruct s as [|x t]; [congruence|].
  destruct (nth_error (x :: t) (sch n (x :: t) mod length (x :: t))) as [d|] eqn:E.
  - exists d; split; auto. eapply nth_error_In; eauto.
  - apply nth_error_None in E.
    pose proof (Nat.mod_upper_bound (sch n (x :: t)) (length (x :: t))). simpl in *; lia.
Qed.

Lemma linked_single d : linked [d].
Proof. intros [|[|i]] x y; simpl; discriminate. Qed.

Lemma trace_ok : forall fuel n s p0 t faces,
  length s < fuel -> inv (p0 :: t) s faces ->
  exists fs, trace fuel sch n emb s (p0 :: t) faces = Ok fs /\
             Permutation D (concat fs) /\ Forall closed fs.
Proof.
  induction fuel as [|f IH]; intros n s p0 t faces Hf Hinv; [lia|].
  pose proof (next_dart Hinv) as (HdD & Hnext). set (d := last (p0 :: t) p0) in *.
  pose proof Hinv as (HP & Hl & Hc).
  assert (Hnd : NoDup ((p0 :: t) ++ s ++ concat faces)) by (eapply Permutation_NoDup; eauto).
  assert (Hnds : NoDup s).
  { apply NoDup_app_iff in Hnd. destruct Hnd as (_ & Hnd & _). apply NoDup_app_iff in Hnd; tauto. }
  destruct s as [|s0 s'].
  - (* no dart left: the current path is closed *)
    cbn [trace]. exists (faces ++ [p0 :: t]); split; auto. split.
    + rewrite concat_snoc. rewrite HP.
      rewrite app_nil_l. apply Permutation_app_comm.
    + apply Forall_app; split; auto. constructor; auto.
      exists p0, t; repeat split; auto. fold d.
      destruct (dart_eqb (nxt d) p0) eqn:E; [apply dart_eqb_eq in E; auto|].
      exfalso. destruct (Hnext) as [_ []].
      intros E2. rewrite E2 in E. assert (dart_eqb p0 p0 = true) by (apply dart_eqb_eq; auto). congruence.
  - set (s := s0 :: s') in *. cbn [trace]. fold s. change (match s with [] => ?a | _ :: _ => ?b end) with b.
    fold d. destruct d as [u v] eqn:Ed.
    rewrite Hnode by auto. cbn [bind].
    assert (Etup : (v, snd (nxt (u, v))) = nxt (u, v)).
    { rewrite <- (Hfst _ _ HdD) at 1. destruct (nxt (u, v)); auto. }
    cbv zeta. rewrite Etup.
    destruct (dart_eqb (nxt (u, v)) p0) eqn:E.
    + apply dart_eqb_eq in E. unfold start_path.
      destruct (@pick_dart_some n s) as (d' & Hp & Hd'); [discriminate|]. rewrite Hp.
      pose proof (set_remove_perm _ Hnds Hd') as HPs.
      apply IH.
      * apply Permutation_length in HPs. simpl in HPs. subst s; simpl in *; lia.
      * repeat split; [|apply linked_single|].
        -- rewrite HP. rewrite concat_snoc.
           rewrite app_assoc. rewrite (Permutation_app_comm (p0 :: t) s). rewrite <- app_assoc.
           rewrite HPs at 1. simpl. constructor. apply Permutation_app_head.
           rewrite (Permutation_app_comm (concat faces)). reflexivity.
        -- apply Forall_app; split; auto. constructor; auto.
           exists p0, t; repeat split; auto. fold d; rewrite Ed; auto.
    + destruct Hnext as [Hnp Hns].
      { intros E2. rewrite E2 in E. assert (dart_eqb p0 p0 = true) by (apply dart_eqb_eq; auto). congruence. }
      destruct (py_in dart_eqb (nxt (u, v)) (p0 :: t)) eqn:E2; [apply py_in_dart in E2; tauto|].
      pose proof (set_remove_perm _ Hnds Hns) as HPs.
      change ((p0 :: t) ++ [nxt (u, v)]) with (p0 :: (t ++ [nxt (u, v)])).
      apply IH.
      * apply Permutation_length in HPs. simpl in HPs. subst s; simpl in *; lia.
      * repeat split; auto.
        -- rewrite HP. change (p0 :: t ++ [nxt (u, v)]) with ((p0 :: t) ++ [nxt (u, v)]).
           rewrite <- app_assoc. apply Permutation_app_head. rewrite HPs at 1. reflexivity.
        -- change (p0 :: t ++ [nxt (u, v)]) with ((p0 :: t) ++ [nxt (u, v)]).
           rewrite <- Ed. apply linked_snoc; auto; discriminate.
Qed.

Lemma trace_from_start fuel : length D < fuel ->
  exists fs, (let (path, s') := start_path sch 0 D in trace fuel sch 1 emb s' path []) = Ok fs /\
             Permutation D (concat fs) /\ Forall closed fs.
Proof.
  intros Hf. destruct D as [|d0 D'] eqn:ED.
  - unfold start_path; simpl. destruct fuel; [simpl in Hf; lia|]. simpl. exists []; auto.
  - rewrite <- ED in *. unfold start_path.
    destruct (@pick_dart_some 0 D) as (d' & Hp & Hd'); [rewrite ED; discriminate|]. rewrite Hp.
    pose proof (set_remove_perm _ HDnd Hd') as HPs.
    apply trace_ok.
    + apply Permutation_length in HPs. simpl in HPs. lia.
    + repeat split; [|apply linked_single|constructor].
      simpl. rewrite app_nil_r. auto.
Qed.

Lemma closed_circular f : closed f -> circular (fun x y => y = nxt x) f.
Proof.
  intros (p0 & t & -> & Hl & Hc). split; [discriminate|].
  intros i x Hx. assert (Hi : i < length (p0 :: t)) by (apply nth_error_Some; congruence).
  destruct (Nat.eq_dec (S i) (length (p0 :: t))) as [E|E].
  - rewrite Nat.add_1_r, E, Nat.mod_same by discriminate. exists p0; split; auto.
    pose proof (@last_nth _ (p0 :: t) p0) as K. rewrite <- E in K. simpl Nat.sub in K.
    rewrite Nat.sub_0_r in K. rewrite Hx in K. rewrite <- Hc. f_equal.
    symmetry. specialize (K ltac:(discriminate)). congruence.
  - rewrite Nat.mod_small by lia. rewrite Nat.add_1_r.
    destruct (nth_error (p0 :: t) (S i)) as [y|] eqn:Ey; [|apply nth_error_None in Ey; lia].
    exists y; split; auto. eapply Hl; eauto.
Qed.

End Trace.

(** ** building the graph *)
Lemma dict_find_app g g' v :
  dict_find (g ++ g') v = match dict_find g v with Some l => Some l | None => dict_find g' v end.
Proof. induction g as [|[k l] t IH]; simpl; auto. destruct (k =? v)%Z; auto. Qed.

Lemma neighbours_add_vertex g v u : neighbours (add_vertex g v) u = neighbours g u.
Proof.
  unfold neighbours, add_vertex. destruct (dict_find g v) eqn:E; auto.
  rewrite dict_find_app. destruct (dict_find g u) eqn:E2; auto. simpl.
  destruct (v =? u)%Z; auto.
Qed.

Lemma find_add_vertex g v u : dict_find g u <> None -> dict_find (add_vertex g v) u <> None.
Proof.
  unfold add_vertex. destruct (dict_find g v) eqn:E; auto. rewrite dict_find_app.
  destruct (dict_find g u); auto; congruence.
Qed.

Lemma find_add_vertex_same g v : dict_find (add_vertex g v) v <> None.
Proof.
  unfold add_vertex. destruct (dict_find g v) eqn:E; [congruence|]. rewrite dict_find_app, E.
  simpl. rewrite Z.eqb_refl; congruence.
Qed.

Lemma find_append_to g v w u :
  dict_find (append_to g v w) u =
  if (v =? u)%Z then option_map (fun l => l ++ [w]) (dict_find g u) else dict_find g u.
Proof.
  induction g as [|[k l] t IH]; simpl; [destruct (v =? u)%Z; auto|].
  destruct (Z.eqb_spec k v) as [->|H1]; simpl.
  - destruct (Z.eqb_spec v u); simpl; auto.
  - destruct (Z.eqb_spec k u) as [->|H2].
    + destruct (Z.eqb_spec v u); [congruence|auto].
    + apply IH.
Qed.

Lemma keys_add_vertex g v : NoDup (map fst g) -> NoDup (map fst (add_vertex g v)).
Proof.
  intros H; unfold add_vertex. destruct (dict_find g v) eqn:E; auto.
  rewrite map_app; simpl. apply NoDup_app_iff. repeat split; auto.
  - repeat constructor; auto.
  - intros x Hx [<-|[]]. clear H. induction g as [|[k l] t IH]; simpl in *; auto.
    destruct (Z.eqb_spec k v); [discriminate|]. tauto.
Qed.

Lemma keys_append_to g v w : map fst (append_to g v w) = map fst g.
Proof. induction g as [|[k l] t IH]; simpl; auto. destruct (k =? v)%Z; simpl; congruence. Qed.

Lemma keys_add_edge sw g e : NoDup (map fst g) -> NoDup (map fst (add_edge sw g e)).
Proof.
  destruct e as [a b]; intros H; unfold add_edge. destruct (a =? b)%Z; auto.
  destruct (if sw a b then (b, a) else (a, b)) as [v1 v2].
  rewrite !keys_append_to. apply keys_add_vertex, keys_add_vertex; auto.
Qed.

(** what the edge e contributes to the adjacency list of u *)
Definition contrib (u : Z) (e : dart) : list Z :=
  if (fst e =? snd e)%Z then []
  else if (u =? fst e)%Z then [snd e]
  else if (u =? snd e)%Z then [fst e] else [].

Lemma neighbours_add_edge sw g e u : neighbours (add_edge sw g e) u = neighbours g u ++ contrib u e.
Proof.
  destruct e as [a b]; unfold add_edge, contrib; simpl fst; simpl snd.
  destruct (Z.eqb_spec a b) as [->|Hab]; [rewrite app_nil_r; auto|].
  assert (K : forall v1 v2, v1 <> v2 ->
    neighbours (append_to (append_to (add_vertex (add_vertex g v1) v2) v1 v2) v2 v1) u =
    neighbours g u ++ (if (u =? v1)%Z then [v2] else if (u =? v2)%Z then [v1] else [])).
  { intros v1 v2 Hne. unfold neighbours at 1. rewrite !find_append_to.
    assert (N : neighbours (add_vertex (add_vertex g v1) v2) u = neighbours g u)
      by (rewrite !neighbours_add_vertex; auto).
    unfold neighbours at 1 in N.
    destruct (Z.eqb_spec u v1) as [->|H1].
    - destruct (Z.eqb_spec v2 v1); [congruence|]. rewrite Z.eqb_refl.
      destruct (dict_find (add_vertex (add_vertex g v1) v2) v1) eqn:E; simpl; [congruence|].
      exfalso. revert E. apply find_add_vertex, find_add_vertex_same.
    - destruct (Z.eqb_spec u v2) as [->|H2].
      + rewrite Z.eqb_refl. destruct (Z.eqb_spec v1 v2); [congruence|].
        destruct (dict_find (add_vertex (add_vertex g v1) v2) v2) eqn:E; simpl; [congruence|].
        exfalso. revert E. apply find_add_vertex_same.
      + destruct (Z.eqb_spec v1 u); [congruence|]. destruct (Z.eqb_spec v2 u); [congruence|].
        rewrite app_nil_r; auto. }
  destruct (sw a b); rewrite K by auto.
  - f_equal. destruct (Z.eqb_spec u b) as [->|]; auto. destruct (Z.eqb_spec b a); [congruence|]; rewrite ?Z.eqb_refl; auto.
  - reflexivity.
Qed.

Definition build (sw : Z -> Z -> bool) (es : list dart) : gdict := fold_left (add_edge sw) es [].

Lemma neighbours_fold sw es : forall g u,
  neighbours (fold_left (add_edge sw) es g) u = neighbours g u ++ flat_map (contrib u) es.
Proof.
  induction es as [|e t IH]; intros g u; simpl; [rewrite app_nil_r; auto|].
  rewrite IH, neighbours_add_edge, app_assoc; auto.
Qed.

Lemma neighbours_build sw es u : neighbours (build sw es) u = flat_map (contrib u) es.
Proof. unfold build; rewrite neighbours_fold; reflexivity. Qed.

Lemma keys_build sw es : NoDup (map fst (build sw es)).
Proof.
  unfold build. assert (H : NoDup (map fst (@nil (Z * list Z)))) by constructor.
  revert H. generalize (@nil (Z * list Z)). induction es as [|e t IH]; simpl; intros g H; auto.
  apply IH, keys_add_edge; auto.
Qed.

Lemma In_contrib u e x : In x (contrib u e) <-> x <> u /\ (e = (u, x) \/ e = (x, u)).
Proof.
  destruct e as [a b]; unfold contrib; simpl.
  destruct (Z.eqb_spec a b) as [->|H]; simpl.
  - split; [tauto|]. intros [H [E|E]]; injection E; intros; subst; congruence.
  - destruct (Z.eqb_spec u a) as [->|H1]; simpl.
    + split; [intros [<-|[]]; auto|]. intros [H1 [E|E]]; injection E; intros; subst; auto; congruence.
    + destruct (Z.eqb_spec u b) as [->|H2]; simpl.
      * split; [intros [<-|[]]; auto|]. intros [H2 [E|E]]; injection E; intros; subst; auto; congruence.
      * split; [tauto|]. intros [H3 [E|E]]; injection E; intros; subst; congruence.
Qed.

Lemma In_neighbours_build sw es a b : In b (neighbours (build sw es) a) <-> has_edge_between es a b.
Proof.
  rewrite neighbours_build, in_flat_map. unfold has_edge_between. split.
  - intros (e & He & Hc). apply In_contrib in Hc. destruct Hc as [H [-> | ->]]; auto.
  - intros [H [He|He]]; eexists; (split; [exact He|]); apply In_contrib; auto.
Qed.

Lemma count_neighbours sw es a b :
  count_occ Z.eq_dec (neighbours (build sw es) a) b = multiplicity es a b.
Proof.
  rewrite neighbours_build. unfold multiplicity. destruct (Z.eqb_spec a b) as [->|Hab].
  - apply count_occ_not_In. rewrite in_flat_map. intros (e & _ & Hc). apply In_contrib in Hc; tauto.
  - induction es as [|[x y] t IH]; [reflexivity|].
    cbn [flat_map filter]. rewrite count_occ_app, IH.
    unfold contrib, joins; cbn [fst snd].
    destruct (Z.eqb_spec x y) as [Exy|Hxy].
    + subst y. destruct (Z.eqb_spec x a), (Z.eqb_spec x b); try congruence; reflexivity.
    + destruct (Z.eqb_spec a x) as [->|Hax].
      * rewrite Z.eqb_refl. cbn [andb orb count_occ].
        destruct (Z.eq_dec y b) as [->|Hyb]; [rewrite Z.eqb_refl; auto|].
        destruct (Z.eqb_spec y b); [congruence|]. destruct (Z.eqb_spec x b); [congruence|]. reflexivity.
      * destruct (Z.eqb_spec x a); [congruence|]. cbn [andb orb].
        destruct (Z.eqb_spec a y) as [->|Hay].
        -- rewrite Z.eqb_refl, andb_true_r. cbn [count_occ].
           destruct (Z.eq_dec x b) as [->|]; [rewrite Z.eqb_refl; auto|].
           destruct (Z.eqb_spec x b); [congruence|]; auto.
        -- destruct (Z.eqb_spec y a); [congruence|]. rewrite andb_false_r. reflexivity.
Qed.

Lemma NoDup_neighbours sw es a : no_parallel_edges es -> NoDup (neighbours (build sw es) a).
Proof.
  intros H. apply (NoDup_count_occ Z.eq_dec). intros b. rewrite count_neighbours. apply H.
Qed.

(** ** the dart set *)
Lemma dict_find_In g v l : dict_find g v = Some l -> In (v, l) g.
Proof.
  induction g as [|[k m] t IH]; simpl; [discriminate|].
  destruct (Z.eqb_spec k v) as [->|]; [intros E; injection E; intros; subst; auto | auto].
Qed.

Lemma In_dict_find g v l : NoDup (map fst g) -> In (v, l) g -> dict_find g v = Some l.
Proof.
  induction g as [|[k m] t IH]; simpl; [tauto|]. intros Hnd [E|H].
  - injection E; intros; subst. rewrite Z.eqb_refl; auto.
  - inversion Hnd; subst. destruct (Z.eqb_spec k v) as [->|]; [|auto].
    exfalso. apply H2. apply in_map_iff. exists (v, l); auto.
Qed.

Lemma In_edges g a b : NoDup (map fst g) -> In (a, b) (edges g) <-> In b (neighbours g a).
Proof.
  intros Hnd. unfold edges, neighbours. rewrite in_flat_map. split.
  - intros ([k l] & Hkl & H). simpl in H. apply in_map_iff in H. destruct H as (x & E & Hx).
    injection E; intros; subst. rewrite (In_dict_find _ _ _ Hnd Hkl); auto.
  - destruct (dict_find g a) as [l|] eqn:E; [|simpl; tauto]. intros H.
    exists (a, l); split; [apply dict_find_In; auto|]. simpl. apply in_map; auto.
Qed.

Lemma In_set_add x y s : In x (set_add y s) <-> x = y \/ In x s.
Proof.
  unfold set_add. destruct (py_in dart_eqb y s) eqn:E.
  - apply py_in_dart in E. split; [auto|]. intros [->|H]; auto.
  - rewrite in_app_iff; simpl. split; [intros [H|[H|[]]]; auto | intros [H|H]; auto].
Qed.

Lemma NoDup_set_add y s : NoDup s -> NoDup (set_add y s).
Proof.
  intros H; unfold set_add. destruct (py_in dart_eqb y s) eqn:E; auto.
  apply NoDup_app_iff. repeat split; auto; [repeat constructor; auto|].
  intros x Hx [<-|[]]. apply py_in_dart in Hx. congruence.
Qed.

Definition flip (d : dart) : dart := (snd d, fst d).

Lemma edge_set_fold es : forall s, NoDup s ->
  let r := fold_left (fun s e => set_add (snd e, fst e) (set_add (fst e, snd e) s)) es s in
  NoDup r /\ forall x, In x r <-> In x s \/ In x es \/ In (flip x) es.
Proof.
  induction es as [|[a b] t IH]; intros s Hs; simpl.
  - split; auto. intros x; tauto.
  - destruct (IH (set_add (b, a) (set_add (a, b) s))) as [H1 H2]; [apply NoDup_set_add, NoDup_set_add; auto|].
    split; auto. intros [p q]. rewrite H2, !In_set_add. unfold flip; simpl.
    split.
    + intros [[E|[E|H]]|[H|H]]; try (injection E; intros; subst); auto.
    + intros [H|[[E|H]|[E|H]]]; try (injection E; intros; subst); auto.
Qed.

Lemma In_edge_set g x : In x (edge_set g) <-> In x (edges g) \/ In (flip x) (edges g).
Proof.
  unfold edge_set. destruct (@edge_set_fold (edges g) []) as [_ H]; [constructor|].
  rewrite H. simpl; tauto.
Qed.

Lemma NoDup_edge_set g : NoDup (edge_set g).
Proof. unfold edge_set. destruct (@edge_set_fold (edges g) []) as [H _]; [constructor|auto]. Qed.

Lemma In_edge_set_build sw es a b : In (a, b) (edge_set (build sw es)) <-> has_edge_between es a b.
Proof.
  rewrite In_edge_set. unfold flip; simpl. rewrite !In_edges by apply keys_build.
  rewrite !In_neighbours_build. unfold has_edge_between.
  split; [intros [H|[H1 H2]]; auto; split; [congruence|tauto] | auto].
Qed.

(** ** the successor dart *)
Lemma next_node_ok emb u v : NoDup (neighbours emb v) -> In u (neighbours emb v) ->
  exists w, next_node emb u v = Ok w /\ rotation_succ (neighbours emb v) u w /\ In w (neighbours emb v).
Proof.
  intros Hnd Hu. unfold next_node. set (ns := neighbours emb v) in *.
  destruct (@find_pos_total _ (fun x => (x =? u)%Z) ns u) as [i Hi]; auto; [apply Z.eqb_refl|].
  rewrite Hi; cbn [of_option bind].
  destruct (find_pos_some _ _ Hi) as (x & Hx & E & _). apply Z.eqb_eq in E; subst x.
  assert (Hl : i < length ns) by (apply nth_error_Some; congruence).
  destruct (nth_error ns ((i + 1) mod length ns)) as [w|] eqn:Ew.
  - exists w; split; auto. split; [exists i; auto | eapply nth_error_In; eauto].
  - apply nth_error_None in Ew. pose proof (Nat.mod_upper_bound (i + 1) (length ns)). lia.
Qed.

Lemma rotation_succ_inj ns u1 u2 w : NoDup ns -> rotation_succ ns u1 w -> rotation_succ ns u2 w -> u1 = u2.
Proof.
  intros Hnd (i & Hi & Hi') (j & Hj & Hj').
  assert (Li : i < length ns) by (apply nth_error_Some; congruence).
  assert (Lj : j < length ns) by (apply nth_error_Some; congruence).
  assert (E : (i + 1) mod length ns = (j + 1) mod length ns).
  { rewrite NoDup_nth_error in Hnd. apply Hnd; [apply Nat.mod_upper_bound; lia | congruence]. }
  assert (i = j).
  { destruct (Nat.eq_dec (i + 1) (length ns)) as [A|A]; destruct (Nat.eq_dec (j + 1) (length ns)) as [B|B].
    - lia.
    - rewrite A, Nat.mod_same, Nat.mod_small in E by lia; lia.
    - rewrite B, Nat.mod_same, Nat.mod_small in E by lia; lia.
    - rewrite !Nat.mod_small in E by lia; lia. }
  congruence.
Qed.

Definition nxt_dart (emb : gdict) (d : dart) : dart :=
  (snd d, match next_node emb (fst d) (snd d) with Ok w => w | Err _ => 0%Z end).

Section Build.
Variable sw : Z -> Z -> bool.
Variable es : list dart.
Variable emb : gdict.
Hypothesis Hsimple : no_parallel_edges es.
Hypothesis Hemb : forall v, Permutation (neighbours emb v) (neighbours (build sw es) v).

Let D := edge_set (build sw es).

Lemma emb_nodup v : NoDup (neighbours emb v).
Proof. eapply Permutation_NoDup; [symmetry; apply Hemb|]. apply NoDup_neighbours; auto. Qed.

Lemma emb_in a b : In b (neighbours emb a) <-> In (a, b) D.
Proof.
  unfold D. rewrite In_edge_set_build, <- (In_neighbours_build sw). split; apply Permutation_in;
    [|symmetry]; apply Hemb.
Qed.

Lemma D_sym a b : In (a, b) D -> In (b, a) D.
Proof. unfold D; rewrite !In_edge_set_build. intros [H1 H2]; split; [congruence|tauto]. Qed.

Lemma nxt_props u v : In (u, v) D ->
  next_node emb u v = Ok (snd (nxt_dart emb (u, v))) /\
  rotation_succ (neighbours emb v) u (snd (nxt_dart emb (u, v))) /\
  In (nxt_dart emb (u, v)) D.
Proof.
  intros H. apply D_sym in H. apply emb_in in H.
  destruct (@next_node_ok emb u v (emb_nodup v) H) as (w & Hw & Hs & Hin).
  unfold nxt_dart; simpl. rewrite Hw; simpl. repeat split; auto. apply emb_in; auto.
Qed.

Lemma nxt_inj d1 d2 : In d1 D -> In d2 D -> nxt_dart emb d1 = nxt_dart emb d2 -> d1 = d2.
Proof.
  destruct d1 as [u1 v1], d2 as [u2 v2]. intros H1 H2 E.
  destruct (nxt_props _ _ H1) as (_ & R1 & _). destruct (nxt_props _ _ H2) as (_ & R2 & _).
  rewrite E in R1. assert (v1 = v2) by (unfold nxt_dart in E; simpl in E; congruence). subst v2.
  f_equal. eapply rotation_succ_inj; eauto. apply emb_nodup.
Qed.

Lemma face_paths_ok sch :
  exists fs, face_paths sch (build sw es) emb = Ok fs /\
             Permutation D (concat fs) /\ Forall (closed (nxt_dart emb)) fs.
Proof.
  unfold face_paths. fold D.
  apply (@trace_from_start sch emb D (nxt_dart emb)).
  - apply NoDup_edge_set.
  - intros u v H; apply nxt_props; auto.
  - intros u v H; reflexivity.
  - intros [u v] H; apply nxt_props; auto.
  - apply nxt_inj.
  - unfold trace_fuel. nia.
Qed.

Lemma faces_partition sch :
  exists fs, face_paths sch (build sw es) emb = Ok fs /\
    NoDup (concat fs) /\
    (forall a b, In (a, b) (concat fs) <-> has_edge_between es a b) /\
    Forall (traced_face (neighbours emb)) fs.
Proof.
  destruct (face_paths_ok sch) as (fs & H & HP & Hc). exists fs; split; auto. split; [|split].
  - eapply Permutation_NoDup; eauto. apply NoDup_edge_set.
  - intros a b. rewrite <- (In_edge_set_build sw). fold D. split; apply Permutation_in; [symmetry|]; auto.
  - apply Forall_forall. intros f Hf. rewrite Forall_forall in Hc.
    pose proof (closed_circular (Hc _ Hf)) as [Hne Hcirc]. split; auto.
    intros i [u v] Hx. destruct (Hcirc _ _ Hx) as (y & Hy & ->). eexists; split; eauto.
    assert (Hin : In (u, v) D).
    { eapply Permutation_in; [symmetry; exact HP|]. apply in_concat. exists f; split; auto.
      eapply nth_error_In; eauto. }
    destruct (nxt_props _ _ Hin) as (_ & R & _). auto.
Qed.
End Build.

(** ** schedule independence *)
Lemma circular_rot T (R : T -> T -> Prop) f i : i <= length f -> circular R f -> circular R (rot i f).
Proof.
  intros Hi [Hne H]. assert (L : length f <> 0) by (destruct f; simpl; congruence).
  split.
  - intros E. apply L. rewrite <- (rot_length i f), E; auto.
  - intros k x Hx. assert (Hk : k < length f) by (rewrite <- (rot_length i f); apply nth_error_Some; congruence).
    rewrite nth_error_rot in Hx by auto. destruct (H _ _ Hx) as (y & Hy & HR).
    exists y; split; auto. rewrite rot_length, nth_error_rot by (auto; apply Nat.mod_upper_bound; auto).
    rewrite <- Hy. f_equal.
    rewrite Nat.add_mod_idemp_r by auto. rewrite Nat.add_mod_idemp_l by auto. f_equal; lia.
Qed.

Lemma circular_fun_prefix T (nx : T -> T) f f' : circular (fun x y => y = nx x) f ->
  circular (fun x y => y = nx x) f' -> nth_error f 0 = nth_error f' 0 ->
  forall k, k < length f -> k < length f' -> nth_error f k = nth_error f' k.
Proof.
  intros [Hne H] [Hne' H'] H0. induction k as [|k IH]; intros Hk Hk'; auto.
  assert (E : nth_error f k = nth_error f' k) by (apply IH; lia).
  destruct (nth_error f k) as [x|] eqn:Ex; [|apply nth_error_None in Ex; lia].
  destruct (H _ _ Ex) as (y & Hy & ->). symmetry in E. destruct (H' _ _ E) as (y' & Hy' & ->).
  rewrite Nat.add_1_r, Nat.mod_small in Hy, Hy' by lia. congruence.
Qed.

Lemma circular_fun_len T (nx : T -> T) f f' : circular (fun x y => y = nx x) f ->
  circular (fun x y => y = nx x) f' -> nth_error f 0 = nth_error f' 0 ->
  NoDup f' -> ~ length f < length f'.
Proof.
  intros Hc Hc' H0 Hnd Hlt. pose proof (@circular_fun_prefix _ nx _ _ Hc Hc' H0) as Hp.
  destruct Hc as [Hne H], Hc' as [Hne' H'].
  assert (L : length f <> 0) by (destruct f; simpl; congruence).
  set (n := length f) in *.
  assert (E : nth_error f (n - 1) = nth_error f' (n - 1)) by (apply Hp; lia).
  destruct (nth_error f (n - 1)) as [x|] eqn:Ex; [|apply nth_error_None in Ex; lia].
  destruct (H _ _ Ex) as (y & Hy & ->). symmetry in E. destruct (H' _ _ E) as (y' & Hy' & ->).
  fold n in Hy. replace (n - 1 + 1) with n in Hy, Hy' by lia.
  rewrite Nat.mod_same in Hy by lia. rewrite Nat.mod_small in Hy' by lia.
  rewrite NoDup_nth_error in Hnd. assert (0 = n); [|lia].
  apply Hnd; [lia|]. congruence.
Qed.

Lemma circular_fun_eq T (nx : T -> T) f f' : circular (fun x y => y = nx x) f ->
  circular (fun x y => y = nx x) f' -> nth_error f 0 = nth_error f' 0 ->
  NoDup f -> NoDup f' -> f = f'.
Proof.
  intros Hc Hc' H0 Hnd Hnd'.
  pose proof (@circular_fun_len _ nx _ _ Hc Hc' H0 Hnd'). pose proof (@circular_fun_len _ nx _ _ Hc' Hc (eq_sym H0) Hnd).
  apply nth_error_ext. intros i. destruct (Nat.lt_ge_cases i (length f)) as [L|L].
  - apply (@circular_fun_prefix _ nx _ _ Hc Hc' H0); lia.
  - rewrite (proj2 (nth_error_None f i)) by lia. symmetry; apply nth_error_None; lia.
Qed.

Lemma rotation_of_rot T i (f : list T) : rotation_of (rot i f) f.
Proof. exists (skipn i f), (firstn i f). split; auto. symmetry; apply firstn_skipn. Qed.

Lemma rotation_of_sym T (f1 f2 : list T) : rotation_of f1 f2 -> rotation_of f2 f1.
Proof. intros (a & b & H1 & H2); exists b, a; auto. Qed.

Lemma rotation_of_refl T (f : list T) : rotation_of f f.
Proof. exists [], f. rewrite app_nil_r; auto. Qed.

Lemma rotation_of_perm T (f1 f2 : list T) : rotation_of f1 f2 -> Permutation f1 f2.
Proof. intros (a & b & -> & ->). apply Permutation_app_comm. Qed.

Lemma rotation_of_trans T (f1 f2 f3 : list T) : rotation_of f1 f2 -> rotation_of f2 f3 -> rotation_of f1 f3.
Proof.
  intros (a & b & -> & ->) (c & d & E & ->).
  (* b ++ a = c ++ d *)
  apply app_eq_app in E. destruct E as (l & [[-> ->]|[-> ->]]).
  - exists (a ++ c), l. rewrite !app_assoc; auto.
  - exists l, (d ++ b). rewrite <- !app_assoc; auto.
Qed.

Lemma rotation_of_map T U (h : T -> U) f1 f2 : rotation_of f1 f2 -> rotation_of (map h f1) (map h f2).
Proof. intros (a & b & -> & ->). exists (map h a), (map h b). rewrite !map_app; auto. Qed.

(** two partitions into orbits of the same function agree up to order and rotation *)
Lemma orbit_partition_unique T (nx : T -> T) fs1 : forall fs2,
  Forall (circular (fun x y => y = nx x)) fs1 -> Forall (circular (fun x y => y = nx x)) fs2 ->
  NoDup (concat fs1) -> Permutation (concat fs1) (concat fs2) ->
  exists fs2', Permutation fs2 fs2' /\ Forall2 (@rotation_of T) fs1 fs2'.
Proof.
  induction fs1 as [|f1 t1 IH]; intros fs2 H1 H2 Hnd HP.
  - simpl in HP. apply Permutation_nil in HP. destruct fs2 as [|f2 t2].
    + exists []; auto.
    + inversion H2 as [|? ? [Hne _] _]; subst. destruct f2; [congruence|discriminate].
  - inversion H1 as [|? ? Hc1 Ht1]; subst. destruct f1 as [|d f1']; [destruct Hc1; congruence|].
    set (f1 := d :: f1') in *.
    assert (Hd : In d (concat fs2)).
    { eapply Permutation_in; [exact HP|]. simpl; auto. }
    apply in_concat in Hd. destruct Hd as (f2 & Hf2 & Hdf2).
    apply in_split in Hf2. destruct Hf2 as (a & b & ->).
    assert (Hnd2 : NoDup (concat (a ++ f2 :: b))) by (eapply Permutation_NoDup; eauto).
    rewrite concat_app in Hnd2, HP; simpl in Hnd2, HP.
    assert (Hndf2 : NoDup f2).
    { apply NoDup_app_iff in Hnd2. destruct Hnd2 as (_ & K & _). apply NoDup_app_iff in K; tauto. }
    assert (Hndf1 : NoDup f1).
    { change (concat (f1 :: t1)) with (f1 ++ concat t1) in Hnd.
      apply NoDup_app_iff in Hnd; tauto. }
    apply Forall_app in H2. destruct H2 as [Ha Hb]. inversion Hb as [|? ? Hc2 Hb']; subst.
    apply In_nth_error in Hdf2. destruct Hdf2 as [i Hi].
    assert (Li : i < length f2) by (apply nth_error_Some; congruence).
    assert (E : f1 = rot i f2).
    { apply (@circular_fun_eq _ nx); auto.
      - apply circular_rot; auto; lia.
      - rewrite nth_error_rot by lia. rewrite Nat.add_0_r, Nat.mod_small by lia. rewrite Hi; auto.
      - eapply Permutation_NoDup; [symmetry; apply Permutation_rot|auto]. }
    destruct (IH (a ++ b)) as (fs2' & HP' & HF); auto.
    + apply Forall_app; auto.
    + change (concat (f1 :: t1)) with (f1 ++ concat t1) in Hnd. apply NoDup_app_iff in Hnd; tauto.
    + rewrite concat_app. apply Permutation_app_inv_l with (l := f1).
      change (d :: f1' ++ concat t1) with (f1 ++ concat t1) in HP.
      rewrite HP. rewrite E. rewrite (Permutation_rot i f2).
      rewrite !app_assoc. apply Permutation_app_tail, Permutation_app_comm.
    + exists (f2 :: fs2'); split.
      * rewrite <- HP'. symmetry; apply Permutation_middle.
      * constructor; auto. rewrite E. apply rotation_of_rot.
Qed.

(** ** the final faces *)
Lemma is_orig_edge_spec nr d : is_orig_edge nr d = true <-> footprint_edge nr d.
Proof. unfold is_orig_edge, footprint_edge. rewrite andb_true_iff, !Z.ltb_lt; tauto. Qed.

Lemma rotate_orig_rotation nr f : rotation_of (rotate_orig nr f) f.
Proof.
  unfold rotate_orig. destruct (find_pos (is_orig_edge nr) f); [apply rotation_of_rot | apply rotation_of_refl].
Qed.

Lemma rotate_orig_first nr f d : In d f -> footprint_edge nr d ->
  exists d' t, rotate_orig nr f = d' :: t /\ footprint_edge nr d'.
Proof.
  intros Hd Ho. apply is_orig_edge_spec in Ho. unfold rotate_orig.
  destruct (@find_pos_total _ (is_orig_edge nr) f d) as [i Hi]; auto. rewrite Hi.
  destruct (find_pos_some _ _ Hi) as (x & Hx & Hox & _).
  rewrite (rot_hd _ _ Hx). eexists; eexists; split; eauto. apply is_orig_edge_spec; auto.
Qed.

Lemma rotation_NoDup_hd T (f1 f2 : list T) x t1 t2 : NoDup f1 -> rotation_of f1 f2 ->
  f1 = x :: t1 -> f2 = x :: t2 -> f1 = f2.
Proof.
  intros Hnd (a & b & E1 & E2) H1 H2. destruct a as [|y a'].
  - simpl in *. rewrite app_nil_r in E2. congruence.
  - destruct b as [|z b'].
    + rewrite app_nil_r in E1. simpl in *; congruence.
    + exfalso. rewrite E1 in H1. rewrite E2 in H2. simpl in H1, H2.
      injection H1; injection H2; intros; subst. simpl in Hnd. inversion Hnd; subst.
      apply H3. apply in_or_app; simpl; auto.
Qed.

Lemma rotate_orig_unique nr f1 f2 d : rotation_of f1 f2 -> NoDup f1 ->
  In d f1 -> footprint_edge nr d -> (forall d', In d' f1 -> footprint_edge nr d' -> d' = d) ->
  rotate_orig nr f1 = rotate_orig nr f2.
Proof.
  intros HR Hnd Hd Ho Hu.
  assert (Hd2 : In d f2) by (eapply Permutation_in; [apply rotation_of_perm; eauto|auto]).
  destruct (@rotate_orig_first nr f1 d Hd Ho) as (d1 & t1 & E1 & O1).
  destruct (@rotate_orig_first nr f2 d Hd2 Ho) as (d2 & t2 & E2 & O2).
  assert (R1 := rotate_orig_rotation nr f1). assert (R2 := rotate_orig_rotation nr f2).
  assert (d1 = d).
  { apply Hu; auto. eapply Permutation_in; [apply rotation_of_perm; eauto|]. rewrite E1; simpl; auto. }
  assert (d2 = d).
  { apply Hu; auto. eapply Permutation_in; [symmetry; apply rotation_of_perm; exact HR|].
    eapply Permutation_in; [apply rotation_of_perm; exact R2|]. rewrite E2; simpl; auto. }
  subst d1 d2.
  apply (rotation_NoDup_hd (x := d) (t1 := t1) (t2 := t2)); auto.
  - eapply Permutation_NoDup; [symmetry; apply rotation_of_perm; exact R1|auto].
  - eapply rotation_of_trans; [exact R1|]. eapply rotation_of_trans; [exact HR|]. apply rotation_of_sym; auto.
Qed.

(** one returned face against the traced path it comes from *)
Definition vertex_cycle (nr : Z) (path : list dart) (vl : list Z) : Prop :=
  exists p', rotation_of path p' /\ vl = map fst p' /\
    (forall d, In d path -> footprint_edge nr d ->
       exists d' t, p' = d' :: t /\ footprint_edge nr d').

Definition has_node (nr : Z) (path : list dart) : bool := existsb (fun d => (nr <=? fst d)%Z) path.

Lemma existsb_map T U (h : T -> U) p l : existsb p (map h l) = existsb (fun x => p (h x)) l.
Proof. induction l; simpl; congruence. Qed.

Lemma final_faces_spec nr paths :
  Forall2 (vertex_cycle nr) (filter (has_node nr) paths) (final_faces nr paths).
Proof.
  unfold final_faces. induction paths as [|f t IH]; simpl; [constructor|].
  assert (E : existsb (fun i => (nr <=? i)%Z) (map fst (rotate_orig nr f)) = has_node nr f).
  { rewrite existsb_map. unfold has_node. apply existsb_perm, rotation_of_perm, rotate_orig_rotation. }
  rewrite E. destruct (has_node nr f); auto. constructor; auto.
  exists (rotate_orig nr f). split; [apply rotation_of_sym, rotate_orig_rotation|]. split; auto.
  intros d Hd Ho. eapply rotate_orig_first; eauto.
Qed.

Lemma final_faces_rotation nr fs1 fs2 fs2' :
  Permutation fs2 fs2' -> Forall2 (@rotation_of dart) fs1 fs2' -> NoDup (concat fs1) ->
  exists r2', Permutation (final_faces nr fs2) r2' /\
    Forall2 (fun v1 v2 => rotation_of v1 v2) (final_faces nr fs1) r2' /\
    r2' = final_faces nr fs2'.
Proof.
  intros HP HF Hnd. exists (final_faces nr fs2'). split; [|split; auto].
  - unfold final_faces. apply Permutation_filter, Permutation_map; auto.
  - unfold final_faces. apply Forall2_filter.
    + intros x y HR. apply existsb_perm, rotation_of_perm; auto.
    + apply Forall2_map. eapply Forall2_impl_in; [|exact HF].
      intros x y _ _ HR. apply rotation_of_map.
      eapply rotation_of_trans; [apply rotate_orig_rotation|].
      eapply rotation_of_trans; [exact HR|]. apply rotation_of_sym, rotate_orig_rotation.
Qed.

(** ** API level *)
Lemma lists_neighbours_perm sw es emb : lists_neighbours es (neighbours emb) -> no_parallel_edges es ->
  forall v, Permutation (neighbours emb v) (neighbours (build sw es) v).
Proof.
  intros H Hs v. destruct (H v) as [Hnd Hin]. apply NoDup_Permutation; auto.
  - apply NoDup_neighbours; auto.
  - intros x. rewrite Hin, In_neighbours_build. tauto.
Qed.

Lemma dart_list_chain first : forall p d0, p <> [] ->
  (forall i x y, nth_error p i = Some x -> nth_error p (S i) = Some y -> fst y = snd x) ->
  snd (last p d0) = first -> dart_list first (map fst p) = p.
Proof.
  induction p as [|[a b] t IH]; intros d0 Hne Hl Hlast; [congruence|].
  destruct t as [|[c d] t'].
  - simpl in *; subst; auto.
  - change (dart_list first (map fst ((a, b) :: (c, d) :: t')))
      with ((a, c) :: dart_list first (map fst ((c, d) :: t'))).
    rewrite (IH d0).
    + assert (c = b) by (apply (Hl 0 (a, b) (c, d)); auto). congruence.
    + discriminate.
    + intros i x y Hx Hy. apply (Hl (S i)); auto.
    + auto.
Qed.

Lemma darts_of_closed p : circular (fun d d' => fst d' = snd d) p -> darts_of (map fst p) = p.
Proof.
  intros [Hne H]. destruct p as [|d t]; [congruence|]. unfold darts_of. simpl map.
  change (fst d :: map fst t) with (map fst (d :: t)).
  apply (@dart_list_chain _ _ d); auto.
  - intros i x y Hx Hy. destruct (H _ _ Hx) as (z & Hz & E).
    assert (S i < length (d :: t)) by (apply nth_error_Some; congruence).
    rewrite Nat.add_1_r, Nat.mod_small in Hz by auto. congruence.
  - assert (E : nth_error (d :: t) (length (d :: t) - 1) = Some (last (d :: t) d)).
    { apply last_nth; discriminate. }
    destruct (H _ _ E) as (y & Hy & Eq).
    replace (length (d :: t) - 1 + 1) with (length (d :: t)) in Hy by (simpl; lia).
    rewrite Nat.mod_same in Hy by (simpl; lia). simpl in Hy. injection Hy; intros; subst. auto.
Qed.

Lemma circular_impl T (R R' : T -> T -> Prop) f : (forall x y, R x y -> R' x y) -> circular R f -> circular R' f.
Proof.
  intros H [Hne Hc]; split; auto. intros i x Hx. destruct (Hc _ _ Hx) as (y & Hy & HR). eauto.
Qed.

Lemma circular_rotation T (R : T -> T -> Prop) f f' : rotation_of f f' -> circular R f -> circular R f'.
Proof.
  intros (a & b & -> & ->) H. replace (b ++ a) with (rot (length a) (a ++ b)).
  - apply circular_rot; auto. rewrite app_length; lia.
  - unfold rot. rewrite skipn_app, firstn_app, Nat.sub_diag, skipn_all, firstn_all. simpl.
    rewrite app_nil_r; auto.
Qed.

Lemma concat_filter_NoDup T (p : list T -> bool) fs : NoDup (concat fs) -> NoDup (concat (filter p fs)).
Proof.
  induction fs as [|f t IH]; simpl; auto. intros H. apply NoDup_app_iff in H. destruct H as (H1 & H2 & H3).
  destruct (p f); simpl; auto. apply NoDup_app_iff. repeat split; auto.
  intros x Hx Hc. apply (H3 x); auto. apply in_concat in Hc. destruct Hc as (g & Hg & Hxg).
  apply filter_In in Hg. apply in_concat. exists g; tauto.
Qed.

Lemma In_concat_NoDup T (fs : list (list T)) f : NoDup (concat fs) -> In f fs -> NoDup f.
Proof.
  induction fs as [|g t IH]; simpl; [tauto|]. intros H. apply NoDup_app_iff in H.
  destruct H as (H1 & H2 & _). intros [->|Hf]; auto.
Qed.

Section Api.
Variable sw : Z -> Z -> bool.
Variable es : list dart.
Variable emb : gdict.
Hypothesis Hsimple : no_parallel_edges es.
Hypothesis Hemb : lists_neighbours es (neighbours emb).

Let Hperm := lists_neighbours_perm sw Hemb Hsimple.

Lemma paths_nxt sch : exists fs, face_paths sch (build sw es) emb = Ok fs /\
    NoDup (concat fs) /\ (forall a b, In (a, b) (concat fs) <-> has_edge_between es a b) /\
    Forall (traced_face (neighbours emb)) fs /\
    Forall (circular (fun x y => y = nxt_dart emb x)) fs.
Proof.
  destruct (@face_paths_ok sw es emb Hsimple Hperm sch) as (fs & H & HP & Hc).
  destruct (@faces_partition sw es emb Hsimple Hperm sch) as (fs' & H' & Hnd & Hin & Ht).
  rewrite H in H'. apply Ok_inj in H'. subst fs'. exists fs. split; [exact H|].
  split; [exact Hnd|]. split; [exact Hin|]. split; [exact Ht|].
  eapply Forall_impl; [|exact Hc]. intros f; apply closed_circular.
Qed.

Lemma traced_nxt p : traced_face (neighbours emb) p -> (forall a b, In (a, b) p -> has_edge_between es a b) ->
  circular (fun x y => y = nxt_dart emb x) p.
Proof.
  intros [Hne H] Hp. split; auto. intros i [u v] Hx. destruct (H _ _ Hx) as ([v' w] & Hy & Hf & HR).
  exists (v', w); split; auto. simpl in Hf, HR. subst v'.
  assert (Hd : In (u, v) (edge_set (build sw es))).
  { apply In_edge_set_build. apply Hp. eapply nth_error_In; eauto. }
  destruct (@nxt_props sw es emb Hsimple Hperm u v Hd) as (_ & R & _).
  unfold nxt_dart; simpl. f_equal. unfold nxt_dart in R; simpl in R.
  destruct HR as (i1 & A1 & B1), R as (i2 & A2 & B2).
  destruct (Hemb v) as [Hnd _]. rewrite NoDup_nth_error in Hnd.
  assert (i1 = i2) by (apply Hnd; [apply nth_error_Some; congruence|congruence]). subst i2. congruence.
Qed.

Lemma traced_connected p : traced_face (neighbours emb) p -> circular (fun d d' => fst d' = snd d) p.
Proof. apply circular_impl. intros x y [H _]; auto. Qed.

Lemma has_node_contains nr p vl : Permutation (map fst p) vl -> has_node nr p = true <-> contains_node nr vl.
Proof.
  intros HP. unfold has_node, contains_node. rewrite existsb_exists. split.
  - intros (d & Hd & H). exists (fst d). split; [|apply Z.leb_le; auto].
    eapply Permutation_in; [exact HP|]. apply in_map; auto.
  - intros (v & Hv & H). apply (Permutation_in _ (Permutation_sym HP)) in Hv.
    apply in_map_iff in Hv. destruct Hv as (d & <- & Hd). exists d; split; auto. apply Z.leb_le; auto.
Qed.

Lemma vertex_cycle_props nr p vl : traced_face (neighbours emb) p -> vertex_cycle nr p vl ->
  rotation_of p (darts_of vl) /\ Permutation (map fst p) vl /\
  ((exists d, In d (darts_of vl) /\ footprint_edge nr d) -> starts_on_footprint nr vl).
Proof.
  intros Ht (p' & HR & -> & Hs).
  assert (E : darts_of (map fst p') = p').
  { apply darts_of_closed. eapply circular_rotation; [exact HR|]. apply traced_connected; auto. }
  rewrite E. split; auto. split; [apply Permutation_map, rotation_of_perm; auto|].
  intros (d & Hd & Ho). unfold starts_on_footprint. rewrite E. apply (Hs d); auto.
  eapply Permutation_in; [apply Permutation_sym, rotation_of_perm; exact HR|auto].
Qed.

Lemma graph_faces_api sch nr : exists r, graph_faces sch (build sw es) emb nr = Ok r /\
  (forall f, In f r -> traced_face (neighbours emb) (darts_of f) /\ contains_node nr f /\
      (forall a b, In (a, b) (darts_of f) -> has_edge_between es a b) /\
      ((exists d, In d (darts_of f) /\ footprint_edge nr d) -> starts_on_footprint nr f)) /\
  NoDup (concat (map darts_of r)) /\
  (forall p, traced_face (neighbours emb) p -> NoDup p ->
      (forall a b, In (a, b) p -> has_edge_between es a b) -> contains_node nr (map fst p) ->
      exists f, In f r /\ rotation_of p (darts_of f)).
Proof.
  destruct (paths_nxt sch) as (fs & Hfs & Hnd & Hin & Ht & Hc). exists (final_faces nr fs).
  unfold graph_faces. rewrite Hfs; cbn [bind]. split; auto.
  pose proof (final_faces_spec nr fs) as HF.
  set (fs1 := filter (has_node nr) fs) in *.
  assert (Hsub : forall p, In p fs1 -> In p fs /\ has_node nr p = true)
    by (intros p Hp; apply filter_In in Hp; auto).
  rewrite Forall_forall in Ht, Hc.
  split; [|split].
  - intros f Hf. destruct (Forall2_In_r _ HF Hf) as (p & Hp & Hv).
    destruct (Hsub _ Hp) as [Hp1 Hp2].
    destruct (vertex_cycle_props (Ht _ Hp1) Hv) as (HR & HP & Hs).
    split; [eapply circular_rotation; [exact HR|apply Ht; auto]|].
    split; [apply (@has_node_contains nr p f HP); auto|]. split; auto.
    intros a b Hab. apply Hin. apply in_concat. exists p; split; auto.
    eapply Permutation_in; [apply Permutation_sym, rotation_of_perm; exact HR|auto].
  - assert (HP : Permutation (concat fs1) (concat (map darts_of (final_faces nr fs)))).
    { clear -HF Hsub Ht. induction HF as [|p vl t1 t2 Hv HF IH]; simpl; auto.
      apply Permutation_app.
      - apply rotation_of_perm. eapply vertex_cycle_props; [|exact Hv]. apply Ht, Hsub; simpl; auto.
      - apply IH. intros; apply Hsub; simpl; auto. }
    eapply Permutation_NoDup; [exact HP|]. apply concat_filter_NoDup; auto.
  - intros p Hp Hpnd Hpe Hpn. pose proof (traced_nxt Hp Hpe) as Hpc.
    destruct p as [|d p']; [destruct Hp; congruence|].
    assert (Hd : In d (concat fs)) by (destruct d; apply Hin, Hpe; simpl; auto).
    apply in_concat in Hd. destruct Hd as (q & Hq & Hdq).
    apply In_nth_error in Hdq. destruct Hdq as [i Hi].
    assert (Li : i < length q) by (apply nth_error_Some; congruence).
    assert (E : d :: p' = rot i q).
    { apply (@circular_fun_eq _ (nxt_dart emb)); auto.
      - apply circular_rot; auto; lia.
      - rewrite nth_error_rot by lia. rewrite Nat.add_0_r, Nat.mod_small by lia. rewrite Hi; auto.
      - eapply Permutation_NoDup; [symmetry; apply Permutation_rot|]. eapply In_concat_NoDup; eauto. }
    assert (HRq : rotation_of (d :: p') q) by (rewrite E; apply rotation_of_rot).
    assert (Hq1 : In q fs1).
    { apply filter_In; split; auto. apply (@has_node_contains nr q (map fst (d :: p'))); auto.
      apply Permutation_map, rotation_of_perm, rotation_of_sym; auto. }
    destruct (Forall2_In_l _ HF Hq1) as (f & Hf & Hv). exists f; split; auto.
    eapply rotation_of_trans; [exact HRq|]. eapply vertex_cycle_props; [|exact Hv]. apply Ht; auto.
Qed.

(** every directed edge with an end at a skeleton node is in exactly one returned face, once *)
Lemma graph_faces_node_darts sch nr r : graph_faces sch (build sw es) emb nr = Ok r ->
  forall a b, has_edge_between es a b -> (nr <= a \/ nr <= b)%Z ->
  count_occ Z_pair_dec (concat (map darts_of r)) (a, b) = 1.
Proof.
  intros Hr a b Hab Hn. destruct (graph_faces_api sch nr) as (r' & Hr' & _ & Hnd & Hcomp).
  rewrite Hr in Hr'. apply Ok_inj in Hr'. subst r'.
  apply NoDup_count_occ'; auto.
  destruct (paths_nxt sch) as (fs & Hfs & Hnd' & Hin & Ht & Hc).
  rewrite Forall_forall in Ht.
  assert (Hd : In (a, b) (concat fs)) by (apply Hin; auto).
  apply in_concat in Hd. destruct Hd as (q & Hq & Hdq).
  destruct (Hcomp q) as (f & Hf & HR); auto.
  - eapply In_concat_NoDup; eauto.
  - intros x y Hxy. apply Hin. apply in_concat. eauto.
  - destruct Hn as [Hn|Hn].
    + exists a; split; auto. apply in_map_iff. exists (a, b); auto.
    + apply In_nth_error in Hdq. destruct Hdq as [i Hi].
      destruct (proj2 (Ht _ Hq) _ _ Hi) as ([x y] & Hy & Ex & _). simpl in Ex; subst x.
      exists b; split; auto. apply in_map_iff. exists (b, y); split; auto. eapply nth_error_In; eauto.
  - apply in_concat. exists (darts_of f); split; [apply in_map; auto|].
    eapply Permutation_in; [apply rotation_of_perm; exact HR|auto].
Qed.
End Api.

Lemma nxt_dart_ext emb1 emb2 : (forall v, neighbours emb1 v = neighbours emb2 v) ->
  forall d, nxt_dart emb1 d = nxt_dart emb2 d.
Proof. intros H d. unfold nxt_dart, next_node. rewrite H; auto. Qed.

(** two runs differing in both oracles *)
Lemma graph_faces_schedule sw1 sw2 es emb1 emb2 sch1 sch2 nr :
  no_parallel_edges es -> lists_neighbours es (neighbours emb1) ->
  (forall v, neighbours emb1 v = neighbours emb2 v) ->
  exists r1 r2 r2', graph_faces sch1 (build sw1 es) emb1 nr = Ok r1 /\
    graph_faces sch2 (build sw2 es) emb2 nr = Ok r2 /\ Permutation r2 r2' /\
    Forall2 (fun f1 f2 => rotation_of f1 f2 /\ (one_footprint_edge nr f1 -> f1 = f2)) r1 r2'.
Proof.
  intros Hs He Heq.
  assert (He2 : lists_neighbours es (neighbours emb2)) by (intros v; rewrite <- Heq; apply He).
  destruct (@paths_nxt sw1 es emb1 Hs He sch1) as (fs1 & H1 & Hnd1 & Hin1 & Ht1 & Hc1).
  destruct (@paths_nxt sw2 es emb2 Hs He2 sch2) as (fs2 & H2 & Hnd2 & Hin2 & Ht2 & Hc2).
  assert (Hc2' : Forall (circular (fun x y => y = nxt_dart emb1 x)) fs2).
  { eapply Forall_impl; [|exact Hc2]. intros f. apply circular_impl. intros x y ->.
    symmetry; apply nxt_dart_ext; auto. }
  destruct (@orbit_partition_unique _ (nxt_dart emb1) fs1 fs2 Hc1 Hc2' Hnd1) as (fs2' & HP & HF).
  { apply NoDup_Permutation; auto. intros [a b]. rewrite Hin1, Hin2; tauto. }
  exists (final_faces nr fs1), (final_faces nr fs2), (final_faces nr fs2').
  unfold graph_faces. rewrite H1, H2; cbn [bind]. split; auto. split; auto. split.
  - unfold final_faces. apply Permutation_filter, Permutation_map; auto.
  - unfold final_faces. rewrite Forall_forall in Ht1.
    assert (HF1 : Forall2 (fun p q => rotation_of p q /\ NoDup p /\ traced_face (neighbours emb1) p) fs1 fs2').
    { eapply Forall2_impl_in; [|exact HF]. intros p q Hp _ HR. split; auto. split; auto.
      exact (@In_concat_NoDup _ fs1 p Hnd1 Hp). }
    clear HF H1 H2 Hnd1 Hin1 Ht1 Hc1 HP. induction HF1 as [|p q t1 t2 (HR & Hnd & Ht) HF IH]; simpl; auto.
    assert (HR' : rotation_of (rotate_orig nr p) (rotate_orig nr q)).
    { eapply rotation_of_trans; [apply rotate_orig_rotation|].
      eapply rotation_of_trans; [exact HR|]. apply rotation_of_sym, rotate_orig_rotation. }
    assert (E : existsb (fun i => (nr <=? i)%Z) (map fst (rotate_orig nr p)) =
                existsb (fun i => (nr <=? i)%Z) (map fst (rotate_orig nr q)))
      by (apply existsb_perm, rotation_of_perm, rotation_of_map; auto).
    rewrite <- E. destruct (existsb _ (map fst (rotate_orig nr p))); auto. constructor; auto.
    split; [apply rotation_of_map; auto|].
    assert (Ed : darts_of (map fst (rotate_orig nr p)) = rotate_orig nr p).
    { apply darts_of_closed. eapply circular_rotation; [apply rotation_of_sym, rotate_orig_rotation|].
      apply circular_impl with (2 := Ht). intros x y [Hxy _]; auto. }
    intros (d & Hd & Ho & Hu). rewrite Ed in Hd, Hu. f_equal.
    apply (@rotate_orig_unique nr p q d); auto.
    + eapply Permutation_in; [apply rotation_of_perm, rotate_orig_rotation|exact Hd].
    + intros d' Hd'. apply Hu.
      eapply Permutation_in; [apply Permutation_sym, rotation_of_perm, rotate_orig_rotation|exact Hd'].
Qed.

(** ** the embedding computed by [circular_embedding] *)
Lemma circular_embedding_perm (A : arith) g (vl : list (vec3 A)) dir emb :
  circular_embedding g vl dir = Ok emb ->
  map fst emb = map fst g /\ forall v, Permutation (neighbours emb v) (neighbours g v).
Proof.
  intros H. apply mapM_ok in H. induction H as [|[k l] [k' l'] t t' H HF [IH1 IH2]]; simpl; auto.
  apply bind_ok in H. destruct H as (s & Hs & E). apply Ok_inj in E. injection E; intros; subst. clear E.
  split; [congruence|]. intros v. unfold neighbours in *; simpl. destruct (Z.eqb_spec k' v) as [->|]; auto.
  apply py_sorted_perm in Hs. destruct dir; [symmetry; auto|].
  rewrite <- Permutation_rev. symmetry; auto.
Qed.

Lemma perm_lists_neighbours sw es emb : no_parallel_edges es ->
  (forall v, Permutation (neighbours emb v) (neighbours (build sw es) v)) -> lists_neighbours es (neighbours emb).
Proof.
  intros Hs H v. split.
  - eapply Permutation_NoDup; [symmetry; apply H|apply NoDup_neighbours; auto].
  - intros w. rewrite <- (In_neighbours_build sw). split; apply Permutation_in; [|symmetry]; apply H.
Qed.

Definition simpleb (es : list dart) : bool :=
  forallb (fun e => Nat.leb (multiplicity es (fst e) (snd e)) 1) es.

Lemma simpleb_ok es : simpleb es = true -> no_parallel_edges es.
Proof.
  unfold simpleb. rewrite forallb_forall. intros H a b.
  destruct (Nat.leb_spec (multiplicity es a b) 1); auto. exfalso.
  unfold multiplicity in H0. destruct (Z.eqb_spec a b); [lia|].
  destruct (filter (joins a b) es) as [|e t] eqn:E; [simpl in H0; lia|].
  assert (He : In e (filter (joins a b) es)) by (rewrite E; simpl; auto).
  apply filter_In in He. destruct He as [He Hj]. specialize (H _ He). apply Nat.leb_le in H.
  destruct e as [x y]. unfold joins in Hj. simpl in *.
  assert (Hm : multiplicity es x y = multiplicity es a b).
  { unfold multiplicity.
    apply orb_true_iff in Hj. rewrite !andb_true_iff, !Z.eqb_eq in Hj.
    destruct Hj as [[-> ->]|[-> ->]]; auto.
    destruct (Z.eqb_spec b a), (Z.eqb_spec a b); try congruence.
    f_equal. apply filter_ext. intros [p q]. unfold joins; simpl. apply orb_comm. }
  rewrite Hm in H. unfold multiplicity in H. destruct (Z.eqb_spec a b); [congruence|].
  rewrite E in H. simpl in *; lia.
Qed.

Lemma edges_spec sw es a b :
  count_occ Z_pair_dec (edges (build sw es)) (a, b) = multiplicity es a b.
Proof.
  rewrite <- (count_neighbours sw). pose proof (keys_build sw es) as Hk.
  revert Hk. generalize (build sw es) as g. unfold edges, neighbours.
  induction g as [|[k l] t IH]; simpl; intros Hk; auto. inversion Hk; subst.
  rewrite count_occ_app, IH by auto.
  assert (E : forall l', count_occ Z_pair_dec (map (fun n => (k, n)) l') (a, b) =
          if (k =? a)%Z then count_occ Z.eq_dec l' b else 0).
  { induction l' as [|x l' IHl]; simpl; [destruct (k =? a)%Z; auto|]. rewrite IHl.
    destruct (Z.eqb_spec k a) as [->|].
    - destruct (Z_pair_dec (a, x) (a, b)), (Z.eq_dec x b); subst; congruence.
    - destruct (Z_pair_dec (k, x) (a, b)); [congruence|]. auto. }
  rewrite E. destruct (Z.eqb_spec k a) as [->|]; [|auto].
  destruct (dict_find t a) eqn:Ef; [|simpl; lia].
  exfalso. apply H1. apply dict_find_In in Ef. apply in_map_iff. exists (a, l0); auto.
Qed.

Lemma multiplicity_sym es a b : multiplicity es a b = multiplicity es b a.
Proof.
  unfold multiplicity. destruct (Z.eqb_spec a b), (Z.eqb_spec b a); try congruence.
  f_equal. apply filter_ext. intros [p q]. unfold joins; simpl. apply orb_comm.
Qed.

Lemma build_props (sw : Z -> Z -> bool) (es : list (Z * Z)) :
    (forall a b, count_occ Z.eq_dec (neighbours (build sw es) a) b = multiplicity es a b) /\
    (forall a, ~ In a (neighbours (build sw es) a)) /\
    (forall a b, count_occ Z.eq_dec (neighbours (build sw es) a) b =
                 count_occ Z.eq_dec (neighbours (build sw es) b) a) /\
    (forall sw' a, neighbours (build sw' es) a = neighbours (build sw es) a).
Proof.
  split; [intros; apply count_neighbours|]. split; [|split].
  - intros a H. apply In_neighbours_build in H. destruct H; congruence.
  - intros a b. rewrite !count_neighbours. apply multiplicity_sym.
  - intros sw' a. rewrite !neighbours_build; auto.
Qed.

Lemma edges_twice : exists (es : list (Z * Z)), no_parallel_edges es /\
    exists a b, In (a, b) (edges (build (fun _ _ => false) es)) /\
                In (b, a) (edges (build (fun _ _ => false) es)) /\ a <> b.
Proof.
  exists [(0, 1)%Z]. split; [apply simpleb_ok; reflexivity|].
  exists 0%Z, 1%Z. vm_compute. repeat split; auto. discriminate.
Qed.
