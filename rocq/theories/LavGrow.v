(** * LavGrow: what holds of the wavefront whatever the events and the arithmetic.
    Vertices are never moved, stored references stay inside the stores. *)

From Verif Require Import Py PyFacts Arith Euclid Lav LavSpec LavWalk LavWf LavNext.
Set Implicit Arguments.
Unset Strict Implicit.

Section Grow.
Context {A : arith}.
Implicit Type vs : list (@lavertex A).
Implicit Type s : @slav A.
Notation edge2 := (@edge2 A).
Notation event := (@event A).

Lemma triple_inj X Y Z (a a' : X) (b b' : Y) (c c' : Z) : (a, b, c) = (a', b', c') -> a = a' /\ b = b' /\ c = c'.
Proof. intros [= -> -> ->]. auto. Qed.

(** ** the fixed part of a vertex *)
Definition body_kept (v w : @lavertex A) : Prop :=
  v_point v = v_point w /\ v_eprev v = v_eprev w /\ v_enext v = v_enext w /\
  v_reflex v = v_reflex w /\ v_bis v = v_bis w.

Lemma body_kept_refl v : body_kept v v.
Proof. repeat split. Qed.
Lemma body_kept_trans u v w : body_kept u v -> body_kept v w -> body_kept u w.
Proof. unfold body_kept. intuition congruence. Qed.
Lemma body_kept_sym u v : body_kept u v -> body_kept v u.
Proof. unfold body_kept. intuition congruence. Qed.

Definition grows vs vs' : Prop :=
  length vs <= length vs' /\
  forall i, i < length vs -> body_kept (getv vs' i) (getv vs i) /\
    (v_valid (getv vs' i) = true -> v_valid (getv vs i) = true).

Lemma grows_refl vs : grows vs vs.
Proof. split; auto. intros; split; auto. apply body_kept_refl. Qed.
Lemma grows_trans v1 v2 v3 : grows v1 v2 -> grows v2 v3 -> grows v1 v3.
Proof.
  intros [L1 H1] [L2 H2]. split; [lia|]. intros i Hi. destruct (H1 i Hi) as [B1 V1].
  destruct (H2 i) as [B2 V2]; [lia|]. split; auto. eapply body_kept_trans; eauto.
Qed.

Lemma grows_modv i f vs : (forall v, body_kept (f v) v) -> (forall v, v_valid (f v) = true -> v_valid v = true) ->
  grows vs (modv i f vs).
Proof.
  intros Hf Hv. split; [rewrite modv_length; auto|]. intros j Hj. rewrite getv_modv.
  destruct (_ && _); split; auto. apply body_kept_refl.
Qed.
Lemma grows_app vs vs' : grows vs (vs ++ vs').
Proof.
  split; [rewrite app_length; lia|]. intros i Hi. rewrite getv_app1 by auto. split; auto. apply body_kept_refl.
Qed.

Lemma body_with_next n v : body_kept (with_next n v) v. Proof. repeat split. Qed.
Lemma body_with_prev n v : body_kept (with_prev n v) v. Proof. repeat split. Qed.
Lemma body_with_lav n v : body_kept (with_lav n v) v. Proof. repeat split. Qed.
Lemma body_with_valid n v : body_kept (with_valid n v) v. Proof. repeat split. Qed.

Lemma grows_with_next i n vs : grows vs (modv i (with_next n) vs).
Proof. apply grows_modv; auto. apply body_with_next. Qed.
Lemma grows_with_prev i n vs : grows vs (modv i (with_prev n) vs).
Proof. apply grows_modv; auto. apply body_with_prev. Qed.
Lemma grows_with_lav i n vs : grows vs (modv i (with_lav n) vs).
Proof. apply grows_modv; auto. apply body_with_lav. Qed.

Lemma grows_fold_lav ids n vs : grows vs (fold_left (fun vs i => modv i (with_lav n) vs) ids vs).
Proof.
  revert vs. induction ids as [|i ids IH]; intros vs; simpl; [apply grows_refl|].
  eapply grows_trans; [apply grows_with_lav|apply IH].
Qed.

(** ** references in range *)
Definition rngv (n m : nat) (v : @lavertex A) : Prop :=
  v_next v < n /\ v_prev v < n /\ (forall l, v_lav v = Some l -> l < m).

Definition rng s : Prop :=
  (forall i, i < length (s_vs s) -> rngv (length (s_vs s)) (length (s_ls s)) (getv (s_vs s) i)) /\
  (forall l, l < length (s_ls s) -> l_head (getl (s_ls s) l) < length (s_vs s)) /\
  (forall l, In l (s_act s) -> l < length (s_ls s)).

Definition rvs (m : nat) vs : Prop := forall i, i < length vs -> rngv (length vs) m (getv vs i).

Lemma rvs_modv m vs i f : rvs m vs -> (forall v, rngv (length vs) m v -> rngv (length vs) m (f v)) ->
  rvs m (modv i f vs).
Proof.
  intros H Hf j Hj. rewrite modv_length in *. rewrite getv_modv. destruct (_ && _); auto.
Qed.
Lemma rvs_next m vs i n : rvs m vs -> n < length vs -> rvs m (modv i (with_next n) vs).
Proof. intros H Hn. apply rvs_modv; auto. intros v (H1 & H2 & H3). repeat split; auto. Qed.
Lemma rvs_prev m vs i n : rvs m vs -> n < length vs -> rvs m (modv i (with_prev n) vs).
Proof. intros H Hn. apply rvs_modv; auto. intros v (H1 & H2 & H3). repeat split; auto. Qed.
Lemma rvs_lav m vs i l : rvs m vs -> (forall l', l = Some l' -> l' < m) -> rvs m (modv i (with_lav l) vs).
Proof. intros H Hl. apply rvs_modv; auto. intros v (H1 & H2 & H3). repeat split; auto. Qed.

Lemma rvs_app m vs vs' : rvs m vs -> (forall v, In v vs' -> rngv (length vs + length vs') m v) ->
  rvs m (vs ++ vs').
Proof.
  intros H H' i Hi. rewrite app_length in *. unfold getv. destruct (Nat.lt_ge_cases i (length vs)) as [Hlt|Hge].
  - rewrite app_nth1 by auto. change (rngv (length vs + length vs') m (getv vs i)). destruct (H i Hlt) as (H1 & H2 & H3). split; [lia|]. split; [lia|auto].
  - rewrite app_nth2 by auto. apply H'. apply nth_In. lia.
Qed.

Lemma rvs_S m vs : rvs m vs -> rvs (S m) vs.
Proof. intros H i Hi. destruct (H i Hi) as (H1 & H2 & H3). repeat split; auto. intros l Hl. specialize (H3 l Hl). lia. Qed.

Lemma rvs_fold_lav m l ids vs : rvs m vs -> l < m ->
  rvs m (fold_left (fun vs i => modv i (with_lav (Some l)) vs) ids vs).
Proof.
  revert vs. induction ids as [|i ids IH]; intros vs H Hl; simpl; auto.
  apply IH; auto. apply rvs_lav; auto. congruence.
Qed.

Lemma fold_lav_length o ids vs : length (fold_left (fun vs i => modv i (with_lav o) vs) ids vs) = length vs.
Proof. revert vs. induction ids as [|i ids IH]; intros vs; simpl; auto. rewrite IH, modv_length. auto. Qed.

Lemma walk_in_range f vs h cur vis l e : (forall i, i < length vs -> nxt_of vs i < length vs) -> cur < length vs ->
  walk f vs h cur vis = (l, e) -> forall i, In i l -> i < length vs.
Proof.
  intros Hn. revert cur vis l e. induction f as [|f IH]; intros cur vis l e Hc; simpl.
  - intros [= <- <-] i [].
  - destruct (Nat.eqb _ h); [intros [= <- <-] i [<-|[]]; auto|].
    destruct (existsb _ vis); [intros [= <- <-] i [<-|[]]; auto|].
    destruct (walk f vs h (v_next (getv vs cur)) _) as [l' e'] eqn:E. intros [= <- <-] i [<-|Hi]; auto.
    eapply IH; [|exact E|exact Hi]. apply Hn; auto.
Qed.

Lemma lav_iter_range s l : rng s -> l < length (s_ls s) -> forall i, In i (fst (lav_iter s l)) -> i < length (s_vs s).
Proof.
  intros (R1 & R2 & R3) Hl i Hi. unfold lav_iter in Hi.
  destruct (walk _ (s_vs s) _ _ []) as [ids e] eqn:E. simpl in Hi.
  eapply walk_in_range; [|apply (R2 l Hl)|exact E|exact Hi]. intros j Hj. apply R1; auto.
Qed.

Lemma lav_list_range s l ids : rng s -> l < length (s_ls s) -> lav_list s l = Ok ids ->
  forall i, In i ids -> i < length (s_vs s).
Proof.
  intros Hr Hl H i Hi. apply (lav_iter_range Hr Hl). unfold lav_list in H.
  destruct (lav_iter s l) as [ids' [e|]]; [discriminate|]. apply Ok_inj in H. subst. auto.
Qed.

(** ** invalidate *)
Lemma invalidate_grow s v : grows (s_vs s) (s_vs (invalidate s v)).
Proof.
  unfold invalidate. destruct (v_lav (getv (s_vs s) v)); simpl; apply grows_modv; try (intros; discriminate).
  - intros w. eapply body_kept_trans; [apply body_with_lav|apply body_with_valid].
  - intros w. apply body_with_valid.
Qed.

Lemma invalidate_rng s v : rng s -> v < length (s_vs s) -> rng (invalidate s v).
Proof.
  intros (R1 & R2 & R3) Hv. unfold invalidate. destruct (v_lav (getv (s_vs s) v)) as [l0|] eqn:El; unfold rng; simpl.
  - rewrite modv_length, set_at_length. split; [|split; auto].
    + intros i Hi. pose proof (@rvs_modv (length (s_ls s)) (s_vs s) v (fun x => with_lav None (with_valid false x)) R1) as H.
      specialize (H ltac:(intros w (H1 & H2 & H3); repeat split; auto; simpl; congruence) i).
      rewrite modv_length in H. apply H; auto.
    + intros l Hl. destruct (Nat.eq_dec l l0) as [->|Hne].
      * rewrite getl_set_at_eq by auto. simpl. destruct (Nat.eqb _ v); [|apply R2; auto].
        apply R1. apply R2; auto.
      * rewrite getl_set_at by auto. apply R2; auto.
  - rewrite modv_length. split; [|split; auto]. intros i Hi.
    pose proof (@rvs_modv (length (s_ls s)) (s_vs s) v (with_valid false) R1) as H.
    specialize (H ltac:(intros w (H1 & H2 & H3); repeat split; auto) i).
    rewrite modv_length in H. apply H; auto.
Qed.

Lemma invalidate_len s v : length (s_vs (invalidate s v)) = length (s_vs s) /\
  length (s_ls (invalidate s v)) = length (s_ls s) /\ s_orig (invalidate s v) = s_orig s /\ s_act (invalidate s v) = s_act s.
Proof.
  destruct (invalidate_vs s v) as (H1 & _ & _ & _ & _ & _ & H2 & H3 & H4 & _). auto.
Qed.

Lemma invalidate_all_grow s ids : grows (s_vs s) (s_vs (invalidate_all s ids)).
Proof.
  unfold invalidate_all. revert s. induction ids as [|v ids IH]; intros s; simpl; [apply grows_refl|].
  eapply grows_trans; [apply invalidate_grow|apply IH].
Qed.

Lemma invalidate_all_rng s ids : rng s -> (forall i, In i ids -> i < length (s_vs s)) -> rng (invalidate_all s ids).
Proof.
  unfold invalidate_all. revert s. induction ids as [|v ids IH]; intros s Hr Hi; simpl; auto.
  apply IH.
  - apply invalidate_rng; auto. apply Hi. left; auto.
  - intros i Hin. rewrite (proj1 (invalidate_len s v)). apply Hi. right; auto.
Qed.

(** ** from_chain *)
Lemma from_chain_facts s h s' l : from_chain s h = Ok (s', l) ->
  grows (s_vs s) (s_vs s') /\ s_orig s' = s_orig s /\ s_act s' = s_act s /\
  length (s_vs s') = length (s_vs s) /\ l = length (s_ls s) /\ length (s_ls s') = S (length (s_ls s)) /\
  (rng s -> h < length (s_vs s) -> rng s').
Proof.
  unfold from_chain. destruct (lav_list _ _) as [ids|e] eqn:E; [|discriminate]. simpl. intros H. apply Ok_inj in H.
  injection H as <- <-. simpl. split; [apply grows_fold_lav|]. split; auto. split; auto.
  rewrite fold_lav_length, set_at_length, app_length. simpl. split; auto. split; auto. split; [lia|].
  intros (R1 & R2 & R3) Hh. unfold rng. simpl. rewrite fold_lav_length, set_at_length, app_length. simpl.
  replace (length (s_ls s) + 1) with (S (length (s_ls s))) by lia. split; [|split].
  - pose proof (@rvs_fold_lav (S (length (s_ls s))) (length (s_ls s)) ids (s_vs s)) as H.
    specialize (H (rvs_S R1) ltac:(lia)). intros i Hi. specialize (H i). rewrite fold_lav_length in H. auto.
  - intros l Hl. destruct (Nat.eq_dec l (length (s_ls s))) as [->|Hne].
    + rewrite getl_set_at_eq by (rewrite app_length; simpl; lia). auto.
    + rewrite getl_set_at by auto. rewrite getl_app1 by lia. apply R2. lia.
  - intros l Hl. specialize (R3 l Hl). lia.
Qed.

Lemma remove_lav_facts s l s' : remove_lav s l = Ok s' ->
  s_vs s' = s_vs s /\ s_ls s' = s_ls s /\ s_orig s' = s_orig s /\ (forall x, In x (s_act s') -> In x (s_act s)) /\
  (rng s -> rng s') /\ l <> None.
Proof.
  unfold remove_lav. destruct l as [l|]; [|discriminate].
  destruct (py_remove Nat.eqb l (s_act s)) as [a|e] eqn:E; [|discriminate]. simpl. intros H. apply Ok_inj in H. subst s'.
  simpl. assert (Hin : forall x, In x a -> In x (s_act s)).
  { revert a E. induction (s_act s) as [|y t IH]; simpl; intros a E; [discriminate|].
    destruct (Nat.eqb y l); [apply Ok_inj in E; subst; auto|].
    destruct (py_remove Nat.eqb l t) as [t'|]; [|discriminate]. simpl in E. apply Ok_inj in E. subst a.
    intros x [<-|Hx]; auto. right. eapply IH; eauto. }
  repeat split; auto; try discriminate; destruct H as (R1 & R2 & R3); try apply R1; auto.
Qed.

(** ** what handling an event does to the stores *)

(** an event only refers to vertices of the store *)
Definition ev_rng s (e : event) : Prop :=
  match e with
  | EdgeEv _ _ va vb => va < length (s_vs s) /\ vb < length (s_vs s)
  | SplitEv _ _ v _ => v < length (s_vs s)
  | DormerEv _ _ vp _ vn _ _ va vb =>
    vp < length (s_vs s) /\ vn < length (s_vs s) /\ va < length (s_vs s) /\ vb < length (s_vs s)
  end.

Lemma ev_rng_mono s s' e : length (s_vs s) <= length (s_vs s') -> ev_rng s e -> ev_rng s' e.
Proof. intros H. destruct e; simpl; lia. Qed.

Lemma next_event_rng s id o e : rng s -> id < length (s_vs s) -> next_event s id = Ok o -> o = Some e -> ev_rng s e.
Proof.
  intros (R1 & _) Hid Hn ->. unfold next_event in Hn.
  destruct (candidates s id) as [evs|x] eqn:E; [|discriminate]. simpl in Hn. apply Ok_inj in Hn.
  assert (Hl : v_reflex (getv (s_vs s) id) = true -> v_lav (getv (s_vs s) id) <> None).
  { intros Hr Hnone. unfold candidates in E. rewrite Hr, Hnone in E. discriminate. }
  destruct (candidates_spec Hl) as (evs' & He & Hin). rewrite E in He. apply Ok_inj in He. subst evs'.
  pose proof (nearest_in (v_point (getv (s_vs s) id)) evs) as Hne. rewrite Hn in Hne. apply Hin in Hne.
  destruct (R1 id Hid) as (N1 & N2 & _).
  destruct Hne as [p v Hp|p v Hp|oe e' Hr Ho He']; simpl; auto.
  destruct (split_candidate_shape He') as (b & -> & _). auto.
Qed.

Lemma next_event_cand s id e : next_event s id = Ok (Some e) -> candidate s id e.
Proof.
  unfold next_event. destruct (candidates s id) as [evs|x] eqn:E; [|discriminate]. simpl. intros Hn. apply Ok_inj in Hn.
  assert (Hl : v_reflex (getv (s_vs s) id) = true -> v_lav (getv (s_vs s) id) <> None).
  { intros Hr Hnone. unfold candidates in E. rewrite Hr, Hnone in E. discriminate. }
  destruct (candidates_spec Hl) as (evs' & He & Hin). rewrite E in He. apply Ok_inj in He. subst evs'.
  pose proof (nearest_in (v_point (getv (s_vs s) id)) evs) as Hne. rewrite Hn in Hne. apply Hin in Hne. auto.
Qed.

Lemma next_events_in s ids evs : next_events s ids = Ok evs ->
  forall e, In e evs -> exists id, In id ids /\ next_event s id = Ok (Some e).
Proof.
  revert evs. induction ids as [|i ids IH]; intros evs; simpl; intros H.
  - apply Ok_inj in H. subst. intros e [].
  - destruct (next_event s i) as [o|x] eqn:E; [|discriminate]. simpl in H.
    destruct (next_events s ids) as [es|x] eqn:E2; [|discriminate]. simpl in H. apply Ok_inj in H. subst evs.
    intros e He. apply in_app_iff in He as [He|He].
    + destruct o as [e'|]; simpl in He; [|tauto]. destruct He as [<-|[]]. eauto.
    + destruct (IH es eq_refl e He) as (id & Hi & Hn). eauto.
Qed.

Lemma is_valid_rng s v : is_valid s v = true -> v < length (s_vs s).
Proof.
  unfold is_valid, getv. destruct (Nat.lt_ge_cases v (length (s_vs s))) as [H|H]; auto.
  rewrite nth_overflow by auto. discriminate.
Qed.

(** vertices that handling [e] in state [s] may create *)
Definition created s (e : event) (w : @lavertex A) : Prop :=
  match e with
  | EdgeEv _ ip va vb =>
    let a := getv (s_vs s) va in let b := getv (s_vs s) vb in
    body_kept w (mk_vertex 0 ip (v_eprev a) (v_enext b)
                   (Some (vnormalized (lv (v_bis b)), vnormalized (lv (v_bis a)))) false)
  | SplitEv _ ip v opp =>
    let vv := getv (s_vs s) v in
    body_kept w (mk_vertex 0 ip (v_eprev vv) opp None true) \/
    body_kept w (mk_vertex 0 ip opp (v_enext vv) None true)
  | DormerEv _ _ _ _ _ _ _ _ _ => False
  end.

Definition created_ok s (e : event) s' : Prop :=
  forall i, length (s_vs s) <= i -> i < length (s_vs s') -> created s e (getv (s_vs s') i).

Lemma mk_vertex_kept i j p e1 e2 d b : body_kept (@mk_vertex A i p e1 e2 d b) (mk_vertex j p e1 e2 d b).
Proof. unfold mk_vertex. destruct d as [[d0 d1]|]; repeat split. Qed.

Lemma mk_vertex_rngv n m i p e1 e2 d b : i < n -> rngv n m (@mk_vertex A i p e1 e2 d b).
Proof. intros H. unfold mk_vertex. destruct d as [[d0 d1]|]; repeat split; auto; simpl; congruence. Qed.

(** the state parts of a handler's result *)
Definition handled s (e : event) s' : Prop :=
  grows (s_vs s) (s_vs s') /\ s_orig s' = s_orig s /\ created_ok s e s' /\ rng s'.

Lemma created_grows s e vs0 s' :
  (forall i, length (s_vs s) <= i -> i < length vs0 -> created s e (getv vs0 i)) ->
  grows vs0 (s_vs s') -> length (s_vs s') = length vs0 -> created_ok s e s'.
Proof.
  intros H [_ Hg] Hl i H1 H2. rewrite Hl in H2. destruct (Hg i H2) as [Hb _].
  specialize (H i H1 H2). destruct e; simpl in *; auto.
  - eapply body_kept_trans; eauto.
  - destruct H; [left|right]; eapply body_kept_trans; eauto.
Qed.

Lemma unify_grow s l va vb ip s' nv d : rng s -> va < length (s_vs s) -> vb < length (s_vs s) -> l < length (s_ls s) ->
  unify s l va vb ip = (s', nv) ->
  handled s (EdgeEv d ip va vb) s' /\ s_act s' = s_act s /\ nv < length (s_vs s') /\ length (s_ls s') = length (s_ls s).
Proof.
  intros Hrng Ha Hb Hl. unfold unify. cbv zeta.
  set (r := with_lav (Some l) _). set (vs0 := s_vs s ++ [r]).
  set (id := length (s_vs s)).
  set (vs1 := modv (v_prev (getv vs0 va)) (with_next id) vs0).
  set (vs2 := modv (v_next (getv vs1 vb)) (with_prev id) vs1).
  set (vs3 := modv id (with_prev (v_prev (getv vs2 va))) vs2).
  set (vs4 := modv id (with_next (v_next (getv vs3 vb))) vs3).
  set (ls0 := set_at l _ (s_ls s)).
  set (s1 := SLAV vs4 ls0 (s_act s) (s_orig s)).
  intros [= <- <-]. unfold handled. simpl.
  assert (L0 : length vs0 = S id) by (unfold vs0; rewrite app_length; simpl; unfold id; lia).
  assert (L4 : length vs4 = S id) by (unfold vs4, vs3, vs2, vs1; rewrite !modv_length; auto).
  assert (L3 : length vs3 = S id) by (unfold vs3, vs2, vs1; rewrite !modv_length; auto).
  assert (L2 : length vs2 = S id) by (unfold vs2, vs1; rewrite !modv_length; auto).
  assert (L1 : length vs1 = S id) by (unfold vs1; rewrite !modv_length; auto).
  assert (G04 : grows vs0 vs4).
  { eapply grows_trans; [apply grows_with_next|]. eapply grows_trans; [apply grows_with_prev|].
    eapply grows_trans; [apply grows_with_prev|]. apply grows_with_next. }
  assert (G4 : grows (s_vs s) vs4) by (eapply grows_trans; [apply grows_app|exact G04]).
  set (s2 := invalidate (invalidate s1 va) vb).
  assert (Gi : grows vs4 (s_vs s2)).
  { unfold s2. eapply grows_trans; [|apply invalidate_grow]. exact (invalidate_grow s1 va). }
  assert (Li : length (s_vs s2) = length vs4).
  { unfold s2. rewrite (proj1 (invalidate_len _ _)), (proj1 (invalidate_len _ _)). reflexivity. }
  assert (Lls : length (s_ls s2) = length (s_ls s)).
  { unfold s2. rewrite (proj1 (proj2 (invalidate_len _ _))), (proj1 (proj2 (invalidate_len _ _))). simpl. apply set_at_length. }
  assert (Ho : s_orig s2 = s_orig s /\ s_act s2 = s_act s).
  { unfold s2. destruct (invalidate_len (invalidate s1 va) vb) as (_ & _ & -> & ->).
    destruct (invalidate_len s1 va) as (_ & _ & -> & ->). auto. }
  pose proof Hrng as (R1 & R2 & R3).
  assert (Hr1 : rng s1).
  { assert (Q0 : rvs (length (s_ls s)) vs0).
    { apply rvs_app; auto. intros v [<-|[]]. simpl. destruct (@mk_vertex_rngv (id + 1) (length (s_ls s)) id ip
        (v_eprev (getv (s_vs s) va)) (v_enext (getv (s_vs s) vb))
        (Some (vnormalized (lv (v_bis (getv (s_vs s) vb))), vnormalized (lv (v_bis (getv (s_vs s) va))))) false) as (M1 & M2 & _); [lia|].
      repeat split; auto. intros l' [= <-]. auto. }
    assert (Q1 : rvs (length (s_ls s)) vs1) by (apply rvs_next; auto; lia).
    assert (Q2 : rvs (length (s_ls s)) vs2) by (apply rvs_prev; auto; lia).
    assert (Q3 : rvs (length (s_ls s)) vs3).
    { apply rvs_prev; auto. apply Q2. rewrite L2. unfold id. lia. }
    assert (Q4 : rvs (length (s_ls s)) vs4).
    { apply rvs_next; auto. apply Q3. rewrite L3. unfold id. lia. }
    split; [|split]; simpl.
    - intros i Hi. unfold ls0. rewrite set_at_length. apply Q4; auto.
    - unfold ls0. rewrite set_at_length. intros l' Hl'. rewrite L4. destruct (Nat.eq_dec l' l) as [->|Hne].
      + rewrite getl_set_at_eq by auto. simpl. destruct (_ || _); [lia|]. specialize (R2 l Hl'). unfold id. lia.
      + rewrite getl_set_at by auto. specialize (R2 l' Hl'). unfold id. lia.
    - intros l' Hl'. unfold ls0. rewrite set_at_length. auto. }
  assert (Hr2 : rng s2).
  { apply invalidate_rng; [apply invalidate_rng; auto|].
    - simpl. rewrite L4. unfold id. lia.
    - rewrite (proj1 (invalidate_len _ _)). simpl. rewrite L4. unfold id. lia. }
  destruct Ho as [Ho1 Ho2].
  split; [|split; [auto|split; [rewrite Li, L4; auto|rewrite set_at_length; auto]]].
  split; [eapply grows_trans; eauto|]. split; [auto|]. split.
  - apply (@created_grows s _ vs0).
    + intros i Hi Hlt. assert (i = id) by (unfold id in *; lia). subst i. simpl.
      replace (getv vs0 id) with r.
      2: { unfold getv, vs0, id. rewrite app_nth2 by lia. rewrite Nat.sub_diag. reflexivity. }
      eapply body_kept_trans; [apply body_with_lav|apply mk_vertex_kept].
    + simpl. eapply grows_trans; [exact G04|exact Gi].
    + simpl. rewrite Li, L4, L0. auto.
  - destruct Hr2 as (T1 & T2 & T3). split; [|split]; simpl.
    + rewrite set_at_length. exact T1.
    + rewrite set_at_length. intros l' Hl'. destruct (Nat.eq_dec l' l) as [->|Hne].
      * rewrite getl_set_at_eq by auto. simpl. auto.
      * rewrite getl_set_at by auto. auto.
    + rewrite set_at_length. auto.
Qed.

Lemma opt_list_in T (o : option T) x : In x (opt_list o) <-> o = Some x.
Proof. destruct o; simpl; split; intros H; try (destruct H as [<-|[]]); try congruence; try tauto. left; congruence. Qed.

Lemma handle_edge_grow s d ip va vb s' arcs evs : rng s -> va < length (s_vs s) -> vb < length (s_vs s) ->
  handle_edge_event s d ip va vb = Ok (s', arcs, evs) ->
  handled s (EdgeEv d ip va vb) s' /\
  (exists ids, arcs = [Subtree ip d (map (fun i => v_point (getv (s_vs s) i)) ids)] /\
               forall i, In i ids -> i < length (s_vs s)) /\
  (forall e, In e evs -> exists s0 id, rng s0 /\ s_orig s0 = s_orig s /\ s_vs s0 = s_vs s' /\ id < length (s_vs s') /\
     next_event s0 id = Ok (Some e)).
Proof.
  intros Hr Ha Hb. unfold handle_edge_event. pose proof Hr as (R1 & R2 & R3).
  destruct (Nat.eqb _ _).
  - destruct (remove_lav s (v_lav (getv (s_vs s) va))) as [s1|x] eqn:E1; [|discriminate]. simpl.
    destruct (v_lav (getv (s_vs s) va)) as [l|] eqn:El; [|discriminate]. simpl.
    destruct (lav_list s1 l) as [ids|x] eqn:E2; [|discriminate]. simpl. intros H. apply Ok_inj, triple_inj in H.
    destruct H as (<- & <- & <-). destruct (remove_lav_facts E1) as (F1 & F2 & F3 & F4 & F5 & _).
    assert (Hin : forall i, In i ids -> i < length (s_vs s)).
    { rewrite <- F1. eapply lav_list_range; eauto. rewrite F2. destruct (R1 va Ha) as (_ & _ & H3). auto. }
    split; [|split; [|intros e []]].
    + split; [rewrite <- F1; apply invalidate_all_grow|].
      destruct (@invalidate_all_spec A [] s1 ids) as (J1 & _ & _ & J4 & _). split; [congruence|].
      split; [intros i H1 H2; rewrite J1, F1 in H2; lia|].
      apply invalidate_all_rng; auto. rewrite F1. auto.
    + exists ids. split; auto. rewrite F1. auto.
  - destruct (v_lav (getv (s_vs s) va)) as [l|] eqn:El; [|discriminate]. cbn [of_option bind].
    destruct (unify s l va vb ip) as [s1 nv] eqn:Eu.
    destruct (@unify_grow s l va vb ip s1 nv d) as (U1 & U2 & U3 & U4); auto.
    { destruct (R1 va Ha) as (_ & _ & H3). auto. }
    set (s2 := if _ || _ then _ else _).
    destruct (next_event s2 nv) as [o|x] eqn:En; [|discriminate]. cbn [bind]. intros H. apply Ok_inj, triple_inj in H.
    destruct H as (<- & <- & <-).
    assert (Hlt : l < length (s_ls s)) by (destruct (R1 va Ha) as (_ & _ & H3); auto).
    destruct U1 as (G1 & G2 & G3 & G4).
    assert (S2 : s_vs s2 = s_vs s1 /\ s_orig s2 = s_orig s1 /\ rng s2).
    { unfold s2. destruct (_ || _); simpl; auto. split; auto. split; auto.
      destruct G4 as (T1 & T2 & T3). split; [|split]; simpl.
      - rewrite set_at_length. exact T1.
      - rewrite set_at_length. intros l' Hl'. destruct (Nat.eq_dec l' l) as [->|Hne].
        + rewrite getl_set_at_eq by lia. auto.
        + rewrite getl_set_at by auto. auto.
      - rewrite set_at_length. auto. }
    destruct S2 as (S21 & S22 & S23).
    split; [|split].
    + split; [rewrite S21; auto|]. split; [congruence|]. split; auto.
      intros i H1 H2. rewrite S21 in *. auto.
    + exists [va; vb]. rewrite S21. split; [|intros i [<-|[<-|[]]]; auto].
      simpl. destruct G1 as [_ G1]. destruct (G1 va Ha) as [(P1 & _) _]. destruct (G1 vb Hb) as [(P2 & _) _].
      rewrite P1, P2. auto.
    + intros e He. apply opt_list_in in He. subst o. exists s2, nv. split; auto. split; [congruence|].
      split; auto. rewrite S21. auto.
Qed.

(** *** split events *)
Lemma settle_facts l s verts snks s' verts' snks' : rng s -> l < length (s_ls s) ->
  (forall i, In i verts -> i < length (s_vs s)) ->
  settle_lav (Ok (s, verts, snks)) l = Ok (s', verts', snks') ->
  grows (s_vs s) (s_vs s') /\ s_orig s' = s_orig s /\ rng s' /\ length (s_vs s') = length (s_vs s) /\
  length (s_ls s') = length (s_ls s) /\
  (forall i, In i verts' -> i < length (s_vs s')) /\
  (exists ids, snks' = snks ++ map (fun i => v_point (getv (s_vs s) i)) ids /\ forall i, In i ids -> i < length (s_vs s)).
Proof.
  intros Hr Hl Hv. pose proof Hr as (R1 & R2 & R3). unfold settle_lav. simpl bind. cbv zeta.
  destruct (2 <? l_len (getl (s_ls s) l))%Z.
  - intros H. apply Ok_inj, triple_inj in H. destruct H as (<- & <- & <-). simpl. split; [apply grows_refl|].
    split; auto. split.
    { split; [exact R1|]. split; [exact R2|]. intros l' Hl'. simpl in Hl'. apply in_app_iff in Hl' as [Hl'|[<-|[]]]; auto. }
    split; auto. split; auto. split.
    { intros i Hi. apply in_app_iff in Hi as [Hi|[<-|[]]]; auto. }
    exists []. rewrite app_nil_r. split; auto. intros i [].
  - destruct (lav_list s l) as [ids|x] eqn:E; [|discriminate]. simpl. intros H. apply Ok_inj, triple_inj in H.
    destruct H as (<- & <- & <-). destruct (@invalidate_all_spec A [] s ids) as (J1 & J2 & _ & J4 & _).
    split; [apply invalidate_all_grow|]. split; auto.
    split; [apply invalidate_all_rng; auto; eapply lav_list_range; eauto|]. split; auto. split; auto.
    split; [intros i Hi; rewrite J1; auto|].
    exists [v_next (getv (s_vs s) (l_head (getl (s_ls s) l)))]. split; auto.
    intros i [<-|[]]. apply R1. apply R2. auto.
Qed.

Lemma settle_all_err ls x : fold_left settle_lav ls (Err x) = @Err (slav * list nat * list (vec A)) x.
Proof. induction ls as [|a ls IH]; auto. Qed.

Lemma settle_all_facts ls s verts snks s' verts' snks' vs0 : rng s -> (forall l, In l ls -> l < length (s_ls s)) ->
  (forall i, In i verts -> i < length (s_vs s)) -> grows vs0 (s_vs s) -> length (s_vs s) = length vs0 ->
  fold_left settle_lav ls (Ok (s, verts, snks)) = Ok (s', verts', snks') ->
  grows (s_vs s) (s_vs s') /\ s_orig s' = s_orig s /\ rng s' /\ length (s_vs s') = length (s_vs s) /\
  (forall i, In i verts' -> i < length (s_vs s')) /\
  (exists ids, snks' = snks ++ map (fun i => v_point (getv vs0 i)) ids /\ forall i, In i ids -> i < length vs0).
Proof.
  revert s verts snks. induction ls as [|l ls IH]; intros s verts snks Hr Hl Hv Hg0 Hl0; cbn [fold_left].
  - intros H. apply Ok_inj, triple_inj in H. destruct H as (<- & <- & <-). split; [apply grows_refl|].
    do 4 (split; auto). exists []. rewrite app_nil_r. split; auto. intros i [].
  - destruct (settle_lav (Ok (s, verts, snks)) l) as [[[s1 v1] k1]|x] eqn:E.
    2: { rewrite settle_all_err. discriminate. }
    destruct (@settle_facts l s verts snks s1 v1 k1) as (S1 & S2 & S3 & S4 & S5 & S6 & ids & S7 & S8); auto.
    { apply Hl; left; auto. }
    intros H. destruct (IH s1 v1 k1) as (T1 & T2 & T3 & T4 & T5 & ids' & T6 & T7); auto.
    { intros l' Hl'. rewrite S5. apply Hl; right; auto. }
    { eapply grows_trans; eauto. }
    { lia. }
    split; [eapply grows_trans; eauto|]. split; [congruence|]. split; auto. split; [lia|]. split; auto.
    exists (ids ++ ids'). rewrite T6, S7, map_app, <- app_assoc. split.
    + f_equal. f_equal. apply map_ext_in. intros i Hi. destruct Hg0 as [_ Hg0].
      specialize (S8 i Hi). rewrite Hl0 in S8. destruct (Hg0 i S8) as [(P & _) _]. auto.
    + intros i Hi. apply in_app_iff in Hi as [Hi|Hi]; auto. specialize (S8 i Hi). lia.
Qed.

Lemma find_split_in vs ip opp ids x y : find_split vs ip opp ids = Some (x, y) ->
  exists v, In v ids /\ ((x = v /\ y = v_prev (getv vs v) /\ veq (enorm opp) (enorm (v_eprev (getv vs v))) = true /\
                          veq (ep1 opp) (ep1 (v_eprev (getv vs v))) = true) \/
                         (x = v_next (getv vs v) /\ y = v /\ veq (enorm opp) (enorm (v_enext (getv vs v))) = true /\
                          veq (ep1 opp) (ep1 (v_enext (getv vs v))) = true)).
Proof.
  induction ids as [|v ids IH]; simpl; [discriminate|].
  destruct (split_here vs ip opp v) as [[x' y']|] eqn:E.
  - intros [= -> ->]. exists v. split; auto. unfold split_here in E.
    destruct (veq (enorm opp) (enorm (v_eprev (getv vs v))) && veq (ep1 opp) (ep1 (v_eprev (getv vs v)))) eqn:E1.
    + left. destruct (nleb _ _ && ngeb _ _); [|discriminate]. injection E as <- <-.
      apply andb_true_iff in E1. tauto.
    + destruct (veq (enorm opp) (enorm (v_enext (getv vs v))) && veq (ep1 opp) (ep1 (v_enext (getv vs v)))) eqn:E2;
        [|discriminate].
      right. destruct (nleb _ _ && ngeb _ _); [|discriminate]. injection E as <- <-.
      apply andb_true_iff in E2. tauto.
  - intros H. destruct (IH H) as (w & Hw & H'). eauto.
Qed.

Lemma find_split_lavs_in s ip opp ls x y : find_split_lavs s ip opp ls = Ok (Some (x, y)) ->
  exists l v, In l ls /\ In v (fst (lav_iter s l)) /\
    ((x = v /\ y = v_prev (getv (s_vs s) v) /\ veq (enorm opp) (enorm (v_eprev (getv (s_vs s) v))) = true /\
      veq (ep1 opp) (ep1 (v_eprev (getv (s_vs s) v))) = true) \/
     (x = v_next (getv (s_vs s) v) /\ y = v /\ veq (enorm opp) (enorm (v_enext (getv (s_vs s) v))) = true /\
      veq (ep1 opp) (ep1 (v_enext (getv (s_vs s) v))) = true)).
Proof.
  induction ls as [|l ls IH]; simpl; [discriminate|].
  destruct (lav_iter s l) as [ids e] eqn:E. destruct (find_split (s_vs s) ip opp ids) as [[x' y']|] eqn:Ef.
  - intros H. apply Ok_inj in H. injection H as -> ->. destruct (find_split_in Ef) as (v & Hv & H).
    exists l, v. rewrite E. auto.
  - destruct e; [discriminate|]. intros H. destruct (IH H) as (l' & v & H1 & H2 & H3). eauto 6.
Qed.

Lemma find_split_lavs_rng s ip opp ls x y : rng s -> (forall l, In l ls -> l < length (s_ls s)) ->
  find_split_lavs s ip opp ls = Ok (Some (x, y)) -> x < length (s_vs s) /\ y < length (s_vs s).
Proof.
  intros Hr Hl H. destruct (find_split_lavs_in H) as (l & v & H1 & H2 & H3).
  pose proof (lav_iter_range Hr (Hl l H1) H2) as Hv. destruct Hr as (R1 & _). destruct (R1 v Hv) as (N1 & N2 & _).
  destruct H3 as [(-> & -> & _)|(-> & -> & _)]; auto.
Qed.

Lemma rng_vs s vs : rng s -> length (s_vs s) <= length vs -> rvs (length (s_ls s)) vs -> rng (with_vs vs s).
Proof.
  intros (R1 & R2 & R3) Hl H. split; [exact H|]. split; auto. simpl. intros l Hl'. specialize (R2 l Hl'). lia.
Qed.

Lemma handle_split_grow s d ip v opp s' arcs evs : rng s -> v < length (s_vs s) ->
  handle_split_event s d ip v opp = Ok (s', arcs, evs) ->
  handled s (SplitEv d ip v opp) s' /\
  (arcs = [] /\ evs = [] /\ s' = s \/
   exists ids, arcs = [Subtree ip d (map (fun i => v_point (getv (s_vs s') i)) ids)] /\
               forall i, In i ids -> i < length (s_vs s')) /\
  (forall e, In e evs -> exists s0 id, rng s0 /\ s_orig s0 = s_orig s /\ grows (s_vs s0) (s_vs s') /\
     length (s_vs s0) = length (s_vs s') /\ id < length (s_vs s') /\ next_event s0 id = Ok (Some e) /\
     (forall i, nxt_of (s_vs s0) i = nxt_of (s_vs s') i) /\ (forall i, prv_of (s_vs s0) i = prv_of (s_vs s') i)).
Proof.
  intros Hr Hv. unfold handle_split_event. pose proof Hr as (R1 & R2 & R3).
  destruct (find_split_lavs s ip opp (s_act s)) as [[[x y]|]|ex] eqn:Ef; [| |discriminate]; cbn [bind].
  2: { intros H. apply Ok_inj, triple_inj in H. destruct H as (<- & <- & <-). split; [|split; [auto|intros e []]].
       split; [apply grows_refl|]. split; auto. split; auto. intros i H1 H2; lia. }
  destruct (@find_split_lavs_rng s ip opp (s_act s) x y) as [Hx Hy]; auto.
  cbv zeta. set (n1 := length (s_vs s)).
  set (v1 := mk_vertex n1 ip (v_eprev (getv (s_vs s) v)) opp None true).
  set (v2 := mk_vertex (S n1) ip opp (v_enext (getv (s_vs s) v)) None true).
  set (vs0 := s_vs s ++ [v1; v2]).
  set (vs1 := modv n1 (with_prev (v_prev (getv vs0 v))) vs0).
  set (vs2 := modv n1 (with_next x) vs1).
  set (vs3 := modv (v_prev (getv vs2 v)) (with_next n1) vs2).
  set (vs4 := modv x (with_prev n1) vs3).
  set (vs5 := modv (S n1) (with_prev y) vs4).
  set (vs6 := modv (S n1) (with_next (v_next (getv vs5 v))) vs5).
  set (vs7 := modv (v_next (getv vs6 v)) (with_prev (S n1)) vs6).
  set (vs8 := modv y (with_next (S n1)) vs7).
  assert (L0 : length vs0 = S (S n1)) by (unfold vs0; rewrite app_length; simpl; unfold n1; lia).
  assert (L1 : length vs1 = S (S n1)) by (unfold vs1; rewrite modv_length; auto).
  assert (L2 : length vs2 = S (S n1)) by (unfold vs2; rewrite modv_length; auto).
  assert (L3 : length vs3 = S (S n1)) by (unfold vs3; rewrite modv_length; auto).
  assert (L4 : length vs4 = S (S n1)) by (unfold vs4; rewrite modv_length; auto).
  assert (L5 : length vs5 = S (S n1)) by (unfold vs5; rewrite modv_length; auto).
  assert (L6 : length vs6 = S (S n1)) by (unfold vs6; rewrite modv_length; auto).
  assert (L7 : length vs7 = S (S n1)) by (unfold vs7; rewrite modv_length; auto).
  assert (L8 : length vs8 = S (S n1)) by (unfold vs8; rewrite modv_length; auto).
  assert (Gw : grows vs0 vs8).
  { eapply grows_trans; [apply grows_with_prev|]. eapply grows_trans; [apply grows_with_next|].
    eapply grows_trans; [apply grows_with_next|]. eapply grows_trans; [apply grows_with_prev|].
    eapply grows_trans; [apply grows_with_prev|]. eapply grows_trans; [apply grows_with_next|].
    eapply grows_trans; [apply grows_with_prev|]. apply grows_with_next. }
  set (m := length (s_ls s)).
  assert (Q0 : rvs m vs0).
  { apply rvs_app; auto. simpl. fold n1. intros w [<-|[<-|[]]]; apply mk_vertex_rngv; lia. }
  assert (Hvl : v < S (S n1)) by (fold n1 in Hv; lia).
  assert (Q1 : rvs m vs1) by (apply rvs_prev; auto; apply Q0; lia).
  assert (Q2 : rvs m vs2) by (apply rvs_next; auto; rewrite L1; fold n1 in Hx; lia).
  assert (Q3 : rvs m vs3) by (apply rvs_next; auto; lia).
  assert (Q4 : rvs m vs4) by (apply rvs_prev; auto; lia).
  assert (Q5 : rvs m vs5) by (apply rvs_prev; auto; rewrite L4; fold n1 in Hy; lia).
  assert (Q6 : rvs m vs6) by (apply rvs_next; auto; apply Q5; lia).
  assert (Q7 : rvs m vs7) by (apply rvs_prev; auto; lia).
  assert (Q8 : rvs m vs8) by (apply rvs_next; auto; lia).
  clearbody vs8. clear L1 L2 L3 L4 L5 L6 L7 Q1 Q2 Q3 Q4 Q5 Q6 Q7 vs1 vs2 vs3 vs4 vs5 vs6 vs7.
  set (s1 := with_vs vs8 s).
  assert (Hr1 : rng s1) by (apply rng_vs; auto; fold n1; lia).
  destruct (remove_lav s1 (v_lav (getv (s_vs s) v))) as [s2|ex] eqn:E2; [|discriminate]. cbn [bind].
  destruct (remove_lav_facts E2) as (F1 & F2 & F3 & F4 & F5 & _).
  match goal with |- bind ?p _ = _ -> _ => set (pick := p) end.
  assert (Hp : forall s3 new, pick = Ok (s3, new) -> rng s3 /\ grows vs8 (s_vs s3) /\ length (s_vs s3) = length vs8 /\
     s_orig s3 = s_orig s /\ forall l, In l new -> l < length (s_ls s3)).
  { intros s3 new. unfold pick. clear pick. match goal with |- (if ?c then _ else _) = _ -> _ => destruct c end.
    - destruct (remove_lav s2 (v_lav (getv vs8 x))) as [s2'|ex] eqn:E3; [|discriminate]. cbn [bind].
      destruct (remove_lav_facts E3) as (K1 & K2 & K3 & K4 & K5 & _).
      destruct (from_chain s2' n1) as [[s4 l1]|ex] eqn:E4; [|discriminate]. cbn [bind].
      intros H. apply Ok_inj in H. injection H as <- <-.
      destruct (from_chain_facts E4) as (M1 & M2 & M3 & M4 & M5 & M6 & M7).
      assert (Ev : s_vs s2' = vs8) by (rewrite K1, F1; reflexivity). rewrite Ev in *.
      split; [apply M7; [auto | lia]|]. split; auto. split; auto. split; [rewrite M2, K3, F3; reflexivity|].
      intros l [<-|[]]. lia.
    - destruct (from_chain s2 n1) as [[s4 l1]|ex] eqn:E4; [|discriminate]. cbn [bind].
      destruct (from_chain_facts E4) as (M1 & M2 & M3 & M4 & M5 & M6 & M7).
      destruct (from_chain s4 (S n1)) as [[s5 l2]|ex] eqn:E5; [|discriminate]. cbn [bind].
      destruct (from_chain_facts E5) as (N1 & N2 & N3 & N4 & N5 & N6 & N7).
      intros H. apply Ok_inj in H. injection H as <- <-.
      assert (Ev : s_vs s2 = vs8) by (rewrite F1; reflexivity). rewrite Ev in *.
      split; [apply N7; [apply M7; [auto|lia]|lia]|]. split; [eapply grows_trans; eauto|]. split; [congruence|].
      split; [rewrite N2, M2, F3; reflexivity|].
      intros l [<-|[<-|[]]]; lia. }
  destruct pick as [[s3 new]|ex]; [|discriminate]. cbn [bind].
  destruct (Hp s3 new eq_refl) as (P1 & P2 & P3 & P4 & P5).
  destruct (fold_left settle_lav new _) as [[[s4 verts] snks]|ex] eqn:Es; [|discriminate]. cbn [bind].
  destruct (@settle_all_facts new s3 [] [v_point (getv (s_vs s) v)] s4 verts snks (s_vs s3)) as
    (T1 & T2 & T3 & T4 & T5 & ids & T6 & T7); auto. { intros i []. } { apply grows_refl. }
  destruct (next_events s4 verts) as [es|ex] eqn:Ee; [|discriminate]. cbn [bind].
  intros H. apply Ok_inj, triple_inj in H. destruct H as (<- & <- & <-).
  destruct (invalidate_len s4 v) as (I1 & I2 & I3 & I4).
  assert (G8 : grows vs8 (s_vs (invalidate s4 v))).
  { eapply grows_trans; [exact P2|]. eapply grows_trans; [exact T1|apply invalidate_grow]. }
  assert (Lf : length (s_vs (invalidate s4 v)) = length vs8) by lia.
  split; [|split].
  - split; [eapply grows_trans; [apply grows_app|eapply grows_trans; [exact Gw|exact G8]]|].
    split; [congruence|]. split.
    + apply (@created_grows s _ vs0).
      * intros i H1 H2. rewrite L0 in H2. fold n1 in H1. simpl.
        assert (Hi : i = n1 \/ i = S n1) by lia. destruct Hi as [-> | ->].
        -- left. replace (getv vs0 n1) with v1; [apply mk_vertex_kept|].
           unfold getv, vs0, n1. rewrite app_nth2 by lia. rewrite Nat.sub_diag. reflexivity.
        -- right. replace (getv vs0 (S n1)) with v2; [apply mk_vertex_kept|].
           unfold getv, vs0, n1. rewrite app_nth2 by lia. replace (S (length (s_vs s)) - length (s_vs s)) with 1 by lia. reflexivity.
      * eapply grows_trans; [exact Gw|exact G8].
      * lia.
    + apply invalidate_rng; auto. lia.
  - right. exists (v :: ids). split.
    + rewrite T6. simpl. f_equal. f_equal. f_equal.
      * assert (Gs : grows (s_vs s) (s_vs (invalidate s4 v))) by (eapply grows_trans; [apply grows_app|eapply grows_trans; [exact Gw|exact G8]]).
        destruct Gs as [_ Gs]. destruct (Gs v Hv) as [(Pp & _) _]. auto.
      * apply map_ext_in. intros i Hi. specialize (T7 i Hi).
        assert (Gs : grows (s_vs s3) (s_vs (invalidate s4 v))) by (eapply grows_trans; [exact T1|apply invalidate_grow]).
        destruct Gs as [_ Gs]. destruct (Gs i T7) as [(Pp & _) _]. auto.
    + intros i [<-|Hi]; [lia|]. specialize (T7 i Hi). lia.
  - intros e He. destruct (next_events_in Ee He) as (id & Hid & Hn). exists s4, id. split; auto. split; [congruence|].
    split; [apply invalidate_grow|]. split; [lia|]. split; [specialize (T5 id Hid); lia|].
    destruct (invalidate_vs s4 v) as (_ & _ & N1 & N2 & _). split; auto.
Qed.

(** *** dormer events *)
Lemma handle_dormer_grow s d dp vp dn vn de ipe va vb s' arcs evs : rng s -> ev_rng s (DormerEv d dp vp dn vn de ipe va vb) ->
  handle_dormer_event s dp vp dn vn de ipe va vb = Ok (s', arcs, evs) ->
  handled s (DormerEv d dp vp dn vn de ipe va vb) s' /\ length (s_vs s') = length (s_vs s) /\ evs = [] /\
  ((arcs = [] /\ s' = s) \/ exists p, line_intersect (v_bis (getv (s_vs s) vp)) (v_bis (getv (s_vs s) vn)) = Some p /\
     arcs = [Subtree ipe de [v_point (getv (s_vs s) va); v_point (getv (s_vs s) vb); p];
             Subtree p (ndiv (nadd dp dn) twoN) [v_point (getv (s_vs s) vp); v_point (getv (s_vs s) vn)]]).
Proof.
  intros Hr (Hvp & Hvn & Hva & Hvb). unfold handle_dormer_event. pose proof Hr as (R1 & R2 & R3).
  destruct (v_lav (getv (s_vs s) vp)) as [l|] eqn:El.
  2: { intros H. apply Ok_inj, triple_inj in H. destruct H as (<- & <- & <-). split; auto.
       split; [apply grows_refl|]. split; auto. split; auto. intros i H1 H2; lia. }
  cbv zeta. cbn [s_vs s_ls with_ls with_vs].
  set (hd := v_prev (getv (s_vs s) vp)). set (c := v_next (getv (s_vs s) vn)).
  set (vs1 := modv hd (with_next c) (s_vs s)).
  set (vs2 := modv (v_next (getv vs1 vn)) (with_prev (v_prev (getv vs1 vp))) vs1).
  set (s1 := with_vs vs2 _).
  assert (Hl : l < length (s_ls s)) by (destruct (R1 vp Hvp) as (_ & _ & H3); auto).
  assert (Hhd : hd < length (s_vs s)) by (apply R1; auto).
  assert (Hc : c < length (s_vs s)) by (apply R1; auto).
  assert (L1 : length vs1 = length (s_vs s)) by apply modv_length.
  assert (L2 : length vs2 = length (s_vs s)) by (unfold vs2; rewrite modv_length; auto).
  assert (Q1 : rvs (length (s_ls s)) vs1) by (apply rvs_next; auto).
  assert (Q2 : rvs (length (s_ls s)) vs2).
  { apply rvs_prev; auto. apply Q1. lia. }
  assert (G2 : grows (s_vs s) vs2).
  { eapply grows_trans; [apply grows_with_next|apply grows_with_prev]. }
  assert (Hr1 : rng s1).
  { split; [|split]; simpl; rewrite ?set_at_length; auto.
    intros l' Hl'. rewrite L2. destruct (Nat.eq_dec l' l) as [->|Hne].
    - rewrite getl_set_at_eq by auto. auto.
    - rewrite getl_set_at by auto. auto. }
  destruct (from_chain s1 hd) as [[s2 l2]|ex] eqn:E1; [|discriminate]. cbn [bind].
  destruct (from_chain_facts E1) as (M1 & M2 & M3 & M4 & M5 & M6 & M7).
  destruct (remove_lav s2 (Some l)) as [s3|ex] eqn:E3; [|discriminate]. cbn [bind].
  destruct (remove_lav_facts E3) as (F1 & F2 & F3 & F4 & F5 & _).
  set (s4 := with_act (s_act s3 ++ [l2]) s3). cbn [s_vs with_act s4].
  change (s_vs s4) with (s_vs s3). rewrite F1.
  assert (Gs : grows (s_vs s) (s_vs s2)) by (eapply grows_trans; [exact G2|exact M1]).
  assert (Bis : forall i, i < length (s_vs s) -> v_bis (getv (s_vs s2) i) = v_bis (getv (s_vs s) i) /\
                          v_point (getv (s_vs s2) i) = v_point (getv (s_vs s) i)).
  { intros i Hi. destruct Gs as [_ Gs]. destruct (Gs i Hi) as [(B1 & B2 & B3 & B4 & B5) _]. auto. }
  rewrite (proj1 (Bis vp Hvp)), (proj1 (Bis vn Hvn)).
  destruct (line_intersect (v_bis (getv (s_vs s) vp)) (v_bis (getv (s_vs s) vn))) as [p|]; [|discriminate].
  intros H. apply Ok_inj, triple_inj in H. destruct H as (<- & <- & <-).
  assert (Hr4 : rng s4).
  { assert (Hr2 : rng s2) by (apply M7; auto; simpl; lia).
    destruct (F5 Hr2) as (T1 & T2 & T3). split; [exact T1|]. split; [exact T2|]. unfold s4. simpl.
    intros l' Hl'. apply in_app_iff in Hl' as [Hl'|[<-|[]]]; auto. rewrite F2. lia. }
  set (rem := [vp; v_next (getv (s_vs s) vp); vn; v_prev (getv (s_vs s) vn)]).
  destruct (@invalidate_all_spec A [] s4 rem) as (J1 & _ & _ & J4 & _).
  assert (Lf : length (s_vs (invalidate_all s4 rem)) = length (s_vs s)).
  { rewrite J1. unfold s4. simpl. rewrite F1, M4. simpl. auto. }
  split; [|split; [auto|split; [auto|]]].
  - split.
    { eapply grows_trans; [|apply invalidate_all_grow]. unfold s4. simpl. rewrite F1. auto. }
    split; [rewrite J4; unfold s4; simpl; rewrite F3, M2; reflexivity|].
    split; [intros i H1 H2; lia|]. apply invalidate_all_rng; auto.
    unfold s4. simpl. rewrite F1, M4. simpl. rewrite L2.
    intros i [<-|[<-|[<-|[<-|[]]]]]; auto; apply R1; auto.
  - right. exists p. split; auto.
    rewrite (proj2 (Bis va Hva)), (proj2 (Bis vb Hvb)), (proj2 (Bis vp Hvp)), (proj2 (Bis vn Hvn)). auto.
Qed.

(** ** any event *)

(** e was scheduled for a vertex of a state with the vertices of s *)
Definition scheduled s (e : event) : Prop :=
  exists s0 id, rng s0 /\ s_orig s0 = s_orig s /\ grows (s_vs s0) (s_vs s) /\
    length (s_vs s0) = length (s_vs s) /\ id < length (s_vs s) /\ next_event s0 id = Ok (Some e) /\
    (forall i, nxt_of (s_vs s0) i = nxt_of (s_vs s) i) /\ (forall i, prv_of (s_vs s0) i = prv_of (s_vs s) i).

(** the arcs an event adds *)
Definition arcs_of s (e : event) s' (arcs : list (@subtree A)) : Prop :=
  (arcs = [] /\ s' = s) \/
  match e with
  | DormerEv _ dp vp dn vn de ipe va vb =>
    exists p, line_intersect (v_bis (getv (s_vs s) vp)) (v_bis (getv (s_vs s) vn)) = Some p /\
     arcs = [Subtree ipe de [v_point (getv (s_vs s) va); v_point (getv (s_vs s) vb); p];
             Subtree p (ndiv (nadd dp dn) twoN) [v_point (getv (s_vs s) vp); v_point (getv (s_vs s) vn)]]
  | EdgeEv d ip _ _ | SplitEv d ip _ _ =>
    exists ids, arcs = [Subtree ip d (map (fun i => v_point (getv (s_vs s') i)) ids)] /\
                forall i, In i ids -> i < length (s_vs s')
  end.

Lemma handle_event_grow s e s' arcs evs : rng s -> ev_rng s e -> handle_event s e = Ok (s', arcs, evs) ->
  handled s e s' /\ arcs_of s e s' arcs /\ (forall e', In e' evs -> scheduled s' e').
Proof.
  intros Hr He. 
  assert (Hskip : forall X : Ok (s, @nil (@subtree A), @nil event) = Ok (s', arcs, evs),
    handled s e s' /\ arcs_of s e s' arcs /\ (forall e', In e' evs -> scheduled s' e')).
  { intros H. apply Ok_inj, triple_inj in H. destruct H as (<- & <- & <-). split; [|split; [left; auto|intros e' []]].
    split; [apply grows_refl|]. split; auto. split; auto. intros i H1 H2; lia. }
  destruct e as [d ip va vb|d ip v opp|d dp vp dn vn de ipe va vb]; cbn [handle_event].
  - destruct (negb _ || negb _); [auto|]. destruct He as [Ha Hb]. intros H.
    destruct (handle_edge_grow Hr Ha Hb H) as (H1 & (ids & H2 & H3) & H4). split; auto. split.
    + right. exists ids. destruct H1 as ([G0 G1] & _). split.
      * rewrite H2. do 2 f_equal. apply map_ext_in. intros i Hi. destruct (G1 i (H3 i Hi)) as [(P & _) _]. auto.
      * intros i Hi. specialize (H3 i Hi). lia.
    + intros e' He'. destruct (H4 e' He') as (s0 & id & K1 & K2 & K3 & K4 & K5). exists s0, id.
      destruct H1 as (_ & Ho & _). rewrite <- K3 in *. split; auto. split; [congruence|]. split; [apply grows_refl|].
      do 4 (split; auto).
  - destruct (negb _); [auto|]. intros H. destruct (handle_split_grow Hr He H) as (H1 & H2 & H3).
    split; auto. split.
    + destruct H2 as [(-> & _ & ->)|H2]; [left|right]; auto.
    + intros e' He'. destruct (H3 e' He') as (s0 & id & K1 & K2 & K3 & K4 & K5 & K6). exists s0, id.
      destruct H1 as (_ & Ho & _). split; auto. split; [congruence|]. auto.
  - destruct (negb _ || negb _); [auto|]. intros H.
    destruct (handle_dormer_grow Hr He H) as (H1 & H2 & -> & H4). split; auto. split; [|intros e' []]. exact H4.
Qed.

Lemma scheduled_rng s e : rng s -> scheduled s e -> ev_rng s e.
Proof.
  intros Hr (s0 & id & H1 & H2 & H3 & H4 & H5 & H6 & _). rewrite <- H4 in H5.
  apply (@ev_rng_mono s0); [lia|]. eapply next_event_rng; eauto.
Qed.

(** the event's distance and vertices, in terms of the vertices it was scheduled from *)
Lemma scheduled_candidate s e : scheduled s e ->
  exists s0 id, s_orig s0 = s_orig s /\ grows (s_vs s0) (s_vs s) /\ length (s_vs s0) = length (s_vs s) /\
    rng s0 /\ id < length (s_vs s0) /\ candidate s0 id e /\
    (forall i, nxt_of (s_vs s0) i = nxt_of (s_vs s) i) /\ (forall i, prv_of (s_vs s0) i = prv_of (s_vs s) i).
Proof.
  intros (s0 & id & H1 & H2 & H3 & H4 & H5 & H6 & H7 & H8). exists s0, id. rewrite H4. do 5 (split; auto).
  split; auto. apply next_event_cand; auto.
Qed.

End Grow.
