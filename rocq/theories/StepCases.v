(** * StepCases: cases for C53 *)

From Coq Require Import Permutation.
From Verif Require Import Py PyFacts Arith ArithF Euclid Lav Cluster LavSpec LavWf LavWalk LavInit LoopSpec WaveSpec PropsLav BisCases LavWave WaveCases
  LoopStart StepSpec StepProofs StepDormer.
Set Implicit Arguments.
Unset Strict Implicit.
Local Open Scope nat_scope.

(** ** all states of a run in which an event is about to be handled *)
Section Trace.
Context {A : arith}.
Notation event := (@event A).
Notation point := (@loop_state A * nat * event * list event)%type.

Fixpoint trace_batch (st : @loop_state A) (k : nat) (evs : list event) : list point * option (loop_state * nat) :=
  match evs with
  | [] => ([], Some (st, k))
  | e :: t =>
    if currentb (lo_slav st) e then
      match handle_event (lo_slav st) e with
      | Ok (s', arcs, new) =>
        let (ps, o) := trace_batch (Loop s' (put_all (lo_queue st) new) (lo_out st ++ arcs))
                         (if joinedb (lo_slav st) s' then S k else k) t in ((st, k, e, t) :: ps, o)
      | Err _ => ([], None)
      end
    else ([], None)
  end.

Fixpoint trace_loop (fuel : nat) (st : @loop_state A) (k : nat) : list point :=
  match fuel with
  | O => []
  | S f =>
    match lo_queue st, s_act (lo_slav st) with
    | [], _ => []
    | _, [] => []
    | _, _ =>
      match getAllEqualDistance (lo_queue st) with
      | None => []
      | Some (batch, q') =>
        let (ps, o) := trace_batch (Loop (lo_slav st) q' (lo_out st)) k batch in
        match o with Some (st', k') => ps ++ trace_loop f st' k' | None => ps end
      end
    end
  end.

Definition trace (contours : list (list (@edge2 A))) : list point :=
  match skeleton_start contours with Ok st => trace_loop 100 st 0 | Err _ => [] end.

Lemma trace_batch_history st0 evs : forall st k, history st0 st evs k ->
  let (ps, o) := trace_batch st k evs in
  (forall st' k' e t, In (st', k', e, t) ps -> history st0 st' (e :: t) k' /\ current (lo_slav st') e) /\
  (forall st' k', o = Some (st', k') -> history st0 st' [] k').
Proof.
  induction evs as [|e t IH]; intros st k Hh; cbn [trace_batch].
  - split; [intros ? ? ? ? []|]. intros st' k' H. injection H as <- <-. auto.
  - destruct (currentb (lo_slav st) e) eqn:Ec; [|split; [intros ? ? ? ? []|discriminate]].
    destruct (handle_event (lo_slav st) e) as [[[s1 arcs] new]|x] eqn:Eh; [|split; [intros ? ? ? ? []|discriminate]].
    pose proof (joinedb_spec (lo_slav st) s1) as J. apply currentb_spec in Ec.
    specialize (IH (Loop s1 (put_all (lo_queue st) new) (lo_out st ++ arcs)) (if joinedb (lo_slav st) s1 then S k else k)).
    destruct (trace_batch _ _ t) as [ps o]. destruct IH as [I1 I2].
    { destruct (joinedb (lo_slav st) s1); [eapply history_join|eapply history_event]; eauto. }
    split; auto. intros st' k' e' t' [H|H]; auto. injection H as <- <- <- <-. auto.
Qed.

Lemma trace_loop_history st0 fuel : forall st k, history st0 st [] k ->
  forall st' k' e t, In (st', k', e, t) (trace_loop fuel st k) -> history st0 st' (e :: t) k' /\ current (lo_slav st') e.
Proof.
  induction fuel as [|f IH]; intros st k Hh st' k' e t; cbn [trace_loop]; [intros []|].
  destruct (lo_queue st) as [|e0 q0] eqn:Eq; [intros []|].
  destruct (s_act (lo_slav st)) as [|l0 a0] eqn:Ea; [intros []|].
  destruct (getAllEqualDistance (e0 :: q0)) as [[b q']|] eqn:Eg; [|intros []].
  pose proof (@trace_batch_history st0 b (Loop (lo_slav st) q' (lo_out st)) k) as T.
  destruct (trace_batch _ k b) as [ps [[st1 k1]|]].
  - destruct T as [T1 T2]; [apply history_batch; auto; congruence|]. intros H. apply in_app_iff in H as [H|H]; eauto.
  - destruct T as [T1 T2]; [apply history_batch; auto; congruence|]. eauto.
Qed.

Lemma trace_history contours (P : point -> bool) : existsb P (trace contours) = true ->
  exists st0 st k e t, skeleton_start contours = Ok st0 /\ history st0 st (e :: t) k /\ current (lo_slav st) e /\ P (st, k, e, t) = true.
Proof.
  unfold trace. intros H. apply existsb_exists in H as ([[[st k] e] t] & H1 & H2).
  destruct (skeleton_start contours) as [st0|x]; [|destruct H1].
  exists st0, st, k, e, t. split; auto. destruct (trace_loop_history (history_start st0) H1). auto.
Qed.

End Trace.

(** what happens at each of these states: 0 nothing, 2 peak, 3 meet, 4 cut, 5 join *)
Definition kind (x : @loop_state F64 * nat * @event F64 * list (@event F64)) : nat :=
  let '(st, k, e, t) := x in
  match handle_event (lo_slav st) e with
  | Ok (s', [], _) => 0
  | Ok (s', _, _) =>
    match e with
    | EdgeEv _ _ _ _ => if length (s_vs (lo_slav st)) =? length (s_vs s') then 2 else 3
    | _ => if joinedb (lo_slav st) s' then 5 else 4
    end
  | Err _ => 9
  end.

(** two rings that become one, splits within a ring, meeting neighbours, peaks and late events *)
Lemma yard_kinds : map kind (trace yard) = [5; 4; 4; 4; 2; 0; 2; 0; 3; 2; 0].
Proof. vm_compute. reflexivity. Qed.

Lemma bent_kinds : map kind (trace [bent]) = [4; 2; 0; 0; 3; 2; 0].
Proof. vm_compute. reflexivity. Qed.

(** ** a vertex created by a join that no event looks after *)

(** events that mention vertex i *)
Definition looks_after {A : arith} (i : nat) (e : @event A) : bool :=
  match e with
  | EdgeEv _ _ a b => (a =? i) || (b =? i)
  | SplitEv _ _ v _ => v =? i
  | DormerEv _ _ vp _ vn _ _ va vb => (vp =? i) || (vn =? i) || (va =? i) || (vb =? i)
  end.

(** event e creates the vertex i, which has a next event of its own, but nothing is scheduled for it *)
Definition orphan (x : @loop_state F64 * nat * @event F64 * list (@event F64)) (i : nat) : bool :=
  let '(st, k, e, t) := x in
  match handle_event (lo_slav st) e with
  | Ok (s', _, new) => is_valid s' i && negb (i <? length (s_vs (lo_slav st))) &&
     match next_event s' i with Ok (Some _) => true | _ => false end &&
     negb (existsb (looks_after i) (t ++ put_all (lo_queue st) new))
  | _ => false
  end.

Lemma orphan_spec st k e t i : orphan (st, k, e, t) i = true ->
  exists s' arcs new e', handle_event (lo_slav st) e = Ok (s', arcs, new) /\
    v_valid (getv (s_vs s') i) = true /\ length (s_vs (lo_slav st)) <= i /\ next_event s' i = Ok (Some e') /\
    forall e'', In e'' (t ++ put_all (lo_queue st) new) -> looks_after i e'' = false.
Proof.
  unfold orphan. intros H. destruct (handle_event (lo_slav st) e) as [[[s' arcs] new]|x] eqn:E; [|discriminate H].
  apply andb_prop in H as [H H4]. apply andb_prop in H as [H H3]. apply andb_prop in H as [H1 H2].
  destruct (next_event s' i) as [[e'|]|x] eqn:En; try discriminate H3.
  exists s', arcs, new, e'. split; [reflexivity|]. split; [exact H1|].
  apply negb_true_iff in H2, H4. apply Nat.ltb_ge in H2. split; [exact H2|]. split; [exact En|].
  intros e'' Hin. destruct (looks_after i e'') eqn:El; auto.
  rewrite <- H4. symmetry. apply existsb_exists. eauto.
Qed.

Lemma yard_orphan : existsb (fun x => orphan x 9) (trace yard) = true.
Proof. vm_compute. reflexivity. Qed.

(** ** a dormer *)

(** a wall with a dormer, listed from the corner where the dormer leaves the wall *)
Definition lucarne := polygon 0 [Pt 10 0; Pt 10 (-2); Pt 13 (-2); Pt 13 0; Pt 30 0; Pt 30 20; Pt 0 20; Pt 0 0].

Lemma start_woven {A : arith} (contours : list (list (@edge2 A))) st : (forall c, In c contours -> c <> []) -> skeleton_start contours = Ok st ->
  woven (lo_slav st) (map (contour_ids contours) (seq 0 (length contours))).
Proof.
  intros Hne H. destruct (start_inv H) as (Hi & _). destruct (init_slav_ok Hne) as (s & H1 & H2 & _).
  rewrite Hi in H1. apply Ok_inj in H1. subst s. destruct (wavefront_wfL H2 Hne) as (W1 & W2 & W3).
  exists (contour_ids contours). split; auto. split; [|split; auto].
  - intros l Hl. destruct (W2 l Hl) as ((K1 & K2 & K3 & K4) & K5). do 4 (split; [assumption|]). intros i Hin.
    destruct (K4 i Hin) as (V1 & V2 & V3 & _). auto.
  - assert (Hact : s_act (lo_slav st) = seq 0 (length contours)) by apply H2. rewrite Hact. reflexivity.
Qed.

Definition dormer_ready (s : @slav F64) (e : @event F64) : bool :=
  match e with
  | DormerEv d dp 0 dn 3 de ipe 1 2 =>
    match line_intersect (v_bis (getv (s_vs s) 0)) (v_bis (getv (s_vs s) 3)) with Some _ => true | None => false end
  | _ => false
  end.

Lemma lucarne_ready : match skeleton_start [lucarne] with
  | Ok st => existsb (dormer_ready (lo_slav st)) (lo_queue st) && (length (s_vs (lo_slav st)) =? 8)
  | Err _ => false
  end = true.
Proof. vm_compute. reflexivity. Qed.

Lemma lucarne_case : exists st d dp dn de ipe p,
  skeleton_start [lucarne] = Ok st /\ In (DormerEv d dp 0 dn 3 de ipe 1 2) (lo_queue st) /\
  woven (lo_slav st) [[0; 1; 2; 3; 4; 5; 6; 7]] /\ 2 < length (s_vs (lo_slav st)) /\
  line_intersect (v_bis (getv (s_vs (lo_slav st)) 0)) (v_bis (getv (s_vs (lo_slav st)) 3)) = Some p.
Proof.
  pose proof lucarne_ready as H. pose proof (@start_woven F64 [lucarne]) as W.
  destruct (skeleton_start [lucarne]) as [st|x]; [|discriminate H].
  apply andb_prop in H as [H H2]. apply Nat.eqb_eq in H2. apply existsb_exists in H as (e & He & H).
  specialize (W st). destruct e as [| |d dp vp dn vn de ipe va vb]; try discriminate H.
  cbn [dormer_ready] in H. do 3 (destruct vn as [|vn]; [destruct vp; discriminate H|]).
  destruct vp; [|discriminate H]. destruct vn; [|discriminate H]. destruct va as [|[|va]]; try discriminate H.
  destruct vb as [|[|[|vb]]]; try discriminate H.
  destruct (line_intersect _ _) as [p|] eqn:Ep; [|discriminate H].
  exists st, d, dp, dn, de, ipe, p. split; auto. split; auto. split; [|split; [lia|auto]].
  apply W; auto. intros c [<-|[]]. discriminate.
Qed.

Lemma yard_refutes :
  exists (contours : list (list (@edge2 F64))) st0 st e t k s' arcs new n e',
    (distinct_starts (concat contours) /\ (forall c, In c contours -> 3 <= length c) /\ detectDormers contours = Ok []) /\
    skeleton_start contours = Ok st0 /\ history st0 st (e :: t) k /\ current (lo_slav st) e /\
    handle_event (lo_slav st) e = Ok (s', arcs, new) /\
    length (s_vs (lo_slav st)) <= n /\ v_valid (getv (s_vs s') n) = true /\ next_event s' n = Ok (Some e') /\
    (forall e'', In e'' (t ++ put_all (lo_queue st) new) -> looks_after n e'' = false).
Proof.
  destruct (@trace_history F64 yard (fun x => orphan x 9) yard_orphan) as (st0 & st & k & e & t & H1 & H2 & H3 & H4).
  destruct (orphan_spec H4) as (s' & arcs & new & e' & H5 & H6 & H7 & H8 & H9).
  exists yard, st0, st, e, t, k, s', arcs, new, 9, e'.
  split; [exact (proj1 yard_history)|]. exact (conj H1 (conj H2 (conj H3 (conj H5 (conj H7 (conj H6 (conj H8 H9))))))).
Qed.

Lemma kind_history contours what : In what (map kind (trace contours)) ->
  exists st0 st k e t, skeleton_start contours = Ok st0 /\ history st0 st (e :: t) k /\ current (lo_slav st) e /\ kind (st, k, e, t) = what.
Proof.
  intros Hi. destruct (@trace_history F64 contours (fun x => kind x =? what)) as (st0 & st & k & e & t & H1 & H2 & H3 & H4).
  { apply in_map_iff in Hi as (x & <- & Hx). apply existsb_exists. exists x. split; [exact Hx|]. apply Nat.eqb_refl. }
  apply Nat.eqb_eq in H4. exists st0, st, k, e, t. exact (conj H1 (conj H2 (conj H3 H4))).
Qed.

Lemma yard_case :
  (distinct_starts (concat yard) /\ (forall c, In c yard -> 3 <= length c) /\ detectDormers yard = Ok []) /\
  forall what, In what [0; 2; 3; 4; 5] ->
  exists st0 st k e t, skeleton_start yard = Ok st0 /\ history st0 st (e :: t) k /\ current (lo_slav st) e /\ kind (st, k, e, t) = what.
Proof.
  split; [exact (proj1 yard_history)|]. intros what Hw. apply (@kind_history yard what). rewrite yard_kinds. clear - Hw. simpl in *. tauto.
Qed.
