(** * WaveCases: checked runs of the event loop (cases for C40) *)

From Verif Require Import Py PyFacts Arith ArithF Euclid Lav Cluster LoopSpec WaveSpec PropsLav BisCases LavWave.
Set Implicit Arguments.
Unset Strict Implicit.
Local Open Scope nat_scope.

Section Run.
Context {A : arith}.

Definition currentb (s : @slav A) (e : @event A) : bool :=
  match e with
  | EdgeEv _ _ va vb => if is_valid s va && is_valid s vb then Nat.eqb (v_next (getv (s_vs s) va)) vb else true
  | _ => true
  end.

Definition joinedb (s s' : @slav A) : bool :=
  match filter (fun l => negb (existsb (Nat.eqb l) (s_act s'))) (s_act s) with
  | a :: t => existsb (fun b => negb (Nat.eqb a b)) t
  | [] => false
  end.

(** the loop, stopping at the first edge event that is not current, and counting the joins *)
Inductive outcome := Done (st : @loop_state A) (k : nat) | Stale (st : @loop_state A) (e : @event A) | Stuck.

Fixpoint run_batch (st : @loop_state A) (k : nat) (evs : list event) : outcome :=
  match evs with
  | [] => Done st k
  | e :: t =>
    if currentb (lo_slav st) e then
      match handle_event (lo_slav st) e with
      | Ok (s', arcs, new) =>
        run_batch (Loop s' (put_all (lo_queue st) new) (lo_out st ++ arcs)) (if joinedb (lo_slav st) s' then S k else k) t
      | Err _ => Stuck
      end
    else Stale st e
  end.

Fixpoint run_loop (fuel : nat) (st : @loop_state A) (k : nat) : outcome :=
  match fuel with
  | O => Stuck
  | S f =>
    match lo_queue st, s_act (lo_slav st) with
    | [], _ => Done st k
    | _, [] => Done st k
    | _, _ =>
      match getAllEqualDistance (lo_queue st) with
      | None => Stuck
      | Some (batch, q') =>
        match run_batch (Loop (lo_slav st) q' (lo_out st)) k batch with
        | Done st' k' => run_loop f st' k'
        | o => o
        end
      end
    end
  end.

Definition run (contours : list (list (@edge2 A))) : outcome :=
  match skeleton_start contours with Ok st => run_loop 1000 st 0 | Err _ => Stuck end.

Definition summary (o : outcome) : nat * nat * nat * nat :=
  match o with
  | Done st k => (1, length (lo_out st), k, length (s_act (lo_slav st)))
  | Stale st _ => (2, length (lo_out st), 0, length (s_act (lo_slav st)))
  | Stuck => (0, 0, 0, 0)
  end.
Lemma currentb_spec s e : currentb s e = true -> current s e.
Proof.
  destruct e as [d ip va vb|d ip v opp|d dp vp dn vn de ipe va vb]; simpl; auto.
  intros H Ha Hb. rewrite Ha, Hb in H. apply Nat.eqb_eq. exact H.
Qed.

Lemma joinedb_spec s s' : if joinedb s s' then joined s s' else ~ joined s s'.
Proof.
  unfold joinedb. set (g := filter _ (s_act s)).
  assert (Hg : forall l, In l g <-> In l (s_act s) /\ ~ In l (s_act s')).
  { intros l. unfold g. rewrite filter_In. split; intros [H1 H2]; split; auto.
    - intros Hi. apply negb_true_iff in H2. apply Bool.not_true_iff_false in H2. apply H2.
      apply existsb_exists. exists l. split; auto. apply Nat.eqb_refl.
    - apply negb_true_iff, Bool.not_true_iff_false. intros Hx. apply existsb_exists in Hx as (x & X1 & X2).
      apply Nat.eqb_eq in X2. subst x. auto. }
  clearbody g. destruct g as [|a g].
  - intros (l & l' & _ & H1 & _ & H2 & _). apply (Hg l). auto.
  - destruct (existsb (fun b => negb (Nat.eqb a b)) g) eqn:Ef.
    + apply existsb_exists in Ef as (b & Hb & Hab). apply negb_true_iff, Nat.eqb_neq in Hab.
      exists a, b. split; auto.
      destruct (proj1 (Hg a) (or_introl eq_refl)). destruct (proj1 (Hg b) (or_intror Hb)). auto.
    + intros (l & l' & Hn & H1 & H2 & H3 & H4).
      assert (G : forall x, In x (a :: g) -> x = a).
      { intros x [<-|Hx]; auto. destruct (Nat.eqb_spec a x) as [|Hax]; auto. exfalso.
        apply Bool.not_true_iff_false in Ef. apply Ef. apply existsb_exists. exists x. split; auto.
        apply negb_true_iff, Nat.eqb_neq. auto. }
      apply Hn. rewrite (G l), (G l'); auto; apply Hg; auto.
Qed.

(** a run that is done is a history *)
Lemma run_batch_history st0 evs : forall st k st' k', run_batch st k evs = Done st' k' -> history st0 st evs k -> history st0 st' [] k'.
Proof.
  induction evs as [|e t IH]; intros st k st' k'; cbn [run_batch].
  - intros [= -> ->]. auto.
  - destruct (currentb (lo_slav st) e) eqn:Ec; [|discriminate].
    destruct (handle_event (lo_slav st) e) as [[[s1 arcs] new]|x] eqn:Eh; [|discriminate].
    intros H Hh. apply (IH _ _ _ _ H). pose proof (joinedb_spec (lo_slav st) s1) as J.
    destruct (joinedb (lo_slav st) s1); [eapply history_join|eapply history_event]; eauto using currentb_spec.
Qed.

Lemma run_loop_history st0 fuel : forall st k st' k', run_loop fuel st k = Done st' k' -> history st0 st [] k -> history st0 st' [] k'.
Proof.
  induction fuel as [|f IH]; intros st k st' k'; cbn [run_loop]; [discriminate|].
  destruct (lo_queue st) as [|e0 q0] eqn:Eq; [intros [= -> ->]; auto|].
  destruct (s_act (lo_slav st)) as [|l0 a0] eqn:Ea; [intros [= -> ->]; auto|].
  destruct (getAllEqualDistance (e0 :: q0)) as [[b q']|] eqn:Eg; [|discriminate].
  destruct (run_batch _ k b) as [st1 k1|st1 e1|] eqn:Er; try discriminate.
  intros H Hh. apply (IH _ _ _ _ H). eapply run_batch_history; [exact Er|]. apply history_batch; auto; congruence.
Qed.

(** and there is no other: every history is a part of it *)
Definition continue (fuel : nat) (st : @loop_state A) (k : nat) (evs : list event) : outcome :=
  match run_batch st k evs with Done st' k' => run_loop fuel st' k' | o => o end.

Lemma history_part st0 fuel st' k' : run_loop fuel st0 0 = Done st' k' ->
  forall st pend k, history st0 st pend k -> exists f, continue f st k pend = Done st' k'.
Proof.
  intros H st pend k Hh. induction Hh as [|st k b q' Hh IH Hq Ha Hg|st k e t s' arcs new Hh IH Hc He Hj|st k e t s' arcs new Hh IH Hc He Hj].
  - exists fuel. exact H.
  - destruct IH as (f & Hf). unfold continue in Hf. cbn [run_batch] in Hf. destruct f as [|f]; cbn [run_loop] in Hf; [discriminate|].
    destruct (lo_queue st) as [|e0 q0] eqn:Eq; [congruence|].
    destruct (s_act (lo_slav st)) as [|l0 a0] eqn:Ea; [congruence|].
    rewrite Hg in Hf. exists f. unfold continue. destruct (run_batch _ k b); auto.
  - destruct IH as (f & Hf). exists f. unfold continue in Hf |- *. cbn [run_batch] in Hf.
    destruct (currentb (lo_slav st) e); [|discriminate]. rewrite He in Hf.
    pose proof (joinedb_spec (lo_slav st) s') as J. destruct (joinedb (lo_slav st) s'); [tauto|exact Hf].
  - destruct IH as (f & Hf). exists f. unfold continue in Hf |- *. cbn [run_batch] in Hf.
    destruct (currentb (lo_slav st) e); [|discriminate]. rewrite He in Hf.
    pose proof (joinedb_spec (lo_slav st) s') as J. destruct (joinedb (lo_slav st) s'); [exact Hf|tauto].
Qed.

Lemma run_batch_count evs : forall st k st' k', run_batch st k evs = Done st' k' -> k <= k'.
Proof.
  induction evs as [|e t IH]; intros st k st' k'; cbn [run_batch]; [intros [= -> ->]; auto|].
  destruct (currentb (lo_slav st) e); [|discriminate].
  destruct (handle_event (lo_slav st) e) as [[[s1 arcs] new]|x]; [|discriminate].
  intros H. apply IH in H. destruct (joinedb (lo_slav st) s1); lia.
Qed.

Lemma run_loop_count fuel : forall st k st' k', run_loop fuel st k = Done st' k' -> k <= k'.
Proof.
  induction fuel as [|f IH]; intros st k st' k'; cbn [run_loop]; [discriminate|].
  destruct (lo_queue st) as [|e0 q0]; [intros [= -> ->]; auto|].
  destruct (s_act (lo_slav st)) as [|l0 a0]; [intros [= -> ->]; auto|].
  destruct (getAllEqualDistance (e0 :: q0)) as [[b q']|]; [|discriminate].
  destruct (run_batch _ k b) as [st1 k1|st1 e1|] eqn:Er; try discriminate.
  intros H. apply IH in H. apply run_batch_count in Er. lia.
Qed.

(** the run as a summary *)
Lemma run_summary contours n k m : summary (run contours) = (1, n, k, m) ->
  exists st0 st, skeleton_start contours = Ok st0 /\ history st0 st [] k /\
    length (lo_out st) = n /\ length (s_act (lo_slav st)) = m /\
    (forall st' e t k', history st0 st' (e :: t) k' -> current (lo_slav st') e) /\
    (forall st' pend k', history st0 st' pend k' -> k' <= k).
Proof.
  unfold run. destruct (skeleton_start contours) as [st0|x]; [|discriminate].
  destruct (run_loop 1000 st0 0) as [st k1|st e|] eqn:Er; try discriminate. cbn [summary]. intros [= <- <- <-].
  exists st0, st. split; auto. split; [eapply run_loop_history; [exact Er|constructor]|]. split; auto. split; auto. split.
  - intros st' e t k' Hh. destruct (history_part Er Hh) as (f & Hf). unfold continue in Hf. cbn [run_batch] in Hf.
    apply currentb_spec. destruct (currentb (lo_slav st') e); auto. discriminate.
  - intros st' pend k' Hh. destruct (history_part Er Hh) as (f & Hf). unfold continue in Hf.
    destruct (run_batch st' k' pend) as [st1 k2|st1 e1|] eqn:Eb; try discriminate.
    apply run_batch_count in Eb. apply run_loop_count in Hf. lia.
Qed.

(** checking the hypotheses on the contours *)
Fixpoint startsb (E : list (@edge2 A)) : bool :=
  match E with
  | [] => true
  | e :: t => forallb (fun e' => negb (veq (ep1 e) (ep1 e')) && negb (veq (ep1 e') (ep1 e))) t && startsb t
  end.

Lemma startsb_spec E : startsb E = true -> distinct_starts E.
Proof.
  induction E as [|e t IH]; intros H a b Ha Hb; [destruct Ha|]. cbn [startsb] in H. apply andb_true_iff in H as [H1 H2].
  rewrite forallb_forall in H1. intros Hv. destruct Ha as [<-|Ha], Hb as [<-|Hb]; auto.
  - apply H1 in Hb. rewrite Hv in Hb. discriminate.
  - apply H1 in Ha. rewrite Hv in Ha. rewrite andb_false_r in Ha. discriminate.
  - apply (IH H2); auto.
Qed.

Definition waveb (contours : list (list (@edge2 A))) : bool :=
  startsb (concat contours) && forallb (fun c => 3 <=? length c) contours &&
  match detectDormers contours with Ok [] => true | _ => false end.

Lemma distinct_single (c : list (@edge2 A)) : distinct_starts (concat [c]) -> distinct_starts c.
Proof. intros H a b Ha Hb. apply H; simpl; rewrite app_nil_r; assumption. Qed.

Lemma waveb_spec contours : waveb contours = true ->
  distinct_starts (concat contours) /\ (forall c, In c contours -> 3 <= length c) /\ detectDormers contours = Ok [].
Proof.
  unfold waveb. intros H. apply andb_true_iff in H as [H H3]. apply andb_true_iff in H as [H1 H2].
  split; [apply startsb_spec; auto|]. split.
  - rewrite forallb_forall in H2. intros c Hc. apply Nat.leb_le. auto.
  - destruct (detectDormers contours) as [[|d ds]|x]; try discriminate. auto.
Qed.

End Run.

(** a quadrilateral with a quadrilateral hole: one join, 2 + 2 + 4 nodes *)
Definition yard := [polygon 0 [Pt 0 0; Pt 30 0; Pt 31 20; Pt 0 21]; polygon 4 [Pt 9 8; Pt 10 14; Pt 18 13; Pt 17 7]].
Lemma yard_wave : waveb yard = true.
Proof. vm_compute. reflexivity. Qed.
Lemma yard_run : summary (run yard) = (1, 8, 1, 0).
Proof. vm_compute. reflexivity. Qed.

Lemma dart_wave : waveb [dart] = true.
Proof. vm_compute. reflexivity. Qed.
Lemma dart_run : summary (run [dart]) = (1, 3, 0, 0).
Proof. vm_compute. reflexivity. Qed.

(** a contour with 16 corners whose wavefront is cut in two and joined again: 18 nodes *)
Definition steps := polygon 0 [Pt 0 0; Pt 4 0; Pt 4 (-2); Pt 6 (-2); Pt 6 0; Pt 8 0; Pt 8 (-3); Pt 14 (-3); Pt 14 3; Pt 8 3;
  Pt 8 8; Pt 6 8; Pt 6 6; Pt 4 6; Pt 4 2; Pt 0 2].
Lemma steps_wave : waveb [steps] = true.
Proof. vm_compute. reflexivity. Qed.
Lemma steps_run : summary (run [steps]) = (1, 18, 1, 0).
Proof. vm_compute. reflexivity. Qed.

Lemma rejoined :
  exists (c : list (@edge2 F64)) st0 st k, distinct_starts c /\ 3 <= length c /\ detectDormers [c] = Ok [] /\
    skeleton_start [c] = Ok st0 /\ history st0 st [] k /\ length c - 2 < length (lo_out st).
Proof.
  destruct (waveb_spec steps_wave) as (W1 & W2 & W3). destruct (run_summary steps_run) as (st0 & st & R1 & R2 & R3 & R4 & _).
  exists steps, st0, st, 1. split; [exact (distinct_single W1)|].
  split; [apply W2; left; reflexivity|]. split; [exact W3|]. split; [exact R1|]. split; [exact R2|].
  rewrite R3. change (length steps) with 16. lia.
Qed.

Lemma yard_history :
  (distinct_starts (concat yard) /\ (forall c, In c yard -> 3 <= length c) /\ detectDormers yard = Ok []) /\
  exists st0 st, skeleton_start yard = Ok st0 /\ history st0 st [] 1 /\ length (lo_out st) = 8 /\ s_act (lo_slav st) = [] /\
    (forall st' e t k', history st0 st' (e :: t) k' -> current (lo_slav st') e) /\
    (forall st' pend k', history st0 st' pend k' -> k' <= 1).
Proof.
  split; [exact (waveb_spec yard_wave)|]. destruct (run_summary yard_run) as (st0 & st & R1 & R2 & R3 & R4 & R5 & R6).
  exists st0, st. apply length_zero_iff_nil in R4. exact (conj R1 (conj R2 (conj R3 (conj R4 (conj R5 R6))))).
Qed.

Lemma dart_history :
  (distinct_starts dart /\ 3 <= length dart /\ detectDormers [dart] = Ok []) /\
  exists st0 st, skeleton_start [dart] = Ok st0 /\ history st0 st [] 0 /\ length (lo_out st) = 3 /\ s_act (lo_slav st) = [] /\
    (forall st' e t k', history st0 st' (e :: t) k' -> current (lo_slav st') e) /\
    (forall st' pend k', history st0 st' pend k' -> k' <= 0).
Proof.
  split.
  - destruct (waveb_spec dart_wave) as (W1 & W2 & W3). 
    split; [exact (distinct_single W1)|].
    split; [apply W2; left; reflexivity|exact W3].
  - destruct (run_summary dart_run) as (st0 & st & R1 & R2 & R3 & R4 & R5 & R6).
    exists st0, st. apply length_zero_iff_nil in R4. exact (conj R1 (conj R2 (conj R3 (conj R4 (conj R5 R6))))).
Qed.

(** the node count for one contour *)
Lemma single_contour (A : arith) (c : list (@edge2 A)) st0 st pend :
  distinct_starts c -> 3 <= length c -> detectDormers [c] = Ok [] ->
  skeleton_start [c] = Ok st0 -> history st0 st pend 0 ->
  length (lo_out st) <= length c - 2 /\ (s_act (lo_slav st) = [] -> length (lo_out st) = length c - 2).
Proof.
  intros H1 H2 H3 H4 H5.
  destruct (@wavefront_intact A [c]) with (st0 := st0) (st := st) (pend := pend) (k := 0) as (R & _ & P); auto.
  - intros a b Ha Hb. simpl in Ha, Hb. rewrite app_nil_r in Ha, Hb. auto.
  - intros c' [<-|[]]. auto.
  - simpl in P. unfold capacity in P. split; [lia|]. intros Ha. rewrite Ha in P. simpl in P. lia.
Qed.
