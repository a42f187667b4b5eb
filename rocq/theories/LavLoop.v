(** * LavLoop: invariants of the event loop (bpypolyskel.py:854-875) *)

From Coq Require Import Permutation.
From Verif Require Import Py PyFacts Arith Euclid Heapq Lav Cluster LavSpec LavWalk LavWf LavInit LavNext LavGrow LoopSpec
  HeapSpec HeapProofs QueueProofs.
Set Implicit Arguments.
Unset Strict Implicit.
Local Open Scope nat_scope.

Section Loop.
Context {A : arith}.
Implicit Type s : @slav A.
Notation event := (@event A).
Notation subtree := (@subtree A).
Notation edge2 := (@edge2 A).
Implicit Type st : @loop_state A.

(** ** the loop runs through reachable points *)
Lemma handle_batch_reach st0 st evs : reach st0 st evs ->
  match handle_batch st evs with
  | Ok st' => reach st0 st' []
  | Err x => exists st1 e t, reach st0 st1 (e :: t) /\ handle_event (lo_slav st1) e = Err x
  end.
Proof.
  revert st. induction evs as [|e t IH]; intros st Hr; cbn [handle_batch]; auto.
  destruct (handle_event (lo_slav st) e) as [[[s' arcs] new]|x] eqn:E; cbn [bind].
  - apply IH. eapply reach_event; eauto.
  - eauto.
Qed.

Lemma event_loop_reach fuel st0 st : reach st0 st [] ->
  match event_loop fuel st with
  | Ok st' => reach st0 st' [] /\ (lo_queue st' = [] \/ s_act (lo_slav st') = [])
  | Err x => x = OutOfFuel \/ exists st1 e t, reach st0 st1 (e :: t) /\ handle_event (lo_slav st1) e = Err x
  end.
Proof.
  revert st. induction fuel as [|f IH]; intros st Hr; cbn [event_loop]; auto.
  destruct (lo_queue st) as [|e0 q0] eqn:Eq; [auto|].
  destruct (s_act (lo_slav st)) as [|l0 a0] eqn:Ea; [auto|].
  destruct (getAllEqualDistance (e0 :: q0)) as [[b q']|] eqn:Eg.
  2: { apply getAllEqualDistance_none in Eg. discriminate. }
  assert (Hb : reach st0 (Loop (lo_slav st) q' (lo_out st)) b).
  { apply reach_batch; auto; try congruence. }
  pose proof (handle_batch_reach Hb) as Hh. destruct (handle_batch _ b) as [st'|x]; cbn [bind]; [apply IH|right]; auto.
Qed.

Lemma put_all_perm (q es : list event) : Permutation (put_all q es) (q ++ es).
Proof.
  unfold put_all. revert q. induction es as [|e es IH]; intros q; simpl.
  - rewrite app_nil_r. auto.
  - eapply Permutation_trans; [apply IH|].
    eapply Permutation_trans; [apply Permutation_app_tail; apply (heappush_perm (@ev_lt A) q e)|].
    simpl. apply Permutation_middle.
Qed.

(** ** invariants *)
Lemma reach_invariant st0 (S : slav -> list subtree -> Prop) (V : slav -> event -> Prop) :
  S (lo_slav st0) (lo_out st0) -> (forall e, In e (lo_queue st0) -> V (lo_slav st0) e) ->
  (forall s out e s' arcs new, S s out -> V s e -> handle_event s e = Ok (s', arcs, new) ->
     S s' (out ++ arcs) /\ (forall e', V s e' -> V s' e') /\ (forall e', In e' new -> V s' e')) ->
  forall st pend, reach st0 st pend ->
    S (lo_slav st) (lo_out st) /\ (forall e, In e (pend ++ lo_queue st) -> V (lo_slav st) e).
Proof.
  intros HS HV Hstep st pend H. induction H as [|st b q' Hr IH _ _ Hg|st e t s' arcs new Hr IH He].
  - auto.
  - destruct IH as [I1 I2]. simpl in *. split; auto. intros e He. apply I2.
    apply getAllEqualDistance_perm in Hg. eapply Permutation_in; [apply Permutation_sym; exact Hg|exact He].
  - destruct IH as [I1 I2]. simpl in *.
    destruct (Hstep _ _ _ _ _ _ I1 (I2 e (or_introl eq_refl)) He) as (J1 & J2 & J3). split; auto.
    intros e' He'. apply in_app_iff in He' as [He'|He'].
    + apply J2, I2. right. apply in_app_iff. auto.
    + apply (Permutation_in _ (put_all_perm (lo_queue st) new)) in He'. apply in_app_iff in He' as [He'|He'].
      * apply J2, I2. right. apply in_app_iff. auto.
      * apply J3; auto.
Qed.

(** ** the invariant that holds without any assumption *)
Variable E : list edge2.        (* the edges of all contours *)
Variable pts : list (vec A).    (* the contour vertices *)

Notation edge_distance := (edge_distance E).
Notation node_height := (node_height E).

Definition ev_inv s (e : event) : Prop :=
  ev_rng s e /\
  match e with
  | EdgeEv d ip _ _ => edge_distance d ip
  | SplitEv d ip v opp => edge_distance d ip /\ In opp E /\
      same_edge opp (v_eprev (getv (s_vs s) v)) = false /\ same_edge opp (v_enext (getv (s_vs s) v)) = false
  | DormerEv _ dp _ dn _ de ipe _ _ =>
    edge_distance de ipe /\ (exists p, edge_distance dp p) /\ (exists p, edge_distance dn p)
  end.

(** a position known so far *)
Definition known (out : list subtree) (p : vec A) : Prop := In p pts \/ In p (map (@source A) out).

Definition st_inv s (out : list subtree) : Prop :=
  rng s /\
  (forall oe, In oe (s_orig s) -> In (oe_edge oe) E) /\
  (forall i, i < length (s_vs s) ->
     In (v_eprev (getv (s_vs s) i)) E /\ In (v_enext (getv (s_vs s) i)) E /\ known out (v_point (getv (s_vs s) i))) /\
  (forall a, In a out -> node_height a /\ forall p, In p (sinks a) -> known out p).

Lemma known_app out arcs p : known out p -> known (out ++ arcs) p.
Proof. intros [H|H]; [left; auto|right]. rewrite map_app. apply in_app_iff. auto. Qed.

Lemma ev_inv_mono s s' e : grows (s_vs s) (s_vs s') -> ev_inv s e -> ev_inv s' e.
Proof.
  intros [Hl Hg] [H1 H2]. split; [eapply ev_rng_mono; eauto|].
  destruct e as [d ip va vb|d ip v opp|d dp vp dn vn de ipe va vb]; auto.
  simpl in H1. destruct (Hg v H1) as [(_ & -> & -> & _) _]. auto.
Qed.

Lemma candidate_inv s id e : rng s -> (forall oe, In oe (s_orig s) -> In (oe_edge oe) E) ->
  (forall i, i < length (s_vs s) -> In (v_eprev (getv (s_vs s) i)) E /\ In (v_enext (getv (s_vs s) i)) E) ->
  id < length (s_vs s) -> candidate s id e -> ev_inv s e.
Proof.
  intros (R1 & _) Ho He Hid Hc. destruct (R1 id Hid) as (N1 & N2 & _). destruct (He id Hid) as [E1 E2].
  destruct Hc as [p v Hp|p v Hp|oe e' Hr Hoe He'].
  - split; [simpl; auto|]. exists (v_eprev v). auto.
  - split; [simpl; auto|]. exists (v_enext v). auto.
  - destruct (split_candidate_shape He') as (b & -> & S1 & S2). split; [simpl; auto|].
    split; [exists (oe_edge oe); auto|]. auto.
Qed.

Lemma scheduled_inv s e : (forall oe, In oe (s_orig s) -> In (oe_edge oe) E) ->
  (forall i, i < length (s_vs s) -> In (v_eprev (getv (s_vs s) i)) E /\ In (v_enext (getv (s_vs s) i)) E) ->
  scheduled s e -> ev_inv s e.
Proof.
  intros Ho He Hs. destruct (scheduled_candidate Hs) as (s0 & id & H1 & H2 & H3 & H4 & H5 & H6 & _).
  apply (ev_inv_mono H2). eapply candidate_inv; eauto.
  - rewrite H1. auto.
  - intros i Hi. destruct H2 as [_ H2]. destruct (H2 i Hi) as [(_ & <- & <- & _) _]. apply He. lia.
Qed.

Lemma step_inv s out e s' arcs new : st_inv s out -> ev_inv s e -> handle_event s e = Ok (s', arcs, new) ->
  st_inv s' (out ++ arcs) /\ (forall e', ev_inv s e' -> ev_inv s' e') /\ (forall e', In e' new -> ev_inv s' e').
Proof.
  intros (I1 & I2 & I3 & I4) [V1 V2] Hh. destruct (handle_event_grow I1 V1 Hh) as ((G1 & G2 & G3 & G4) & Ha & Hn).
  assert (Hv : forall i, i < length (s_vs s') ->
     In (v_eprev (getv (s_vs s') i)) E /\ In (v_enext (getv (s_vs s') i)) E /\
     known (out ++ arcs) (v_point (getv (s_vs s') i))).
  { intros i Hi. destruct (Nat.lt_ge_cases i (length (s_vs s))) as [Hlt|Hge].
    - destruct G1 as [_ G1]. destruct (G1 i Hlt) as [(-> & -> & -> & _) _]. destruct (I3 i Hlt) as (J1 & J2 & J3).
      split; auto. split; auto. apply known_app; auto.
    - pose proof (G3 i Hge Hi) as Hc. unfold created in Hc. destruct Ha as [[-> ->]|Ha]; [lia|].
      destruct e as [d ip va vb|d ip v opp|d dp vp dn vn de ipe va vb].
      + destruct V1 as [Va Vb]. destruct (I3 va Va) as (A1 & A2 & A3). destruct (I3 vb Vb) as (B1 & B2 & B3).
        destruct Hc as (-> & -> & -> & _). destruct Ha as (ids & -> & _). simpl. split; auto. split; auto.
        right. rewrite map_app. apply in_app_iff. right. left; auto.
      + simpl in V1. destruct (I3 v V1) as (A1 & A2 & A3). destruct V2 as (V21 & V22 & _).
        destruct Ha as (ids & -> & _).
        destruct Hc as [(-> & -> & -> & _)|(-> & -> & -> & _)]; simpl; (split; [auto|]); (split; [auto|]);
          right; rewrite map_app; apply in_app_iff; right; left; auto.
      + destruct Hc. }
  split; [|split].
  - split; auto. split; [rewrite G2; auto|]. split; auto.
    intros a Hin. apply in_app_iff in Hin as [Hin|Hin].
    + destruct (I4 a Hin) as [J1 J2]. split; auto. intros p Hp. apply known_app; auto.
    + destruct Ha as [[-> ->]|Ha]; [destruct Hin|].
      assert (Hids : forall ids, (forall i, In i ids -> i < length (s_vs s')) -> forall p,
         In p (map (fun i => v_point (getv (s_vs s') i)) ids) -> known (out ++ arcs) p).
      { intros ids Hi p Hp. apply in_map_iff in Hp as (i & <- & Hp). apply Hv; auto. }
      destruct e as [d ip va vb|d ip v opp|d dp vp dn vn de ipe va vb].
      * destruct Ha as (ids & Ea & Hi). rewrite Ea in Hin. destruct Hin as [<-|[]]. split; [left; auto|].
        intros p Hp. eapply Hids; eauto.
      * destruct Ha as (ids & Ea & Hi). rewrite Ea in Hin. destruct Hin as [<-|[]]. destruct V2 as (V21 & _).
        split; [left; auto|]. intros p Hp. eapply Hids; eauto.
      * destruct Ha as (p & _ & Ea). destruct V1 as (W1 & W2 & W3 & W4). destruct V2 as (V21 & (p1 & V22) & (p2 & V23)).
        assert (Kp : forall i, i < length (s_vs s) -> known (out ++ arcs) (v_point (getv (s_vs s) i))).
        { intros i Hi. apply known_app. apply I3; auto. }
        assert (Kpp : known (out ++ arcs) p).
        { right. rewrite map_app, Ea. apply in_app_iff. right. simpl. auto. }
        rewrite Ea in Hin. destruct Hin as [<-|[<-|[]]]; simpl.
        -- split; [left; auto|]. intros q [<-|[<-|[<-|[]]]]; auto.
        -- split; [right; exists dp, p1, dn, p2; auto|]. intros q [<-|[<-|[]]]; auto.
  - intros e' He'. eapply ev_inv_mono; eauto.
  - intros e' He'. apply scheduled_inv; auto; [rewrite G2; auto|]. intros i Hi. destruct (Hv i Hi) as (J1 & J2 & _). auto.
Qed.

Theorem reach_inv st0 : st_inv (lo_slav st0) (lo_out st0) -> (forall e, In e (lo_queue st0) -> ev_inv (lo_slav st0) e) ->
  forall st pend, reach st0 st pend ->
    st_inv (lo_slav st) (lo_out st) /\ (forall e, In e (pend ++ lo_queue st) -> ev_inv (lo_slav st) e).
Proof. intros HS HV. apply reach_invariant; auto. intros; eapply step_inv; eauto. Qed.

End Loop.
