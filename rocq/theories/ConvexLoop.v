(** * ConvexLoop: the event loop on a strictly convex contour (C47) *)

From Coq Require Import Permutation Reals Lra.
From Verif Require Import Py PyFacts Arith ArithR Euclid Heapq Lav Cluster LavSpec LavWalk LavWf LavRing LavInit LavNext LavGrow LavStep LavSplit
  LoopSpec LavLoop LoopStart QueueProofs HeapProofs WaveSpec LavWave GeoSpec BisSpec BisProofs BisStart UnitProofs PatSpec ConvexSpec ConvexGeo.
Set Implicit Arguments.
Unset Strict Implicit.
Local Open Scope nat_scope.

(** the normalized vector is a nonnegative multiple *)
Lemma normalized_multiple (v : vec RA) : exists k, (0 <= k)%R /\
  vx (vnormalized v) = (k * vx v)%R /\ vy (vnormalized v) = (k * vy v)%R.
Proof.
  destruct (Rlt_dec (/ 10 ^ 35) (vx v * vx v + vy v * vy v)) as [H|H].
  - exists (/ vlen v)%R. rewrite vnormalized_R by auto. cbn [vx vy]. split; [|split; unfold Rdiv; simpl; ring].
    apply Rlt_le, Rinv_0_lt_compat. rewrite vlen_R. apply sqrt_lt_R0. pose proof tiny_pos. simpl in *. lra.
  - exists 0%R. unfold vnormalized, ngtb. rewrite lit_tiny, vlen2_R. cbn [RA nltb].
    destruct (Rltb_spec (/ 10 ^ 35) (vx v * vx v + vy v * vy v)) as [K|K]; [contradiction|].
    cbn [vx vy]. rewrite ?zeroN_R. split; [lra|]. split; simpl; lra.
Qed.

Lemma list_sum_ext (f g : nat -> nat) l : (forall x, In x l -> f x = g x) -> list_sum (map f l) = list_sum (map g l).
Proof. intros H. f_equal. apply map_ext_in. auto. Qed.

Lemma list_sum_perm (f : nat -> nat) l l' : Permutation l l' -> list_sum (map f l) = list_sum (map f l').
Proof. intros H. induction H; simpl; lia. Qed.

Lemma list_sum_ge (f : nat -> nat) l : (forall x, In x l -> 1 <= f x) -> length l <= list_sum (map f l).
Proof.
  induction l as [|a l IH]; intros H; simpl; auto. pose proof (H a (or_introl eq_refl)).
  assert (length l <= list_sum (map f l)) by (apply IH; intros x Hx; apply H; right; auto). lia.
Qed.

Section Convex.
Variable c : list (@edge2 RA).
Hypothesis Hc : convex_contour c.
Implicit Type s : @slav RA.
Implicit Type st : @loop_state RA.
Notation event := (@event RA).
Let n := length c.
Let E := concat [c].
Let pts := map (@ep1 RA) (concat [c]).

Lemma E_c : E = c.
Proof. unfold E. simpl. apply app_nil_r. Qed.

Lemma three : 3 <= n.
Proof. apply n_pos. auto. Qed.

Lemma edge_index i j e : edge_at c i = Some e -> edge_at c j = Some e -> i mod n = j mod n.
Proof.
  intros Hi Hj. pose proof three. apply (pnt_distinct Hc); [apply Nat.mod_upper_bound; lia|apply Nat.mod_upper_bound; lia|].
  unfold pnt, edge_at in *. fold n in Hi, Hj |- *. rewrite !Nat.mod_mod by lia. rewrite Hi, Hj. auto.
Qed.

Lemma edge_shift i j m e : edge_at c i = Some e -> edge_at c j = Some e -> edge_at c (i + m) = edge_at c (j + m).
Proof.
  intros Hi Hj. pose proof (edge_index Hi Hj) as He. pose proof three. unfold edge_at. fold n. f_equal.
  rewrite <- (Nat.add_mod_idemp_l i), <- (Nat.add_mod_idemp_l j) by lia. congruence.
Qed.

Lemma contour_distinct : distinct_starts E.
Proof.
  intros e e' He He' Hv. rewrite E_c in He, He'. apply veq_R in Hv. pose proof three.
  apply In_nth_error in He as (i & Hi). apply In_nth_error in He' as (j & Hj).
  assert (Li : i < n) by (apply nth_error_Some; congruence). assert (Lj : j < n) by (apply nth_error_Some; congruence).
  assert (i = j); [|congruence]. apply (pnt_distinct Hc); auto. unfold pnt, edge_at. fold n.
  rewrite !Nat.mod_small by auto. rewrite Hi, Hj. auto.
Qed.

Lemma consecutive_at e1 e2 : consecutive c e1 e2 -> exists i, edge_at c i = Some e1 /\ edge_at c (S i) = Some e2.
Proof.
  intros (j & Hj & H1 & H2). fold n in Hj, H1. exists (j + n - 1). unfold edge_at. fold n. split; auto.
  pose proof three. replace (S (j + n - 1)) with (j + 1 * n) by lia. rewrite Nat.mod_add by lia. rewrite Nat.mod_small by lia. auto.
Qed.

Lemma consecutive_left e1 e2 : consecutive c e1 e2 -> (0 < ncross (enorm e1) (enorm e2))%R.
Proof. intros H. destruct (consecutive_at H) as (i & H1 & H2). exact (turn_left Hc H1 H2). Qed.

Lemma contour_dormers : detectDormers [c] = Ok [].
Proof.
  apply no_dormers.
  - intros E0. pose proof three as H3. unfold n in H3. rewrite E0 in H3. simpl in H3. lia.
  - intros e1 e2 H. apply Rlt_le. apply consecutive_left; auto.
Qed.

(** a vertex of the wavefront: a convex corner between the edges x and x + m *)
Definition corner (v : @lavertex RA) (m : nat) : Prop :=
  1 <= m /\ v_reflex v = false /\
  lv (v_bis v) = rvec (vx (enorm (v_enext v)) - vx (enorm (v_eprev v))) (vy (enorm (v_enext v)) - vy (enorm (v_eprev v))) /\
  exists x, edge_at c x = Some (v_eprev v) /\ edge_at c (x + m) = Some (v_enext v).

Lemma corner_kept v w m : body_kept v w -> corner w m -> corner v m.
Proof. intros (_ & E1 & E2 & E3 & E4). unfold corner. rewrite E1, E2, E3, E4. auto. Qed.

Lemma mk_vertex_bis id p e1 e2 dirs : v_reflex (mk_vertex (A := RA) id p e1 e2 dirs false) = false ->
  lv (v_bis (mk_vertex (A := RA) id p e1 e2 dirs false)) = rvec (vx (enorm e2) - vx (enorm e1)) (vy (enorm e2) - vy (enorm e1)).
Proof.
  intros H. destruct (@mk_vertex_R id p e1 e2 dirs false) as (sg & _ & Hb & _ & S2). cbv zeta in *. rewrite Hb, (S2 H).
  cbn [Ray2 lv]. unfold rvec. f_equal; simpl; ring.
Qed.

Lemma merged_convex id p e1 e2 u va vb : (0 < tri (enorm e1) (enorm u) (enorm e2))%R ->
  lv (v_bis va) = rvec (vx (enorm u) - vx (enorm e1)) (vy (enorm u) - vy (enorm e1)) ->
  lv (v_bis vb) = rvec (vx (enorm e2) - vx (enorm u)) (vy (enorm e2) - vy (enorm u)) ->
  v_reflex (mk_vertex (A := RA) id p e1 e2 (Some (vnormalized (lv (v_bis vb)), vnormalized (lv (v_bis va)))) false) = false.
Proof.
  intros Ht Ha Hb. unfold mk_vertex, ngtb. cbn [v_reflex]. rewrite vcross_R, zeroN_R. cbn [RA nltb].
  apply Bool.not_true_iff_false. rewrite Rltb_lt. apply Rle_not_lt.
  destruct (normalized_multiple (lv (v_bis va))) as (ka & Ka & -> & ->).
  destruct (normalized_multiple (lv (v_bis vb))) as (kb & Kb & -> & ->).
  rewrite Ha, Hb. unfold rvec. cbn [vx vy]. unfold tri, ncross in Ht.
  assert (K : (0 <= ka * kb)%R) by (apply Rmult_le_pos; auto).
  assert (P : (0 <= ka * kb * (vx (enorm e1) * vy (enorm u) - vy (enorm e1) * vx (enorm u) +
        (vx (enorm u) * vy (enorm e2) - vy (enorm u) * vx (enorm e2)) +
        (vx (enorm e2) * vy (enorm e1) - vy (enorm e2) * vx (enorm e1))))%R).
  { apply Rmult_le_pos; auto. simpl in *. lra. }
  simpl in *. lra.
Qed.

Definition is_edge (e : event) : Prop := exists d p va vb, e = EdgeEv d p va vb.

(** events of a vertex that is not reflex *)
Lemma cand_current s R l id e : wf E s R -> In l (s_act s) -> In id (R l) -> v_reflex (getv (s_vs s) id) = false ->
  candidate s id e -> is_edge e /\ current s e.
Proof.
  intros W Hl Hid Hr Hcand. destruct Hcand as [p v Hp|p v Hp|oe e' Hr' _ _]; [| |congruence].
  - split; [unfold is_edge; eauto|]. intros _ _. pose proof W as [(_ & W2 & _) _]. destruct (W2 l Hl) as [(K & _) _].
    exact (ring_prev_next K Hid).
  - split; [unfold is_edge; eauto|]. intros _ _. auto.
Qed.

(** the invariant of the loop *)
Definition cinv st (pend : list event) : Prop :=
  st_inv E pts (lo_slav st) (lo_out st) /\
  (forall e, In e (pend ++ lo_queue st) -> ev_inv E (lo_slav st) e /\ is_edge e /\ current (lo_slav st) e) /\
  exists R sp, wf E (lo_slav st) R /\
    (forall i, i < length (s_vs (lo_slav st)) -> corner (getv (s_vs (lo_slav st)) i) (sp i)) /\
    (forall l, In l (s_act (lo_slav st)) -> list_sum (map sp (R l)) = n).

Lemma getv_body s s' i : grows (s_vs s) (s_vs s') -> i < length (s_vs s) -> body_kept (getv (s_vs s') i) (getv (s_vs s) i).
Proof. intros [_ Hg] Hi. apply (Hg i Hi). Qed.

Lemma edge_corners s R sp s' R' new va vb ip :
  wf E s R -> (forall i, i < length (s_vs s) -> corner (getv (s_vs s) i) (sp i)) ->
  (forall l, In l (s_act s) -> list_sum (map sp (R l)) = n) ->
  grows (s_vs s) (s_vs s') -> wf E s' R' -> nxt_of (s_vs s) va = vb -> edge_step s R s' R' new va vb ip ->
  (exists sp', (forall i, i < length (s_vs s') -> corner (getv (s_vs s') i) (sp' i)) /\
    (forall l, In l (s_act s') -> list_sum (map sp' (R' l)) = n)) /\
  (forall e, In e new -> is_edge e /\ current s' e) /\
  (forall e, ev_rng s e -> is_edge e -> current s e -> current s' e).
Proof.
  intros W Hcor Hsum Hg W' Hn Hstep. pose proof W as [(W1 & W2 & W3) W4]. pose proof Hg as [Hlen Hgi].
  assert (Hval : forall i, i < length (s_vs s) -> is_valid s' i = true -> is_valid s i = true).
  { intros i Hi. unfold is_valid. destruct (Hgi i Hi) as [_ Hv]. auto. }
  destruct Hstep as [(L & -> & -> & Hact & Hnx)|(l & nv & rest & Hl & Hact & U & Hrest & -> & Hnew)].
  - split; [|split].
    + exists sp. split; [|auto]. rewrite L. intros i Hi. eapply corner_kept; [apply getv_body|]; eauto.
    + intros e [].
    + intros e Hr (d & p & a & b & ->) Hcur Va Vb. destruct Hr as [Ra Rb]. simpl in Hcur.
      change (nxt_of (s_vs s') a = b). rewrite Hnx. apply Hcur; auto.
  - destruct U as (-> & Lv & Hp & Ia & Ib & Hnx & Epa & Enb & Hm). cbv zeta in Hm. destruct Hm as (Hrf & Hbis & _).
    set (nv := length (s_vs s)) in *.
    destruct (W2 l Hl) as [(K1 & _ & _ & K4) _].
    assert (Iva : In va (R l)) by (eapply Permutation_in; [apply Permutation_sym; exact Hp|left; auto]).
    assert (Ivb : In vb (R l)) by (eapply Permutation_in; [apply Permutation_sym; exact Hp|right; left; auto]).
    assert (Irest : forall i, In i rest -> In i (R l)).
    { intros i Hi. eapply Permutation_in; [apply Permutation_sym; exact Hp|right; right; auto]. }
    destruct (K4 va Iva) as (Lva & _ & _ & Esh & _). destruct (K4 vb Ivb) as (Lvb & _). rewrite Hn in Esh.
    destruct (Hcor va Lva) as (A1 & A2 & A3 & xa & A4 & A5). destruct (Hcor vb Lvb) as (B1 & B2 & B3 & xb & B4 & B5).
    assert (Hs : sp va + sp vb + list_sum (map sp rest) = n).
    { rewrite <- (Hsum l Hl), (list_sum_perm sp Hp). simpl. lia. }
    assert (Hge : length rest <= list_sum (map sp rest)).
    { apply list_sum_ge. intros i Hi. apply Hcor. apply K4. auto. }
    rewrite Esh in A5.
    assert (B6 : edge_at c (xa + (sp va + sp vb)) = Some (v_enext (getv (s_vs s) vb))).
    { rewrite Nat.add_assoc. rewrite (edge_shift (sp vb) A5 B4). auto. }
    assert (Hreflex : v_reflex (getv (s_vs s') nv) = false).
    { rewrite Hrf. apply merged_convex with (u := v_eprev (getv (s_vs s) vb)); auto.
      - eapply turn_tri with (i := xa) (p := sp va) (q := sp va + sp vb); eauto; lia.
      - rewrite A3, Esh. auto. }
    assert (Hcorner : corner (getv (s_vs s') nv) (sp va + sp vb)).
    { split; [lia|]. split; auto. split.
      - rewrite Hbis, Epa, Enb. apply mk_vertex_bis. rewrite <- Hrf. auto.
      - exists xa. rewrite Epa, Enb. auto. }
    split; [|split].
    + exists (fun i => if Nat.eqb i nv then sp va + sp vb else sp i). split.
      * intros i Hi. rewrite Lv in Hi. destruct (Nat.eqb_spec i nv) as [->|Hne]; auto.
        eapply corner_kept; [apply getv_body; eauto; fold nv; lia|]. apply Hcor. fold nv. lia.
      * assert (Hold : forall k, In k (s_act s) -> forall i, In i (R k) -> (if Nat.eqb i nv then sp va + sp vb else sp i) = sp i).
        { intros k Hk i Hi. destruct (W2 k Hk) as [(_ & _ & _ & V) _]. destruct (V i Hi) as (Li & _).
          destruct (Nat.eqb_spec i nv) as [->|]; auto. unfold nv in Li. lia. }
        rewrite Hact. intros k Hk. destruct (Nat.eqb_spec k l) as [->|Hkl].
        -- cbn [map list_sum fold_right]. rewrite Nat.eqb_refl. change (fold_right Nat.add 0) with list_sum.
           rewrite (list_sum_ext (g := sp)); auto. intros x Hx. apply (Hold l Hl). auto.
        -- rewrite (list_sum_ext (g := sp)); auto. intros x Hx. apply (Hold k Hk). auto.
    + intros e He. apply (cand_current (R := fun k => if Nat.eqb k l then nv :: rest else R k) (l := l) (id := nv)); auto.
      * rewrite Hact. auto.
      * rewrite Nat.eqb_refl. left; auto.
    + intros e Hr (d & p & a & b & ->) Hcur Va Vb. destruct Hr as [Ra Rb]. simpl in Hcur.
      change (nxt_of (s_vs s') a = b). rewrite Hnx by auto.
      pose proof (Hval a Ra Va) as Va0. pose proof (Hval b Rb Vb) as Vb0. specialize (Hcur Va0 Vb0).
      change (nxt_of (s_vs s) a = b) in Hcur.
      destruct (Nat.eqb_spec a (prv_of (s_vs s) va)) as [->|]; auto. exfalso.
      rewrite (ring_prev_next K1 Iva) in Hcur. subst b. unfold is_valid in Vb. congruence.
Qed.

Lemma cinv_event st e t s' arcs new : cinv st (e :: t) -> handle_event (lo_slav st) e = Ok (s', arcs, new) ->
  cinv (Loop s' (put_all (lo_queue st) new) (lo_out st ++ arcs)) t /\ ~ joined (lo_slav st) s'.
Proof.
  intros (G1 & G2 & R & sp & W & Hcor & Hsum) Hh. destruct (G2 e (or_introl eq_refl)) as (He & Hedge & Hcur).
  destruct (step_inv G1 He Hh) as (S1 & S2 & S3).
  assert (Hr : ev_rng (lo_slav st) e) by apply He.
  destruct (handle_event_grow (proj1 G1) Hr Hh) as ((Hg & _) & _ & _).
  assert (Main : (exists R' sp', wf E s' R' /\ (forall i, i < length (s_vs s') -> corner (getv (s_vs s') i) (sp' i)) /\
      (forall l, In l (s_act s') -> list_sum (map sp' (R' l)) = n)) /\
    (forall e0, In e0 new -> is_edge e0 /\ current s' e0) /\
    (forall e0, ev_rng (lo_slav st) e0 -> is_edge e0 -> current (lo_slav st) e0 -> current s' e0) /\ ~ joined (lo_slav st) s').
  { destruct Hedge as (d & ip & va & vb & ->). cbn [handle_event] in Hh.
    assert (Hskip : Ok (lo_slav st, @nil (@subtree RA), @nil event) = Ok (s', arcs, new) -> 
      (exists R' sp', wf E s' R' /\ (forall i, i < length (s_vs s') -> corner (getv (s_vs s') i) (sp' i)) /\
      (forall l, In l (s_act s') -> list_sum (map sp' (R' l)) = n)) /\
    (forall e0, In e0 new -> is_edge e0 /\ current s' e0) /\
    (forall e0, ev_rng (lo_slav st) e0 -> is_edge e0 -> current (lo_slav st) e0 -> current s' e0) /\ ~ joined (lo_slav st) s').
    { intros X. apply Ok_inj, triple_inj in X. destruct X as (<- & <- & <-). split; [|split; [|split]]; auto.
      - exists R, sp. auto.
      - intros e0 [].
      - intros J. apply (joined_gone J (l := 0)). intros k [J1 J2]. tauto. }
    destruct (is_valid (lo_slav st) va) eqn:Va; [|apply Hskip; exact Hh].
    destruct (is_valid (lo_slav st) vb) eqn:Vb; [|apply Hskip; exact Hh]. clear Hskip. cbn [negb orb] in Hh.
    destruct (edge_event_ok d ip W Va Vb (Hcur Va Vb)) as (s1 & a & new1 & R' & l & H1 & H2 & H3 & H4 & H5 & H6).
    rewrite Hh in H1. apply Ok_inj, triple_inj in H1. destruct H1 as (<- & -> & <-).
    destruct (edge_corners W Hcor Hsum Hg H2 (Hcur Va Vb) H6) as ((sp' & P1 & P2) & P3 & P4).
    split; [exists R', sp'; auto|]. split; auto. split; auto. intros J. apply (joined_gone J H5). }
  destruct Main as ((R' & sp' & W' & Hcor' & Hsum') & M2 & M3 & M4). split; auto.
  split; [exact S1|]. split; [|exists R', sp'; auto].
  cbn [lo_slav lo_queue]. intros e' He'. 
  assert (Old : In e' (t ++ lo_queue st) -> ev_inv E s' e' /\ is_edge e' /\ current s' e').
  { intros K. destruct (G2 e') as (K1 & K2 & K3); [right; auto|]. split; auto. split; auto. apply M3; auto. apply K1. }
  apply in_app_iff in He' as [He'|He']; [apply Old; apply in_app_iff; auto|].
  apply (Permutation_in _ (put_all_perm (lo_queue st) new)) in He'. apply in_app_iff in He' as [He'|He'].
  - apply Old. apply in_app_iff. auto.
  - destruct (M2 e' He'). auto.
Qed.

Lemma reach_cinv st0 : cinv st0 [] -> forall st pend, reach st0 st pend -> cinv st pend /\ history st0 st pend 0.
Proof.
  intros G0 st pend H. induction H as [|st b q' H [IH1 IH2] Hq Ha Hg|st e t s' arcs new H [IH1 IH2] Hh].
  - split; auto. constructor.
  - split; [|apply history_batch; auto]. destruct IH1 as (I1 & I2 & I3). split; auto. split; auto.
    intros e He. apply I2. simpl in *. apply getAllEqualDistance_perm in Hg.
    eapply Permutation_in; [apply Permutation_sym; exact Hg|exact He].
  - destruct (cinv_event IH1 Hh) as [G J]. split; auto. eapply history_event; eauto.
    destruct IH1 as (_ & I2 & _). apply (I2 e (or_introl eq_refl)).
Qed.

(** ** the start *)
Lemma contours_closed : forall c', In c' [c] -> closed_contour c'.
Proof. intros c' [<-|[]]. apply Hc. Qed.

Lemma contours_ne : forall c', In c' [c] -> c' <> [].
Proof. intros c' H. apply (contours_closed H). Qed.

Lemma contours_three : forall c', In c' [c] -> 3 <= length c'.
Proof. intros c' [<-|[]]. apply three. Qed.

Lemma init_corner s i : wavefront_of [c] s -> i < length (s_vs s) -> corner (getv (s_vs s) i) 1.
Proof.
  intros W Hi. destruct (wavefront_corner contours_closed W Hi) as (c' & e1 & e2 & [<-|[]] & Hcon & Hb).
  eapply corner_kept; [exact Hb|].
  assert (Hr : v_reflex (mk_vertex (A := RA) 0 (ep1 e2) e1 e2 None false) = false).
  { apply Bool.not_true_iff_false. rewrite corner_reflex. pose proof (consecutive_left Hcon). lra. }
  split; auto. split; auto. split; [apply mk_vertex_bis; auto|]. destruct (consecutive_at Hcon) as (x & X1 & X2).
  exists x. rewrite Nat.add_1_r. auto.
Qed.

Theorem convex_starts : exists st0, skeleton_start [c] = Ok st0.
Proof.
  destruct (init_slav_ok contours_ne) as (s & H1 & H2 & H3). unfold skeleton_start. rewrite H1, contour_dormers. cbn [bind].
  unfold initial_events. rewrite (chain_wavefront H2 contours_ne). cbn [bind].
  assert (G : forall ids, (forall i, In i ids -> i < length (s_vs s)) -> exists evs, mapM (next_event s) ids = Ok evs).
  { induction ids as [|i ids IH]; intros Hi; [simpl; eauto|]. cbn [mapM].
    destruct (IH (fun x Hx => Hi x (or_intror Hx))) as (evs & ->).
    destruct (init_corner H2 (Hi i (or_introl eq_refl))) as (_ & Hr & _).
    unfold next_event, candidates. rewrite Hr. cbn [bind]. eauto. }
  destruct (G (seq 0 (length (concat [c])))) as (evs & ->); [|cbn [bind]; eauto].
  intros i Hi. apply in_seq in Hi. destruct H2 as (-> & _). lia.
Qed.

Lemma start_cinv st0 : skeleton_start [c] = Ok st0 -> cinv st0 [].
Proof.
  intros H. destruct (start_good contours_three contour_dormers H) as [(G1 & G2 & R & W & P) _].
  destruct (start_inv H) as (Hi & Ho & _).
  destruct (init_slav_ok contours_ne) as (s & H1 & H2 & H3). rewrite Hi in H1. apply Ok_inj in H1. subst s.
  assert (Hact : s_act (lo_slav st0) = [0]) by apply H2.
  pose proof W as [(_ & W2 & W3) W4].
  split; [exact G1|]. split.
  - intros e He. split; [apply G2; auto|]. unfold skeleton_start in H. rewrite Hi, contour_dormers in H. cbn [bind] in H.
    destruct (initial_events (lo_slav st0)) as [evs|x] eqn:Ee; [|discriminate]. cbn [bind] in H. apply Ok_inj in H.
    rewrite <- H in He. cbn [app lo_queue] in He. apply put_fold_in in He as [[]|He].
    unfold initial_events in Ee. rewrite (chain_wavefront H2 contours_ne) in Ee. cbn [bind] in Ee.
    destruct (mapM_in Ee He) as (id & Hid & Hn). apply next_event_cand in Hn.
    assert (Li : id < length (s_vs (lo_slav st0))) by (apply in_seq in Hid; destruct H2 as (-> & _); lia).
    destruct (init_corner H2 Li) as (_ & Hr & _).
    assert (Hv : v_valid (getv (s_vs (lo_slav st0)) id) = true).
    { destruct (wavefront_wfL H2 contours_ne) as (_ & Q2 & _). apply in_seq in Hid. rewrite Hact in Q2.
      destruct (Q2 0 (or_introl eq_refl)) as [(_ & _ & _ & V) _]. apply (V id). unfold contour_ids. apply in_seq.
      simpl in Hid |- *. rewrite app_length in Hid. simpl in Hid. unfold offset. simpl. lia. }
    destruct (W3 id Li Hv) as (l & Hl & Hin). eapply cand_current; eauto.
  - exists R, (fun _ => 1). split; auto. split; [intros i Li; apply init_corner; auto|].
    rewrite Hact. intros l [<-|[]]. rewrite Ho in P. unfold phi in P. rewrite Hact in P. cbn in P.
    pose proof (W4 0) as L3. rewrite Hact in L3. specialize (L3 (or_introl eq_refl)). pose proof three. fold n in P.
    assert (Hs : forall L, list_sum (map (fun _ : nat => 1) L) = length L) by (induction L as [|x L IH]; simpl; auto).
    rewrite Hs. lia.
Qed.

(** ** the theorems *)
Theorem convex_reach st0 st pend : skeleton_start [c] = Ok st0 -> reach st0 st pend ->
  history st0 st pend 0 /\
  (forall e, In e (pend ++ lo_queue st) -> exists d p va vb, e = EdgeEv d p va vb) /\
  (forall i, i < length (s_vs (lo_slav st)) -> v_reflex (getv (s_vs (lo_slav st)) i) = false).
Proof.
  intros H Hr. destruct (reach_cinv (start_cinv H) Hr) as [(_ & G2 & R & sp & _ & G3 & _) G]. split; auto. split.
  - intros e He. apply (G2 e He).
  - intros i Hi. apply (G3 i Hi).
Qed.

Lemma convex_plain c' e1 e2 : In c' [c] -> consecutive c' e1 e2 -> plain_corner (concat [c]) e1 e2.
Proof.
  intros [<-|[]] Hcon Ht. exfalso. pose proof (consecutive_left Hcon) as Hl.
  destruct Hc as ((_ & Hd & Hj) & _). pose proof (Hj _ _ Hcon) as Hp. destruct Hcon as (j & _ & N1 & N2). apply nth_error_In in N1, N2.
  pose proof (Hd _ N1) as D1. pose proof (Hd _ N2) as D2. revert Ht. unfold turn_sine.
  pose proof (orient_cross D1 D2 Hp eq_refl) as Ho. rewrite <- Hp in Ho. rewrite Ho.
  assert (P1 : (0 < ClusterSpec.euclid_dist (ep1 e1) (ep2 e1))%R) by (apply dist_pos; apply D1).
  assert (P2 : (0 < ClusterSpec.euclid_dist (ep1 e2) (ep2 e2))%R) by (apply dist_pos; apply D2).
  rewrite Hp in *. intros Ht. apply (Rlt_not_le _ _ Ht). apply Rlt_le.
  apply Rdiv_lt_0_compat; repeat apply Rmult_lt_0_compat; auto.
Qed.

Theorem convex_nodes st0 st pend : skeleton_start [c] = Ok st0 -> reach st0 st pend ->
  forall a, In a (lo_out st) -> equidistant c (source a) (height a).
Proof.
  intros H Hr a Ha. rewrite <- E_c. unfold E. apply (nodes_equidistant (contours := [c]) contours_closed) with (st0 := st0) (st := st) (pend := pend); auto.
  - intros c' e1 e2. apply convex_plain.
  - apply contour_dormers.
  - intros i _ Hi. destruct (convex_reach H Hr) as (_ & _ & K). auto.
Qed.

Theorem convex_events st0 st pend : skeleton_start [c] = Ok st0 -> reach st0 st pend ->
  forall d p va vb, In (EdgeEv d p va vb) (pend ++ lo_queue st) -> equidistant c p d.
Proof.
  intros H Hr d p va vb Hin. rewrite <- E_c. unfold E.
  destruct (events_equidistant (contours := [c]) contours_closed convex_plain contour_dormers H Hr) as [_ K].
  - intros i _ Hi. destruct (convex_reach H Hr) as (_ & _ & K). auto.
  - apply (K _ _ _ _ Hin).
Qed.

Theorem convex_ends fuel : length c + 2 * (length c - 2) < fuel ->
  exists out, raw_skeleton fuel [c] = Ok out /\ length out <= length c - 2.
Proof.
  intros Hf. destruct convex_starts as (st0 & H). unfold raw_skeleton. rewrite H. cbn [bind].
  assert (Hh : forall st pend k, history st0 st pend k -> reach st0 st pend).
  { intros st pend k K. induction K; [apply reach_start|eapply reach_batch|eapply reach_event|eapply reach_event]; eauto. }
  assert (Hcur : forall st e t k, history st0 st (e :: t) k -> current (lo_slav st) e).
  { intros st e t k K. destruct (reach_cinv (start_cinv H) (Hh _ _ _ K)) as [(_ & G2 & _) _]. apply (G2 e (or_introl eq_refl)). }
  assert (Hphi : forall st pend, reach st0 st pend -> length (lo_out st) <= n - 2).
  { intros st pend K. destruct (reach_cinv (start_cinv H) K) as [_ K0].
    destruct (wavefront_intact contour_distinct contours_three contour_dormers H K0) as (R & _ & Hcap). simpl in Hcap. fold n in Hcap. lia. }
  assert (Hk : forall st pend k, history st0 st pend k -> k <= 0).
  { intros st pend k K.
    assert (Hz : forall st pend k, history st0 st pend k -> k = 0).
    { clear K st pend k. intros st pend k K. induction K as [|st k b q' K IH Hq Ha Hg|st k e t s' arcs new K IH Hcu Hha Hj|st k e t s' arcs new K IH Hcu Hha Hj]; auto.
      exfalso. destruct (reach_cinv (start_cinv H) (Hh _ _ _ K)) as [G _]. destruct (cinv_event G Hha) as [_ J]. auto. }
    rewrite (Hz _ _ _ K). auto. }
  destruct (wavefront_ends contour_distinct contours_three contour_dormers H Hcur Hk) with (fuel := fuel) as (st & k & H1 & H2).
  { simpl. rewrite app_nil_r. simpl in *. lia. }
  rewrite H1. cbn [bind]. exists (lo_out st). split; auto. apply (Hphi st []). eauto.
Qed.

End Convex.
