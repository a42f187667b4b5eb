(** * BisStart: the nodes of the event loop are equidistant from three edges *)

From Coq Require Import Reals Lra Psatz Permutation.
From Verif Require Import Py PyFacts Arith ArithR Euclid Heapq Lav Cluster LavSpec LavWalk LavWf LavInit LavNext LavGrow LoopSpec
  LavLoop LoopStart ClusterSpec PolyProofs GeoSpec GeoR GeoLines UnitProofs BisSpec BisProofs BisLoop BisInv.
Set Implicit Arguments.
Unset Strict Implicit.
Local Open Scope nat_scope.

Section Start.
Variable contours : list (list (@edge2 RA)).
Let E := concat contours.
Hypothesis Hclosed : forall c, In c contours -> closed_contour c.
Hypothesis Hplain : forall c e1 e2, In c contours -> consecutive c e1 e2 -> plain_corner E e1 e2.

(** vertex i is the corner between two consecutive edges of a contour *)
Lemma wavefront_corner (s : @slav RA) i : wavefront_of contours s -> i < length (s_vs s) ->
  exists c e1 e2, In c contours /\ consecutive c e1 e2 /\ 
    body_kept (getv (s_vs s) i) (mk_vertex 0 (ep1 e2) e1 e2 None false).
Proof.
  intros W Hi. pose proof W as (W1 & W2 & W3 & W4). rewrite W1 in Hi.
  destruct (offset_find Hi) as (k & Hk & Hin). pose proof (nth_error_nth' contours [] Hk) as Hc.
  set (c := nth k contours []) in *. pose proof (nth_error_In _ _ Hc) as Hic.
  destruct (W4 k c Hc) as (_ & pns & Hp & Hb). unfold contour_ids in Hin. fold c in Hin. apply in_seq in Hin.
  destruct (Hclosed Hic) as (Hne & _).
  destruct (circ_prev_next_spec c) as (_ & Hs). destruct (Hs Hne) as (pn & Hpn & Hlen & Hnth).
  assert (pn = pns) by congruence. subst pn.
  destruct (Hnth (i - offset contours k)) as (e1 & e2 & N1 & N2 & N3); [lia|].
  destruct (Hb _ _ N3) as (_ & _ & Bd). replace (offset contours k + (i - offset contours k)) with i in Bd by lia.
  exists c, e1, e2. split; auto. split; [exists (i - offset contours k); split; [lia|auto]|].
  destruct Bd as (S1 & S2 & S3 & S4 & S5 & S6 & S7). simpl in S1, S2, S3, S6, S7. repeat split; auto.
Qed.

Lemma corner_vert_inv c e1 e2 : In c contours -> consecutive c e1 e2 -> 
  vert_inv contours (mk_vertex 0 (ep1 e2) e1 e2 None false).
Proof.
  intros Hc Hcon. destruct (Hclosed Hc) as (_ & Hd & Hj). pose proof (Hj _ _ Hcon) as Hp.
  pose proof (Hplain Hc Hcon) as Hpl. destruct Hcon as (j & _ & N1 & N2). apply nth_error_In in N1, N2.
  pose proof (Hd _ N1) as D1. pose proof (Hd _ N2) as D2.
  assert (Z1 : ndist e1 (ep1 e2) = 0%R) by (rewrite <- Hp, <- edge_dist_n by auto; apply edge_dist_end2).
  assert (Z2 : ndist e2 (ep1 e2) = 0%R) by (rewrite <- edge_dist_n by auto; apply edge_dist_end1).
  assert (IE1 : In e1 E) by (apply in_concat; exists c; auto).
  assert (IE2 : In e2 E) by (apply in_concat; exists c; auto).
  split; [apply mk_vertex_equi; auto; congruence|]. split; auto. split; auto.
  intros Hr. apply corner_reflex in Hr. unfold plainv. simpl.
  assert (Ht : turn_sine e1 e2 = ncross (enorm e1) (enorm e2)).
  { unfold turn_sine. pose proof (orient_cross D1 D2 Hp eq_refl) as Ho. rewrite <- Hp in Ho. rewrite Ho.
    assert (0 < euclid_dist (ep1 e1) (ep2 e1))%R by (apply dist_pos; apply D1).
    assert (0 < euclid_dist (ep1 e2) (ep2 e2))%R by (apply dist_pos; apply D2).
    rewrite Hp in *. simpl. field. split; lra. }
  destruct Hpl as [P1 P2]; [rewrite Ht; exact Hr|]. rewrite Ht in P1. 
    do 3 (split; auto).
Qed.

Lemma wavefront_lk (s : @slav RA) : init_slav contours = Ok s -> lk (s_vs s).
Proof.
  intros Hi. assert (Hne : forall c, In c contours -> c <> []) by (intros c Hc; apply (Hclosed Hc)).
  destruct (init_slav_spec Hne) as (s' & Hi' & (L1 & _ & _ & L4 & _)). rewrite Hi in Hi'. apply Ok_inj in Hi'. subst s'.
  assert (G : forall i, i < length (s_vs s) ->
    v_enext (getv (s_vs s) i) = v_eprev (getv (s_vs s) (nxt_of (s_vs s) i)) /\
    v_enext (getv (s_vs s) (prv_of (s_vs s) i)) = v_eprev (getv (s_vs s) i)).
  { intros i Hl. rewrite L1 in Hl. destruct (offset_find Hl) as (k & Hk & Hin).
    pose proof (nth_error_nth' contours [] Hk) as Hc. set (c := nth k contours []) in *.
    unfold contour_ids in Hin. fold c in Hin. apply in_seq in Hin. destruct (L4 k c Hc) as (_ & _ & _ & HV). unfold offset in Hin.
    set (off := length (concat (firstn k contours))) in *. set (m := length c) in *.
    set (j := i - off). replace i with (off + j) by (unfold j; lia). assert (Hj : j < m) by (unfold j; lia).
    destruct (HV j Hj) as (ep & e & N1 & N2 & _ & P1 & P2 & X1 & X2 & _). fold m in N1, X1, X2.
    unfold nxt_of, prv_of. rewrite X1, X2.
    assert (M1 : (j + 1) mod m < m) by (apply Nat.mod_upper_bound; lia).
    assert (M2 : (j + m - 1) mod m < m) by (apply Nat.mod_upper_bound; lia).
    destruct (HV _ M1) as (ep' & e' & N1' & _ & _ & P1' & _). destruct (HV _ M2) as (ep'' & e'' & _ & N2'' & _ & _ & P2'' & _).
    fold m in N1'. rewrite P1', P2'', P1, P2.
    assert (EM : ((j + 1) mod m + m - 1) mod m = j).
    { destruct (Nat.eq_dec (j + 1) m) as [Em|]; [rewrite Em, Nat.mod_same by lia; rewrite Nat.mod_small; lia|].
      rewrite (Nat.mod_small (j + 1)) by lia. replace (j + 1 + m - 1) with (j + 1 * m) by lia.
      rewrite Nat.mod_add, Nat.mod_small; lia. }
    rewrite EM in N1'. split; congruence. }
  split; intros i Hl _; destruct (G i Hl) as [G1 G2]; [rewrite G1|rewrite G2]; apply samel_refl.
Qed.

Lemma start_sinv (s : @slav RA) : init_slav contours = Ok s -> sinv contours s /\ length (s_vs s) = length E.
Proof.
  intros Hi. assert (Hne : forall c, In c contours -> c <> []) by (intros c Hc; apply (Hclosed Hc)).
  pose proof (wavefront_lk Hi) as Hlk. destruct (init_slav_ok Hne) as (s' & Hi' & W & Ho).
  rewrite Hi in Hi'. apply Ok_inj in Hi'. subst s'. split; [|apply W].
  assert (Hv : forall i, i < length (s_vs s) -> vert_inv contours (getv (s_vs s) i)).
  { intros i Hl. destruct (wavefront_corner W Hl) as (c & e1 & e2 & Hc & Hcon & Hb).
    eapply vert_inv_kept; eauto. eapply corner_vert_inv; eauto. }
  split; [eapply wavefront_rng; eauto|]. split; auto. split; auto.
  rewrite Ho. intros oe Hin. apply in_map_iff in Hin as (i & <- & Hin). simpl. apply in_seq in Hin.
  destruct (Hv i) as (Q & I1 & _); [destruct W as (-> & _); lia|]. split; auto. apply Q.
Qed.

Hypothesis Hdorm : detectDormers contours = Ok [].

(** what holds as long as all the vertices created so far are convex *)
Definition loop_inv (s : @slav RA) (out : list subtree) : Prop :=
  length E <= length (s_vs s) /\ rng s /\
  (convex_new (length E) s -> sinv contours s /\ forall a, In a out -> equidistant E (source a) (height a)).
Definition loop_ev (s : @slav RA) (e : event) : Prop := ev_rng s e /\ (convex_new (length E) s -> einv contours s e).

Lemma convex_new_grows s s' : grows (s_vs s) (s_vs s') -> convex_new (length E) s' -> convex_new (length E) s.
Proof.
  intros [Hl Hg] H i H1 H2. destruct (Hg i H2) as [(_ & _ & _ & Hr & _) _]. rewrite <- Hr. apply H; auto. lia.
Qed.

Theorem loop_equi st0 st pend : skeleton_start contours = Ok st0 -> reach st0 st pend ->
  loop_inv (lo_slav st) (lo_out st) /\ (forall e, In e (pend ++ lo_queue st) -> loop_ev (lo_slav st) e).
Proof.
  intros Hst Hr. destruct (start_inv Hst) as (Hi & Ho & _ & _). destruct (start_sinv Hi) as [Hs Hl].
  revert st pend Hr. apply reach_invariant.
  - split; [lia|]. split; [apply Hs|]. intros _. split; auto. rewrite Ho. intros a [].
  - intros e He. unfold skeleton_start in Hst. rewrite Hi, Hdorm in Hst. cbn [bind] in Hst.
    destruct (initial_events (lo_slav st0)) as [evs|x] eqn:Ee; [|discriminate]. cbn [bind] in Hst.
    apply Ok_inj in Hst. rewrite <- Hst in He. cbn [lo_queue] in He. apply put_fold_in in He as [[]|He].
    unfold initial_events in Ee. destruct (chain_list _ _) as [ids|x] eqn:Ec; [|discriminate]. cbn [bind] in Ee.
    destruct (mapM_in Ee He) as (id & Hid & Hn). apply next_event_cand in Hn.
    assert (Hlt : id < length (s_vs (lo_slav st0))) by (eapply chain_list_range; eauto; apply Hs).
    pose proof (cand_einv Hs Hlt Hn) as K. split; [apply K|auto].
  - intros s out e s' arcs new (S1 & S2 & S3) [V1 V2] Hh.
    destruct (handle_event_grow S2 V1 Hh) as ((G1 & G2 & G3 & G4) & Ha & Hn).
    assert (B : convex_new (length E) s' -> sinv contours s' /\ (forall a, In a (out ++ arcs) -> equidistant E (source a) (height a)) /\
                (forall e', In e' new -> einv contours s' e')).
    { intros Hc. pose proof (convex_new_grows G1 Hc) as Hc0. destruct (S3 Hc0) as [S4 S5].
      eapply step_sinv; eauto. }
    split; [|split].
    + split; [destruct G1; lia|]. split; auto. intros Hc. destruct (B Hc) as (B1 & B2 & _). auto.
    + intros e' [K1 K2]. split; [destruct G1; eapply ev_rng_mono; eauto|]. intros Hc. eapply einv_mono; eauto.
      apply K2. eapply convex_new_grows; eauto.
    + intros e' He'. split; [|intros Hc; apply (proj2 (proj2 (B Hc))); auto].
      eapply scheduled_rng; eauto.
Qed.

(** every node is equidistant from three edges as long as the vertices created by the events are convex *)
Theorem nodes_equidistant st0 st pend : skeleton_start contours = Ok st0 -> reach st0 st pend ->
  (forall i, length E <= i -> i < length (s_vs (lo_slav st)) -> v_reflex (getv (s_vs (lo_slav st)) i) = false) ->
  forall a, In a (lo_out st) -> equidistant E (source a) (height a).
Proof. intros H Hr Hc. destruct (loop_equi H Hr) as ((_ & _ & K) & _). apply (K Hc). Qed.

End Start.

(** ** C31 for the vertices of the contours *)
Theorem contour_bisectors (contours : list (list (@edge2 RA))) (s : @slav RA) i :
  (forall c, In c contours -> closed_contour c) -> init_slav contours = Ok s -> i < length (s_vs s) ->
  let v := getv (s_vs s) i in
  exists c e1 e2, In c contours /\ consecutive c e1 e2 /\ v_point v = ep1 e2 /\
    (v_reflex v = true <-> orient (ep1 e1) (ep1 e2) (ep2 e2) < 0)%R /\
    lp (v_bis v) = ep1 e2 /\ l_is_ray (v_bis v) = true /\
    forall q, on_lin (v_bis v) q ->
      (edge_dist e1 q = edge_dist e2 q /\ 0 <= edge_dist e1 q /\
       (orient (ep1 e1) (ep1 e2) (ep2 e2) <> 0 -> q <> ep1 e2 -> 0 < edge_dist e1 q))%R.
Proof.
  intros Hcl Hi Hl v. assert (Hne : forall c, In c contours -> c <> []) by (intros c Hc; apply (Hcl c Hc)).
  destruct (init_slav_ok Hne) as (s' & Hi' & W & _). rewrite Hi in Hi'. apply Ok_inj in Hi'. subst s'.
  destruct (wavefront_corner Hcl W Hl) as (c & e1 & e2 & Hc & Hcon & Hb). exists c, e1, e2. split; auto. split; auto.
  destruct (Hcl c Hc) as (_ & Hd & Hj). pose proof (Hj _ _ Hcon) as Hp.
  destruct Hcon as (j & _ & N1 & N2). apply nth_error_In in N1, N2.
  destruct (@corner_bisector 0 (ep1 e2) e1 e2 (Hd _ N1) (Hd _ N2) Hp eq_refl) as (C1 & C2 & C3 & C4).
  destruct Hb as (B1 & _ & _ & B4 & B5). unfold v. rewrite B1, B4, B5. split; auto.
Qed.

(** ** C32: one edge event *)
Theorem edge_event_equidistant (va vb : @lavertex RA) e p :
  directed (v_eprev va) -> directed e -> directed (v_enext vb) -> v_enext va = e -> v_eprev vb = e ->
  bisects (v_bis va) (v_eprev va) e -> bisects (v_bis vb) e (v_enext vb) ->
  line_intersect (v_bis va) (v_bis vb) = Some p ->
  edge_dist (v_eprev va) p = edge_dist e p /\ edge_dist e p = edge_dist (v_enext vb) p /\
  line_distance (Line2_edge e) p = Rabs (edge_dist e p) /\
  forall id dirs fc, bisects (v_bis (mk_vertex (A := RA) id p (v_eprev va) (v_enext vb) dirs fc)) (v_eprev va) (v_enext vb).
Proof.
  intros D1 D2 D3 Ea Eb Ba Bb Hi. apply line_intersect_R in Hi. destruct Hi as (_ & O1 & O2).
  pose proof (Ba _ O1) as H1. pose proof (Bb _ O2) as H2. split; auto. split; auto. split; [apply line_distance_abs; auto|].
  intros. apply mk_vertex_bisects; auto. congruence.
Qed.

(** the events waiting in the loop *)
Theorem events_equidistant (contours : list (list (@edge2 RA))) st0 st pend :
  (forall c, In c contours -> closed_contour c) ->
  (forall c e1 e2, In c contours -> consecutive c e1 e2 -> plain_corner (concat contours) e1 e2) ->
  detectDormers contours = Ok [] -> skeleton_start contours = Ok st0 -> reach st0 st pend ->
  let vs := s_vs (lo_slav st) in
  (forall i, length (concat contours) <= i -> i < length vs -> v_reflex (getv vs i) = false) ->
  (forall i, i < length vs -> bisects (v_bis (getv vs i)) (v_eprev (getv vs i)) (v_enext (getv vs i))) /\
  forall d p va vb, In (EdgeEv d p va vb) (pend ++ lo_queue st) ->
    edge_dist (v_eprev (getv vs va)) p = edge_dist (v_enext (getv vs vb)) p /\ equidistant (concat contours) p d.
Proof.
  intros H1 H2 H3 H4 H5 vs H6. destruct (loop_equi H1 H2 H3 H4 H5) as ((_ & _ & K) & Q).
  destruct (K H6) as ((_ & _ & Kv & _) & _). split.
  - intros i Hi q Hq. destruct (Kv i Hi) as (Ke & _). rewrite !edge_dist_n by apply Ke. apply equi_on; auto.
  - intros d p va vb Hin. destruct (Q _ Hin) as [Hr Hv]. specialize (Hv H6). destruct Hv as [_ [V1 V2]].
    destruct Hr as [Ra Rb]. destruct (Kv va Ra) as (Ka & _). destruct (Kv vb Rb) as (Kb & _).
    rewrite !edge_dist_n; auto; [apply Kb|apply Ka].
Qed.

(** ** no dormers without right turns *)
Lemma rllr_none l pos : (forall t, In t l -> t <> TR) -> rllr_matches pos l = [].
Proof.
  revert pos. induction l as [|t l IH]; intros pos H; cbn [rllr_matches]; auto.
  rewrite IH by (intros x Hx; apply H; right; auto).
  destruct t; auto. exfalso; apply (H TR); [left; auto|auto].
Qed.

Lemma no_sharp_right (c : list (@edge2 RA)) rest : c <> [] ->
  (forall e1 e2, consecutive c e1 e2 -> -99 / 100 <= ncross (enorm e1) (enorm e2))%R -> detectDormers (c :: rest) = Ok [].
Proof.
  intros Hne Hc. unfold detectDormers. cbn [py_get bind]. 
  change (py_get (c :: rest) 0) with (Ok c). cbn [bind]. unfold turn_sequence.
  destruct (circ_prev_next_spec c) as (_ & Hs). destruct (Hs Hne) as (pn & Hpn & Hlen & Hnth). rewrite Hpn. cbn [bind].
  set (sq := map _ pn).
  assert (Hsq : forall t, In t sq -> t <> TR).
  { intros t Ht. unfold sq in Ht. apply in_map_iff in Ht as ((e1 & e2) & <- & Hin). cbn [fst snd].
    apply In_nth_error in Hin as (j & Hj).
    assert (Hlt : j < length c) by (rewrite <- Hlen; apply nth_error_Some; congruence).
    destruct (Hnth j Hlt) as (e1' & e2' & N1 & N2 & N3). rewrite Hj in N3. injection N3 as <- <-.
    assert (K : (-99 / 100 <= ncross (enorm e1) (enorm e2))%R) by (apply Hc; exists j; auto).
    unfold coder. destruct (ngtb _ _); [discriminate|].
    match goal with |- context [if ?b then _ else _] => destruct b eqn:Eb end; [|discriminate].
    rewrite vcross_R in Eb. cbn [RA nltb lit] in Eb. apply Rltb_lt in Eb. unfold ncross in K. exfalso.
    simpl in *. lra. }
  rewrite rllr_none by (intros t Ht; apply in_app_iff in Ht as [Ht|Ht]; auto).
  change (filter_overlapping (map (dormer_index (length sq)) (dormer_starts (length sq) 0 []))) with (@nil (list nat)).
  destruct (Nat.eqb _ _); reflexivity.
Qed.

Lemma no_dormers (c : list (@edge2 RA)) rest : c <> [] ->
  (forall e1 e2, consecutive c e1 e2 -> 0 <= ncross (enorm e1) (enorm e2))%R -> detectDormers (c :: rest) = Ok [].
Proof. intros Hne Hc. apply no_sharp_right; auto. intros e1 e2 H. specialize (Hc _ _ H). lra. Qed.
