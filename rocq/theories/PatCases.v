(** * PatCases: circles of apses over the real numbers; concrete contours in IEEE arithmetic *)

From Coq Require Import Sorted Permutation Reals Lra ZArith.
From Verif Require Import Py PyFacts Arith ArithR ArithF Euclid Lav Cluster ClusterSpec GeoSpec GeoR GeoLines PolyProofs LavInit LavNext RSpec BisSpec BisProofs PropsLav
  PatSpec PatProofs PatEvents.
Set Implicit Arguments.
Unset Strict Implicit.
Local Open Scope nat_scope.

Lemma run_point (A : arith) (c : list (@edge2 A)) s e pts : c <> [] -> run_points c s e pts -> forall k, k < e - s ->
  exists w, edge_at c (s + k) = Some w /\ nth_error pts k = Some (ep1 w).
Proof.
  intros Hne (H1 & H2) k Hk. destruct (nth_error pts k) as [p|] eqn:E; [|apply nth_error_None in E; lia].
  destruct (H2 k p E) as (w & W1 & ->). eauto.
Qed.

(** first, middle and last vertex of the run lie on a circle around the center *)
Definition circle_of (c : list (@edge2 RA)) (s e : nat) (ctr : vec RA) : Prop :=
  exists w0 wm wl, edge_at c s = Some w0 /\ edge_at c (s + (e - s) / 2) = Some wm /\ edge_at c (e - 1) = Some wl /\
    orient (ep1 w0) (ep1 wm) (ep1 wl) <> 0%R /\
    euclid_dist ctr (ep1 w0) = euclid_dist ctr (ep1 wm) /\ euclid_dist ctr (ep1 wm) = euclid_dist ctr (ep1 wl).
Definition flat_run (c : list (@edge2 RA)) (s e : nat) : Prop :=
  exists w0 wm wl, edge_at c s = Some w0 /\ edge_at c (s + (e - s) / 2) = Some wm /\ edge_at c (e - 1) = Some wl /\
    orient (ep1 w0) (ep1 wm) (ep1 wl) = 0%R.

Lemma run_circle (c : list (@edge2 RA)) s e pts : c <> [] -> s + 6 <= e -> run_points c s e pts ->
  match fitCircle3Points pts with
  | Ok (ctr, _) => circle_of c s e ctr
  | Err x => x = ZeroDivisionError /\ flat_run c s e
  end.
Proof.
  intros Hne Hse Hp. pose proof Hp as (Hl & _).
  assert (Hd : (e - s) / 2 < e - s) by (apply Nat.div_lt; lia).
  destruct (run_point Hne Hp (k := 0)) as (w0 & W0 & P0); [lia|]. rewrite Nat.add_0_r in W0.
  destruct (run_point Hne Hp Hd) as (wm & Wm & Pm).
  destruct (run_point Hne Hp (k := e - s - 1)) as (wl & Wl & Pl); [lia|]. replace (s + (e - s - 1)) with (e - 1) in Wl by lia.
  rewrite <- Hl in Pm at 1. rewrite <- Hl in Pl.
  destruct (fitCircle_R P0 Pm Pl) as [F1 F2].
  destruct (Req_dec (orient (ep1 w0) (ep1 wm) (ep1 wl)) 0) as [Ho|Ho].
  - rewrite (F1 Ho). split; auto. exists w0, wm, wl. auto.
  - destruct (F2 Ho) as (ctr & r & E & D0 & Dm & Dl). rewrite E. exists w0, wm, wl. repeat split; auto; congruence.
Qed.

Theorem apse_circles (c : list (@edge2 RA)) : c <> [] ->
  (forall cs, detectApses c = Ok (Some cs) -> exists rs, StronglySorted (fun a b => fst a < fst b) rs /\
     (forall s e, In (s, e) rs <-> smooth_run c s e) /\ Forall2 (fun r ctr => circle_of c (fst r) (snd r) ctr) rs cs) /\
  (forall x, detectApses c = Err x -> x = ZeroDivisionError /\ exists s e, smooth_run c s e /\ flat_run c s e).
Proof.
  intros Hne. destruct (detectApses_spec Hne) as (rs & H1 & H2 & H3 & H4 & H5).
  assert (Hd : rs = [] \/ rs <> []) by (destruct rs; [auto|right; discriminate]).
  split.
  - intros cs Hc. destruct Hd as [Hr|Hr]; [rewrite (H4 Hr) in Hc; discriminate|]. specialize (H5 Hr). rewrite Hc in H5.
    exists rs. split; auto. split; auto.
    assert (H2' : forall r, In r rs -> smooth_run c (fst r) (snd r)) by (intros [s e] H; apply H2; auto).
    clear -Hne H5 H2'. induction H5 as [|r ctr l l' (pts & R & P1 & P2) HF IH]; constructor.
    + destruct (H2' r (or_introl eq_refl)) as (_ & S1 & _). pose proof (run_circle Hne S1 P1) as K. rewrite P2 in K. exact K.
    + apply IH. intros; apply H2'; right; auto.
  - intros x Hc. destruct Hd as [Hr|Hr]; [rewrite (H4 Hr) in Hc; discriminate|]. specialize (H5 Hr). rewrite Hc in H5.
    destruct H5 as ([s e] & pts & Hin & P1 & P2). apply H2 in Hin as Hrun. pose proof Hrun as (_ & S1 & _).
    pose proof (run_circle Hne S1 P1) as K. rewrite P2 in K. destruct K as [-> K]. split; auto. exists s, e. auto.
Qed.

(** ** the dormer events in the queue at the start *)
Lemma made_in (A : arith) (evs : list (option (@event A))) dms idx es : made evs dms idx es ->
  forall e, In e es -> exists dm, In dm dms /\ makes evs dm e.
Proof.
  induction 1 as [|dm dms idx es e He Hm IH|dm dms idx es Hno Hm IH]; simpl; intros e0 H; [contradiction| |].
  - destruct H as [<-|H]; [eauto|]. apply IH in H as (d & D1 & D2). eauto.
  - apply IH in H as (d & D1 & D2). eauto.
Qed.

Lemma without_in T idx (l kept : list T) x : without idx l kept -> In x kept -> exists i, nth_error l i = Some x.
Proof.
  intros (ps & _ & _ & HF) Hin. induction HF as [|i y ps kept H HF IH]; [contradiction|]. destruct Hin as [<-|Hin]; eauto.
Qed.

Lemma start_slav (A : arith) (contours : list (list (@edge2 A))) st0 : skeleton_start contours = Ok st0 ->
  init_slav contours = Ok (lo_slav st0).
Proof.
  intros H. unfold skeleton_start in H.
  destruct (init_slav contours) as [s|x] eqn:Ei; [|discriminate H]. cbn [bind] in H.
  destruct (detectDormers contours) as [dms|x] eqn:Ed; [|discriminate H]. cbn [bind] in H.
  destruct (initial_events s) as [evs|x] eqn:Ee; [|discriminate H]. cbn [bind] in H.
  match type of H with bind ?m _ = _ => destruct m; [|discriminate H] end. cbn [bind] in H. apply Ok_inj in H. subst st0. reflexivity.
Qed.

(** the vertices of the outer contour *)
Lemma outer_vertex (A : arith) (c : list (@edge2 A)) rest s j : init_slav (c :: rest) = Ok s -> j < length c ->
  contour_vertex c 0 0 j (getv (s_vs s) j) /\
  exists e1 e2, edge_at c (j + length c - 1) = Some e1 /\ edge_at c j = Some e2 /\
    v_reflex (getv (s_vs s) j) = v_reflex (mk_vertex 0 (ep1 e2) e1 e2 None false).
Proof.
  intros Hi Hj.
  assert (Hne : forall c', In c' (c :: rest) -> c' <> []).
  { intros c' Hc ->. rewrite init_slav_err in Hi; [discriminate Hi|]. exists []. auto. }
  split.
  - destruct (init_slav_spec Hne) as (s' & H1 & (_ & _ & _ & H2 & _)). rewrite Hi in H1. apply Ok_inj in H1. subst s'.
    destruct (H2 0 c eq_refl) as (_ & _ & _ & H3). exact (H3 j Hj).
  - destruct (init_slav_ok Hne) as (s' & H1 & (_ & _ & _ & W) & _). rewrite Hi in H1. apply Ok_inj in H1. subst s'.
    destruct (W 0 c eq_refl) as (_ & pns & Hp & Hb).
    destruct (circ_prev_next_spec c) as (_ & Hs). destruct (Hs (Hne c (or_introl eq_refl))) as (pn & Hpn & Hlen & Hnth).
    rewrite Hp in Hpn. apply Ok_inj in Hpn. subst pn.
    destruct (Hnth j Hj) as (e1 & e2 & N1 & N2 & N3). destruct (Hb j _ N3) as (_ & _ & Bd).
    exists e1, e2. unfold edge_at. rewrite (Nat.mod_small j) by auto. split; auto. split; auto.
    change (offset (c :: rest) 0 + j) with j in Bd. apply Bd.
Qed.

Theorem start_dormer_events (c : list (@edge2 RA)) rest st0 d dp vp dn vn de ipe va vb :
  skeleton_start (c :: rest) = Ok st0 -> In (DormerEv d dp vp dn vn de ipe va vb) (lo_queue st0) ->
  exists s w, s + 3 < length c /\ dormer_at c s /\ isolated c s /\ base_width c s w /\ d = ndiv w twoN /\
    vp = s /\ vn = s + 3 /\ (va = s /\ vb = s + 1 \/ va = s + 1 /\ vb = s + 2).
Proof.
  intros Hst Hin. pose proof (start_slav Hst) as Hi.
  destruct (start_events Hst) as (evs & dms & idx & es & kept & E1 & E2 & E3 & E4 & E5 & E6).
  assert (Hne : c <> []).
  { intros ->. rewrite init_slav_err in Hi; [discriminate Hi|]. exists []. simpl. auto. }
  assert (Hlav : forall i, i < length c -> v_reflex (getv (s_vs (lo_slav st0)) i) = true -> v_lav (getv (s_vs (lo_slav st0)) i) <> None).
  { intros i Hlt _. destruct (outer_vertex Hi Hlt) as ((e & e' & _ & _ & _ & _ & _ & _ & _ & V & _) & _). rewrite V. discriminate. }
  assert (Hev : forall i e, i < length c -> nth_error evs i = Some (Some e) -> candidate (lo_slav st0) i e /\ (is_split e -> ~ left_turn c i)).
  { intros i e Hlt Hn. apply E3 in Hn. destruct (next_event_candidate (Hlav i Hlt)) as (o & O1 & _ & O2).
    rewrite Hn in O1. apply Ok_inj in O1. destruct (O2 e (eq_sym O1)) as [C1 C2]. split; auto. intros Hs Hl. apply C2 in Hs.
    destruct (outer_vertex Hi Hlt) as (_ & e1 & e2 & N1 & N2 & R). rewrite R in Hs. apply corner_reflex in Hs.
    destruct Hl as (x & (f1 & f2 & F1 & F2 & ->) & Hx). rewrite N1 in F1. rewrite N2 in F2. injection F1 as <-. injection F2 as <-.
    rewrite vcross_R in Hx. cbn [RA nltb] in Hx. rewrite Rltb_lt in Hx. unfold ncross in Hs. simpl in Hx, Hs. lra. }
  assert (Hin' : In (DormerEv d dp vp dn vn de ipe va vb) es).
  { eapply Permutation_in in Hin; [|exact E6]. apply in_app_iff in Hin as [Hin|Hin]; auto. exfalso.
    apply somes_in in Hin. destruct (without_in E5 Hin) as (i & Hn). apply E3 in Hn as Hne'.
    assert (Hc : candidate (lo_slav st0) i (DormerEv d dp vp dn vn de ipe va vb)).
    { assert (Hl : v_reflex (getv (s_vs (lo_slav st0)) i) = true -> v_lav (getv (s_vs (lo_slav st0)) i) <> None).
      { intros _. assert (Hlt : i < length evs) by (apply nth_error_Some; congruence). rewrite E2 in Hlt.
        assert (Hall : forall c', In c' (c :: rest) -> c' <> []).
        { intros c' Hc ->. rewrite init_slav_err in Hi; [discriminate Hi|]. exists []. auto. }
        destruct (init_slav_spec Hall) as (s' & H1 & (_ & _ & _ & H2 & _)). rewrite Hi in H1. apply Ok_inj in H1. subst s'.
        destruct (offset_find Hlt) as (k & Hk & Hink). pose proof (nth_error_nth' (c :: rest) [] Hk) as Hck.
        destruct (H2 k _ Hck) as (_ & _ & _ & H3). unfold contour_ids in Hink. apply in_seq in Hink.
        destruct (H3 (i - offset (c :: rest) k)) as (e & e' & _ & _ & _ & _ & _ & _ & _ & V & _); [lia|].
        change (length (concat (firstn k (c :: rest)))) with (offset (c :: rest) k) in V.
        replace (offset (c :: rest) k + (i - offset (c :: rest) k)) with i in V by lia. rewrite V. discriminate. }
      destruct (next_event_candidate Hl) as (o & O1 & _ & O2). rewrite Hne' in O1. apply Ok_inj in O1. destruct (O2 _ (eq_sym O1)); auto. }
    inversion Hc as [| |oe e0 _ _ Hsp]. apply split_candidate_shape in Hsp as (b & K & _). discriminate K. }
  destruct (made_in E4 Hin') as (dm & D1 & D2).
  destruct (dormers_sound Hne E1) as (HF & _). rewrite Forall_forall in HF.
  destruct (HF dm D1) as (s & p & Q1 & Q2 & Q3 & _ & _ & Q4 & Q5 & Q6). exists s, (snd dm).
  destruct D2 as (i0 & i1 & i2 & i3 & dp' & ipp & vp' & op & de' & ipe' & va' & vb' & x & dn' & ipn & vn' & on & L0 & L1 & L2 & P & M0 & M1 & M2 & M3 & K).
  injection K as -> -> -> -> -> -> -> -> ->.
  assert (Hr : forall i, In i [i0; i1; i2; i3] -> i < length c /\ i0 <= i <= i3).
  { intros i H. split; [|simpl in H; lia]. eapply Permutation_in in H; [|apply Permutation_sym; exact P]. rewrite Q4 in H.
    unfold dormer_vertices in H. apply in_map_iff in H as (k & <- & _). apply Nat.mod_upper_bound. lia. }
  assert (Hk : forall k, k < 4 -> In ((s + k) mod length c) [i0; i1; i2; i3]).
  { intros k H. eapply Permutation_in; [exact P|]. rewrite Q4. unfold dormer_vertices. apply in_map_iff. exists k. split; auto. simpl. lia. }
  assert (H0 : i0 < length c) by (apply Hr; simpl; auto). assert (H1 : i1 < length c) by (apply Hr; simpl; auto).
  assert (H3 : i3 < length c) by (apply Hr; simpl; auto).
  destruct (Hev i0 _ H0 M0) as [C0 S0]. destruct (Hev i1 _ H1 M1) as [C1 _]. destruct (Hev i3 _ H3 M3) as [C3 S3].
  specialize (S0 I). specialize (S3 I).
  assert (Hs3 : s + 3 < length c).
  { destruct (Nat.lt_ge_cases (s + 3) (length c)) as [|Hw]; auto. exfalso. pose proof (isolated_n4 Hne Q2 Q3) as Hn4.
    destruct Q2 as (T0 & T1 & T2 & T3).
    assert (Hz : (s + (length c - s)) mod length c = 0) by (replace (s + (length c - s)) with (length c) by lia; apply Nat.mod_same; lia).
    assert (Z0 : i0 = 0).
    { pose proof (Hk (length c - s) ltac:(lia)) as Hz'. rewrite Hz in Hz'. apply Hr in Hz'. lia. }
    assert (Z3 : i3 = length c - 1).
    { pose proof (Hk (length c - 1 - s) ltac:(lia)) as Hz'. rewrite Nat.mod_small in Hz' by lia. apply Hr in Hz'. lia. }
    assert (length c - s = 1 \/ length c - s = 2 \/ length c - s = 3) as [G|[G|G]] by lia.
    - apply S0. eapply same_mod_left; [auto| |exact T1]. rewrite Z0, <- G, Hz, Nat.mod_small; lia.
    - apply S0. eapply same_mod_left; [auto| |exact T2]. rewrite Z0, <- G, Hz, Nat.mod_small; lia.
    - apply S3. replace i3 with (s + 2) by lia. exact T2. }
  assert (E : [i0; i1; i2; i3] = [s; s + 1; s + 2; s + 3]).
  { apply sorted_unique.
    - repeat (constructor; [|apply Forall_forall; intros y Hy; simpl in Hy; lia]). constructor.
    - repeat (constructor; [|apply Forall_forall; intros y Hy; simpl in Hy; lia]). constructor.
    - eapply Permutation_trans; [apply Permutation_sym; exact P|]. rewrite Q4. unfold dormer_vertices. cbn [map].
      rewrite Nat.add_0_r. rewrite !Nat.mod_small by lia. apply Permutation_refl. }
  injection E as -> -> -> ->.
  repeat (split; auto).
  - inversion C0 as [| |oe e0 _ _ Hsp]. apply split_candidate_shape in Hsp as (b & K & _). injection K. auto.
  - inversion C3 as [| |oe e0 _ _ Hsp]. apply split_candidate_shape in Hsp as (b & K & _). injection K. auto.
  - destruct (outer_vertex Hi H1) as ((e & e' & _ & _ & _ & _ & _ & Vn & Vp & _) & _).
    inversion C1 as [p0 v0 _ |p0 v0 _ |oe e0 _ _ Hsp].
    + left. fold v0 in Vp. split; auto. rewrite Vp. simpl. replace (s + 1 + length c - 1) with (s + 1 * length c) by lia.
      rewrite Nat.mod_add by lia. apply Nat.mod_small. lia.
    + right. fold v0 in Vn. split; auto. rewrite Vn. simpl. rewrite Nat.mod_small by lia. lia.
    + apply split_candidate_shape in Hsp as (b & K & _). discriminate K.
Qed.

(** ** concrete contours *)

(** half a circle on a rectangle; the circle goes through the first vertex *)
Definition hall := polygon 0 [Pt 98 (-17); Pt 100 0; Pt 97 26; Pt 87 50; Pt 71 71; Pt 50 87; Pt 26 97; Pt 0 100; Pt (-200) 100;
  Pt (-200) (-100); Pt 0 (-100); Pt 26 (-97); Pt 50 (-87); Pt 71 (-71); Pt 87 (-50); Pt 94 (-34)].

Lemma hall_sequence : apse_sequence hall = Ok [true; true; true; true; true; true; true; true; false; false; true;
        true; true; true; true; true].
Proof. vm_compute. reflexivity. Qed.

Lemma hall_smooth i : smooth hall i <-> i mod 16 <> 8 /\ i mod 16 <> 9.
Proof.
  destruct (@apse_seq F64 hall) as (sq & S1 & S2 & S3); [discriminate|]. rewrite hall_sequence in S1. apply Ok_inj in S1. subst sq.
  destruct (S3 i) as [S4 _]. rewrite <- S4. change (length hall) with 16.
  pose proof (Nat.mod_upper_bound i 16 ltac:(lia)) as Hb. revert Hb. generalize (i mod 16). clear.
  intros k Hk. do 16 (destruct k as [|k]; [simpl; split; [intros H; first [discriminate H|split; discriminate]|tauto]|]). lia.
Qed.

Lemma hall_run : smooth_run hall 10 24.
Proof.
  split; [compute; lia|]. split; [lia|]. split; [|split].
  - intros i Hi. apply hall_smooth. assert (i = 10 \/ i = 11 \/ i = 12 \/ i = 13 \/ i = 14 \/ i = 15 \/ i = 16 \/ i = 17 \/ i = 18 \/ i = 19 \/ i = 20 \/ i = 21 \/ i = 22 \/ i = 23) as K by lia.
    repeat (destruct K as [->|K]; [vm_compute; split; discriminate|]). subst. vm_compute; split; discriminate.
  - intros K. apply hall_smooth in K. vm_compute in K. tauto.
  - right. intros K. apply hall_smooth in K. vm_compute in K. tauto.
Qed.

(** the whole half circle is the run from 10 to 24; the part from 0 to 8 is reported as well *)
Lemma hall_two_centers :
  exists c : list (@edge2 F64), smooth_run c 10 24 /\ smooth_run c 0 8 /\ smooth c (0 + length c - 1) /\
    match detectApses c with Ok (Some cs) => length cs = 2 | _ => False end.
Proof.
  exists hall. split; [|split; [|split]].
  - exact hall_run.
  - split; [compute; lia|]. split; [lia|]. split; [|split].
    + intros i Hi. apply hall_smooth. rewrite Nat.mod_small by lia. lia.
    + intros K. apply hall_smooth in K. vm_compute in K. tauto.
    + left. reflexivity.
  - apply hall_smooth. vm_compute. split; discriminate.
  - vm_compute. reflexivity.
Qed.

(** a wall with two dormers; the first one is next to a corner *)
Definition P10 (x y : Z) : vec F64 := V2 (lit (a := F64) x 10) (lit (a := F64) y 10).
Definition two := polygon 0 [P10 0 0; P10 12 0; P10 12 (-20); P10 42 (-20); P10 42 0; P10 150 0; P10 150 (-20); P10 180 (-20); P10 180 0;
  P10 300 0; P10 300 200; P10 0 200].

Lemma two_sequence : turn_sequence two = Ok [TL; TR; TL; TL; TR; TR; TL; TL; TR; TL; TL; TL].
Proof. vm_compute. reflexivity. Qed.

Lemma two_reported : match detectDormers [two] with Ok ds => map fst ds = [[1; 2; 3; 4]; [5; 6; 7; 8]] | Err _ => False end.
Proof. vm_compute. reflexivity. Qed.

Lemma two_turns i : (left_turn two i <-> In (i mod 12) [0; 2; 3; 6; 7; 9; 10; 11]) /\ (right_turn two i <-> In (i mod 12) [1; 4; 5; 8]).
Proof.
  destruct (@turn_seq_spec F64 two) as (sq & S1 & S2 & S3); [discriminate|]. rewrite two_sequence in S1. apply Ok_inj in S1. subst sq.
  destruct (S3 i) as (S4 & S5 & _). rewrite <- S4, <- S5. change (length two) with 12.
  pose proof (Nat.mod_upper_bound i 12 ltac:(lia)) as Hb. revert Hb. generalize (i mod 12). clear.
  intros k Hk. do 12 (destruct k as [|k]; [simpl; split; split; intros H; first [discriminate H|tauto|exfalso; lia]|]). lia.
Qed.

(** the first one is reported although the wall before it is too short for a dormer next to a corner *)
Lemma two_own_neighbours :
  exists (c : list (@edge2 F64)) ds s w, detectDormers [c] = Ok ds /\ In (dormer_vertices c s, w) ds /\ dormer_at c s /\
    left_turn c (s + length c - 1) /\ ~ sizes_ok c s s.
Proof.
  pose proof two_reported as H. destruct (detectDormers [two]) as [ds|x] eqn:Ed; [|contradiction].
  destruct ds as [|[oi w] ds]; [discriminate H|]. exists two, ((oi, w) :: ds), 1, w. split; auto.
  cbn [map fst] in H. injection H as -> _.
  split; [left; reflexivity|]. split; [|split].
  - split; [|split; [|split]]; apply two_turns; vm_compute; tauto.
  - apply two_turns. vm_compute. tauto.
  - destruct (@turn_seq_spec F64 two) as (sq & S1 & S2 & S3); [discriminate|]. rewrite two_sequence in S1. apply Ok_inj in S1. subst sq.
    assert (Hs : 1 < length two) by (compute; lia).
    pose proof (@dormer_check_spec F64 two _ 1 1 ltac:(discriminate) S2 Hs S3) as K.
    replace (dormer_check two [TL; TR; TL; TL; TR; TR; TL; TL; TR; TL; TL; TL] 1 (dormer_index (length two) 1)) with (Ok (@nil (list nat * num F64))) in K
      by (vm_compute; reflexivity). exact K.
Qed.

(** a wall with one dormer, and the same contour listed from another vertex on *)
Definition one := polygon 0 [Pt 0 0; Pt 10 0; Pt 10 (-2); Pt 13 (-2); Pt 13 0; Pt 30 0; Pt 30 20; Pt 0 20].
Definition one_turned := polygon 0 [Pt 10 (-2); Pt 13 (-2); Pt 13 0; Pt 30 0; Pt 30 20; Pt 0 20; Pt 0 0; Pt 10 0].

Definition is_dormer (e : @event F64) : bool := match e with DormerEv _ _ _ _ _ _ _ _ _ => true | _ => false end.

Lemma one_events :
  match detectDormers [one], skeleton_start [one] with
  | Ok ds, Ok st => map fst ds = [[1; 2; 3; 4]] /\ length (filter is_dormer (lo_queue st)) = 1 /\ length (lo_queue st) = 5
  | _, _ => False
  end.
Proof. vm_compute. auto. Qed.

Lemma one_turned_events :
  match detectDormers [one_turned], skeleton_start [one_turned] with
  | Ok ds, Ok st => map fst ds = [[7; 0; 1; 2]] /\ length (filter is_dormer (lo_queue st)) = 0 /\ length (lo_queue st) = 8
  | _, _ => False
  end.
Proof. vm_compute. auto. Qed.

Lemma one_turned_differs :
  exists c c' : list (@edge2 F64),
    map (@ep1 F64) c' = skipn 2 (map (@ep1 F64) c) ++ firstn 2 (map (@ep1 F64) c) /\
    match detectDormers [c], detectDormers [c'], skeleton_start [c], skeleton_start [c'] with
    | Ok ds, Ok ds', Ok st, Ok st' => length ds = 1 /\ length ds' = 1 /\
        length (filter is_dormer (lo_queue st)) = 1 /\ length (filter is_dormer (lo_queue st')) = 0
    | _, _, _, _ => False
    end.
Proof. exists one, one_turned. split; [reflexivity|]. vm_compute. auto. Qed.
