(** * StepProofs: what one event does to the wavefront (C53) *)

From Coq Require Import Permutation.
From Verif Require Import Py PyFacts Arith Euclid Lav LavSpec LavWalk LavWf LavRing LavInit LavNext LavGrow LavStep LavSplit
  LoopSpec LavLoop LoopStart WaveSpec Cluster LavWave StepSpec.
Set Implicit Arguments.
Unset Strict Implicit.
Local Open Scope nat_scope.

Section Step.
Context {A : arith}.
Implicit Type s : @slav A.
Implicit Type st : @loop_state A.
Notation event := (@event A).
Notation edge2 := (@edge2 A).

(** ** the search for the place that a split event hits *)
Lemma split_here_facing s ip opp v x y : split_here (s_vs s) ip opp v = Some (x, y) -> facing s ip y x = true.
Proof.
  unfold split_here, facing, spot. 
  set (o := if veq (enorm opp) (enorm (v_eprev (getv (s_vs s) v))) && _ then _ else _). destruct o as [[x' y']|]; [|discriminate].
  match goal with |- (if ?b then _ else _) = _ -> _ => destruct b eqn:E; [|discriminate] end.
  intros H. injection H as -> ->. exact E.
Qed.

Lemma find_split_facing s ip opp ids x y : find_split (s_vs s) ip opp ids = Some (x, y) -> facing s ip y x = true.
Proof.
  induction ids as [|v ids IH]; simpl; [discriminate|]. destruct (split_here (s_vs s) ip opp v) as [[x' y']|] eqn:E; auto.
  intros H. injection H as -> ->. eapply split_here_facing; eauto.
Qed.

Lemma find_lavs_facing s ip opp ls x y : find_split_lavs s ip opp ls = Ok (Some (x, y)) -> facing s ip y x = true.
Proof.
  induction ls as [|l ls IH]; simpl; [discriminate|]. destruct (lav_iter s l) as [ids e].
  destruct (find_split (s_vs s) ip opp ids) as [[x' y']|] eqn:Ef.
  - intros H. apply Ok_inj in H. injection H as -> ->. eapply find_split_facing; eauto.
  - destruct e; [discriminate|]. auto.
Qed.

Lemma find_lavs_none s ip opp ls : find_split_lavs s ip opp ls = Ok None ->
  forall l v, In l ls -> In v (fst (lav_iter s l)) -> split_here (s_vs s) ip opp v = None.
Proof.
  induction ls as [|k ls IH]; simpl; intros H l v Hl Hv; [destruct Hl|]. destruct Hl as [<-|Hl].
  - destruct (lav_iter s k) as [ids e]. destruct (find_split (s_vs s) ip opp ids) as [xy|] eqn:Ef; [apply Ok_inj in H; discriminate|].
    simpl in Hv. clear - Ef Hv. induction ids as [|w ids IH]; [destruct Hv|]. simpl in Ef.
    destruct (split_here (s_vs s) ip opp w) eqn:Es; [discriminate|]. destruct Hv as [<-|Hv]; auto.
  - destruct (lav_iter s k) as [ids e]. destruct (find_split (s_vs s) ip opp ids) as [xy|] eqn:Ef; [apply Ok_inj in H; discriminate|].
    destruct e; [discriminate|]. eauto.
Qed.

Lemma split_here_miss s ip opp x : split_here (s_vs s) ip opp x = None ->
  recognised opp (v_eprev (getv (s_vs s) x)) = true -> facing s ip (v_prev (getv (s_vs s) x)) x = false.
Proof.
  unfold split_here, recognised, facing, spot. intros H Hr. rewrite Hr in H.
  match type of H with (if ?b then _ else _) = _ => destruct b eqn:E; [discriminate|] end. reflexivity.
Qed.

(** ** rings *)
Variable contours : list (list edge2).
Let E := concat contours.

Lemma wf_rot s R l ids : wf E s R -> In l (s_act s) -> ids <> [] ->
  ring (nxt_of (s_vs s)) (prv_of (s_vs s)) ids -> Permutation (R l) ids ->
  wf E s (fun k => if Nat.eqb k l then ids else R k).
Proof.
  intros [(H1 & H2 & H3) H4] Hl Hne Hr Hp. destruct ids as [|a t]; [congruence|].
  split; [split; [auto|split]|].
  - intros k Hk. destruct (Nat.eqb_spec k l) as [->|]; auto. destruct (H2 l Hl) as [K1 K2]. split; [eapply ring_ok_perm; eauto|].
    rewrite K2. f_equal. apply Permutation_length; auto.
  - intros i Hi Hv. destruct (H3 i Hi Hv) as (k & Hk & Hin). exists k. split; auto. destruct (Nat.eqb_spec k l) as [->|]; auto.
    eapply Permutation_in; eauto.
  - intros k Hk. destruct (Nat.eqb_spec k l) as [->|]; auto. rewrite <- (Permutation_length Hp). auto.
Qed.

Lemma wf_shows s R F : wf E s R -> Permutation (map R (s_act s)) F -> shows s F.
Proof. intros W Hp. exists R. split; auto. apply (wf_intact (contours := contours)). auto. Qed.

Lemma map_other (R : nat -> list nat) l ids L : ~ In l L -> map (fun k => if Nat.eqb k l then ids else R k) L = map R L.
Proof. intros H. apply map_ext_in. intros k Hk. destruct (Nat.eqb_spec k l); congruence. Qed.

(** the wavefront written down with one ring first, starting where we like *)
Lemma shows_at s R l L ids : wf E s R -> Permutation (s_act s) (l :: L) -> ids <> [] ->
  ring (nxt_of (s_vs s)) (prv_of (s_vs s)) ids -> Permutation (R l) ids -> shows s (ids :: map R L).
Proof.
  intros W HL Hne Hr Hp. pose proof W as [(Wn & _) _].
  assert (Hl : In l (s_act s)) by (eapply Permutation_in; [apply Permutation_sym; exact HL|left; auto]).
  apply (wf_shows (wf_rot W Hl Hne Hr Hp)). eapply Permutation_trans; [apply Permutation_map; exact HL|]. simpl.
  rewrite Nat.eqb_refl, map_other; auto. apply (Permutation_NoDup HL) in Wn. apply NoDup_cons_iff in Wn. tauto.
Qed.

Lemma corner_body s n ip e e' : v_valid (getv (s_vs s) n) = true ->
  body_kept (getv (s_vs s) n) (mk_vertex 0 ip e e' None true) -> corner_at s n ip e e' false.
Proof. intros Hv (B1 & B2 & B3 & B4 & B5). split; auto. Qed.

Lemma wf_valid s R l i : wf E s R -> In l (s_act s) -> In i (R l) -> v_valid (getv (s_vs s) i) = true.
Proof. intros [(_ & H & _) _] Hl Hi. apply (proj2 (proj2 (proj2 (proj1 (H l Hl)))) i Hi). Qed.

(** ** edge events *)
Lemma edge_effect s R d ip a b s' arcs new : wf E s R -> is_valid s a = true -> is_valid s b = true ->
  nxt_of (s_vs s) a = b -> handle_edge_event s d ip a b = Ok (s', arcs, new) -> keeps s s' ->
  exists F F', shows s F /\ shows s' F' /\ effect s F (EdgeEv d ip a b) s' F' arcs new.
Proof.
  intros W Hva Hvb Hn H Hk. pose proof W as [(W1 & W2 & W3) W4].
  pose proof (is_valid_rng Hva) as La. destruct (W3 a La Hva) as (l & Hl & Hin).
  destruct (W2 l Hl) as [Hr Hlen]. pose proof (lav_ok_lav (W2 l Hl) Hin) as Hlav.
  destruct (ring_pair Hr (W4 l Hl) Hin Hn) as (rest & Hrest & Hr2 & Hp & P1 & P2 & P3 & P4 & P5).
  pose proof (ring_NoDup Hr2) as Hnd. apply NoDup_cons_iff in Hnd as [Na Hnd1]. apply NoDup_cons_iff in Hnd1 as [Nb Hnd2].
  unfold handle_edge_event in H. rewrite Hlav in H.
  change (v_prev (getv (s_vs s) a)) with (prv_of (s_vs s) a) in H.
  change (v_next (getv (s_vs s) b)) with (nxt_of (s_vs s) b) in H.
  destruct (Nat.eqb_spec (prv_of (s_vs s) a) (nxt_of (s_vs s) b)) as [Hpk|Hpk].
  - destruct (remove_lav_ok W Hl) as (L & H1 & H2 & H3 & H4). rewrite H1 in H. cbn [bind of_option] in H.
    rewrite P1, P2 in Hpk. destruct (hd_last Hnd2 Hrest Hpk) as (c & ->).
    destruct (ring_ok_iter (s := with_act L s) (l := l) (ids := R l) Hr) as (t & _ & Hll & _ & Hp').
    rewrite Hll in H. cbn [bind] in H. apply Ok_inj, triple_inj in H. destruct H as (<- & <- & <-).
    destruct (invalidate_all_spec E (with_act L s) (l_head (getl (s_ls (with_act L s)) l) :: t)) as (_ & _ & J3 & _).
    exists ([a; b; c] :: map R L), (map R L). split; [eapply shows_at; eauto; discriminate|]. split.
    + apply wf_shows with (R := R); [|rewrite J3; auto]. split.
      * rewrite J3. apply wfL_X. eapply wfX_kill; [|exact Hp']. eapply wfX_perm; [exact H2|]. apply wfL_X. exact (proj1 W).
      * rewrite J3. intros k Hk0. apply W4. eapply Permutation_in; [apply Permutation_sym; exact H2|]. right; auto.
    + apply effect_peak with (c := c); auto. apply (Permutation_map (spot s)) with (l' := [a; b; c]).
      eapply Permutation_trans; [apply Permutation_sym; exact Hp'|exact Hp].
  - cbn [bind of_option] in H. destruct (unify s l a b ip) as [s1 nv] eqn:Eu.
    destruct (unify_ok (ip := ip) W Hl Hin Hn Hpk Eu) as (ids & U1 & U2 & U3 & U4 & U5 & U6 & U7 & U8 & rest' & -> & Hr3 & U9).
    destruct U9 as (X1 & X2 & X3 & X4 & X5 & X6 & X7 & X8 & X9 & X10 & X11).
    destruct (Nat.eqb_spec (l_head (getl (s_ls s1) l)) a); [congruence|].
    destruct (Nat.eqb_spec (l_head (getl (s_ls s1) l)) b); [congruence|]. cbn [orb] in H.
    destruct (next_event s1 nv) as [o|] eqn:Ho; [|discriminate]. cbn [bind] in H.
    apply Ok_inj, triple_inj in H. destruct H as (<- & <- & <-).
    destruct (py_remove_nodup W1 Hl) as (L & _ & H2 & _ & H4).
    exists ((a :: b :: rest') :: map R L), ((nv :: rest') :: map R L). split; [eapply shows_at; eauto; discriminate|]. split.
    + apply (wf_shows U8). rewrite U4. eapply Permutation_trans; [apply Permutation_map; exact H2|]. simpl.
      rewrite Nat.eqb_refl, map_other; auto.
    + destruct Hk as (_ & _ & Hk). pose proof (is_valid_rng Hvb) as Lb.
      replace (v_point (getv (s_vs s1) a)) with (spot s a) by (symmetry; apply (Hk a La)).
      replace (v_point (getv (s_vs s1) b)) with (spot s b) by (symmetry; apply (Hk b Lb)).
      apply effect_meet; auto; [simpl in U3; lia|]. split; [|split; auto; split; auto; split; auto; split; auto].
      apply (wf_valid (l := l) U8); [rewrite U4; auto|]. rewrite Nat.eqb_refl. left; auto.
Qed.

(** ** split events *)
Hypothesis distinct : distinct_starts E.

Lemma split_effect s R d ip v opp s' arcs new : wf E s R -> is_valid s v = true -> In opp E ->
  opp <> v_eprev (getv (s_vs s) v) -> opp <> v_enext (getv (s_vs s) v) ->
  handle_split_event s d ip v opp = Ok (s', arcs, new) ->
  exists F F', shows s F /\ shows s' F' /\ effect s F (SplitEv d ip v opp) s' F' arcs new.
Proof.
  intros W Va Ho E1 E2 H. pose proof W as [(W1 & W2 & W3) W4].
  destruct (split_event_ok distinct d ip W Va Ho E1 E2) as (s1 & arcs1 & new1 & R' & H1 & W' & _ & _ & Hst).
  rewrite H in H1. apply Ok_inj, triple_inj in H1. destruct H1 as (<- & <- & <-).
  destruct Hst as [(-> & -> & -> & -> & Hf)|(x & y & n1 & n2 & Hf & Ey & Ex & B1 & B2 & Hst)].
  - exists (map R (s_act s)), (map R (s_act s)). split; [eapply wf_shows; eauto|]. split; [eapply wf_shows; eauto|].
    apply effect_miss; auto. intros x Hx Hr. apply split_here_miss with (opp := opp); auto.
    destruct (W3 x (is_valid_rng Hx) Hx) as (k & Hk & Hi). destruct (ring_ok_iter (proj1 (W2 k Hk))) as (t & Hit & _ & _ & Hp).
    apply (find_lavs_none Hf Hk). rewrite Hit. simpl fst. eapply Permutation_in; eauto.
  - pose proof (find_lavs_facing Hf) as Hfc.
    destruct Hst as [(l & L & p & q & l1 & l2 & HL & Hr & Hp & Ha & R1 & R2 & RL & -> & Hne)|
                     (l & lx & M & p & q & l1 & HL & Hr & Hp & Hrx & Hpx & Hq & Hy & Ha & R1 & RL & -> & Hne)].
    + exists ((v :: p ++ y :: x :: q) :: map R L), (filter big [n1 :: x :: q; n2 :: p ++ [y]] ++ map R L).
      split; [eapply shows_at; eauto; discriminate|].
      assert (Hfl : map R' (filter (fun k => 3 <=? length (R' k)) [l1; l2]) = filter big [n1 :: x :: q; n2 :: p ++ [y]]).
      { cbn [filter]. unfold big. rewrite R1, R2. destruct (3 <=? length (n1 :: x :: q)), (3 <=? length (n2 :: p ++ [y])); cbn [map]; congruence. }
      split.
      { apply (wf_shows W'). rewrite Ha, map_app, Hfl.
        rewrite (map_ext_in R' R L) by (intros; apply RL; auto). apply Permutation_app_comm. }
      assert (Hb1 : big (n1 :: x :: q) = match q with [] => false | _ => true end) by (destruct q; auto).
      assert (Hb2 : big (n2 :: p ++ [y]) = match p with [] => false | _ => true end) by (destruct p as [|? p]; auto; unfold big; simpl; rewrite app_length, Nat.add_1_r; auto).
      assert (K1 : corner_at s' n1 ip (v_eprev (getv (s_vs s) v)) opp false \/ q = []).
      { destruct q as [|z q]; auto. left. apply corner_body; auto. apply (wf_valid (l := l1) W'); [|rewrite R1; left; auto].
        rewrite Ha. apply in_app_iff. right. cbn [filter]. rewrite R1. left; auto. }
      assert (K2 : corner_at s' n2 ip opp (v_enext (getv (s_vs s) v)) false \/ p = []).
      { destruct p as [|z p]; auto. left. apply corner_body; auto. apply (wf_valid (l := l2) W'); [|rewrite R2; left; auto].
        rewrite Ha. apply in_app_iff. right. apply filter_In. split; [right; left; auto|]. rewrite R2. exact Hb2. }
      assert (Hnn : exists new1 new2, new = new1 ++ new2 /\
        (if big (n1 :: x :: q) then exists o, next_event s' n1 = Ok o /\ new1 = maybe o else new1 = []) /\
        (if big (n2 :: p ++ [y]) then exists o, next_event s' n2 = Ok o /\ new2 = maybe o else new2 = [])).
      { revert Hne. cbn [filter]. rewrite R1, R2. change (3 <=? length (n1 :: x :: q)) with (big (n1 :: x :: q)).
        change (3 <=? length (n2 :: p ++ [y])) with (big (n2 :: p ++ [y])).
        destruct (big (n1 :: x :: q)), (big (n2 :: p ++ [y])); cbn [map next_events]; rewrite ?R1, ?R2; cbn [hd].
        - destruct (next_event s' n1) as [o1|]; [|discriminate]. cbn [bind]. destruct (next_event s' n2) as [o2|]; [|discriminate].
          cbn [bind]. intros H1. apply Ok_inj in H1. exists (maybe o1), (maybe o2). rewrite app_nil_r in H1. split; [auto|]. split; eauto.
        - destruct (next_event s' n1) as [o1|]; [|discriminate]. cbn [bind]. intros H1. apply Ok_inj in H1. exists (maybe o1), []. split; [auto|]. split; eauto.
        - destruct (next_event s' n2) as [o2|]; [|discriminate]. cbn [bind]. intros H1. apply Ok_inj in H1. exists [], (maybe o2).
          rewrite app_nil_r in H1. split; [auto|]. split; eauto.
        - intros H1. apply Ok_inj in H1. exists [], []. auto. }
      destruct Hnn as (new1 & new2 & -> & N1 & N2).
      replace ([v_point (getv (s_vs s) v)] ++ _ ++ _)
        with (map (spot s) (v :: left_over (n1 :: x :: q) ++ left_over (n2 :: p ++ [y]))).
      2: { cbn [map app]. rewrite map_app. f_equal. unfold left_over. rewrite Hb1, Hb2. destruct q, p; auto. }
      eapply effect_cut; eauto.
    + assert (Hl : In l (s_act s)) by (eapply Permutation_in; [apply Permutation_sym; exact HL|left; auto]).
      assert (Hlx : In lx (s_act s)) by (eapply Permutation_in; [apply Permutation_sym; exact HL|right; left; auto]).
      assert (Hnd : NoDup (l :: lx :: M)) by (eapply Permutation_NoDup; eauto).
      apply NoDup_cons_iff in Hnd as [D1 Hnd]. apply NoDup_cons_iff in Hnd as [D2 Hnd].
      destruct (exists_last Hq) as (q' & y' & ->). rewrite last_last in Hy. subst y'.
      exists ((v :: p) :: (x :: q' ++ [y]) :: map R M), ((n1 :: x :: q' ++ y :: n2 :: p) :: map R M).
      assert (Hvd : forall i, In i [n1; n2] -> v_valid (getv (s_vs s') i) = true).
      { intros i Hi. apply (wf_valid (l := l1) W').
        - rewrite Ha. apply in_app_iff. right; left; auto.
        - rewrite R1. destruct Hi as [<-|[<-|[]]]; [left; auto|]. right. right. apply in_app_iff. right; left; auto. }
      split; [|split].
      * assert (W2' := wf_rot W Hl (ids := v :: p) ltac:(discriminate) Hr Hp).
        assert (Hpx' : Permutation (if Nat.eqb lx l then v :: p else R lx) (x :: q' ++ [y])).
        { destruct (Nat.eqb_spec lx l) as [->|_]; auto. exfalso. apply D1; left; auto. }
        apply (wf_shows (wf_rot (l := lx) (ids := x :: q' ++ [y]) W2' Hlx ltac:(discriminate) Hrx Hpx')).
        eapply Permutation_trans; [apply Permutation_map; exact HL|]. cbn [map]. rewrite !Nat.eqb_refl.
        destruct (Nat.eqb_spec l lx) as [->|_]; [exfalso; apply D1; left; auto|].
        apply Permutation_refl'. f_equal. f_equal. apply map_ext_in. intros k Hk.
        destruct (Nat.eqb_spec k lx) as [->|]; [tauto|]. destruct (Nat.eqb_spec k l) as [->|]; [exfalso; apply D1; right; auto|]. auto.
      * apply (wf_shows W'). rewrite Ha, map_app. cbn [map]. rewrite R1, (map_ext_in R' R M) by (intros; apply RL; auto).
        rewrite <- app_assoc. apply Permutation_sym, Permutation_cons_append.
      * cbn [next_events] in Hne. destruct (next_event s' n1) as [o|] eqn:Eo; [|discriminate]. cbn [bind] in Hne. apply Ok_inj in Hne.
        rewrite app_nil_r in Hne. subst new. change (opt_list o) with (maybe o).
        eapply effect_join; eauto; apply corner_body; auto; apply Hvd; simpl; auto.
Qed.

Lemma event_effect s R e s' arcs new : wf E s R -> rng s -> ev_inv E s e -> no_dormer e -> current s e ->
  handle_event s e = Ok (s', arcs, new) ->
  exists F F', shows s F /\ shows s' F' /\ keeps s s' /\ effect s F e s' F' arcs new.
Proof.
  intros W Hrg [He1 He] Hd Hc H.
  assert (Hk : keeps s s').
  { destruct (handle_event_grow Hrg He1 H) as ((G1 & G2 & _) & _). destruct G1 as [L1 G1]. split; auto. split; auto.
    intros i Hi. destruct (G1 i Hi) as [(B1 & B2 & B3 & B4 & B5) _]. repeat split; auto. }
  assert (Hf : shows s (map R (s_act s))) by (eapply wf_shows; eauto).
  destruct e as [d ip va vb|d ip v opp|d dp vp dn vn de ipe va vb]; [| |destruct Hd]; cbn [handle_event] in H.
  - destruct (is_valid s va) eqn:Va.
    2: { cbn in H. apply Ok_inj, triple_inj in H. destruct H as (<- & <- & <-). exists (map R (s_act s)), (map R (s_act s)).
         split; auto. split; auto. split; auto. apply effect_late_edge. auto. }
    destruct (is_valid s vb) eqn:Vb.
    2: { cbn in H. apply Ok_inj, triple_inj in H. destruct H as (<- & <- & <-). exists (map R (s_act s)), (map R (s_act s)).
         split; auto. split; auto. split; auto. apply effect_late_edge. auto. }
    cbn [negb orb] in H. destruct (edge_effect W Va Vb (Hc Va Vb) H Hk) as (F & F' & H1 & H2 & H3). exists F, F'. auto.
  - destruct (is_valid s v) eqn:Va.
    2: { cbn in H. apply Ok_inj, triple_inj in H. destruct H as (<- & <- & <-). exists (map R (s_act s)), (map R (s_act s)).
         split; auto. split; auto. split; auto. apply effect_late_split. auto. }
    cbn [negb] in H. destruct He as (_ & Ho & E1 & E2).
    assert (Hs : forall e', same_edge opp e' = false -> opp <> e').
    { intros e' H' ->. unfold same_edge in H'. rewrite Nat.eqb_refl in H'. discriminate. }
    destruct (split_effect W Va Ho (Hs _ E1) (Hs _ E2) H) as (F & F' & H1 & H2 & H3). exists F, F'. auto.
Qed.

Hypothesis three : forall c, In c contours -> 3 <= length c.
Hypothesis nodorm : detectDormers contours = Ok [].

Theorem history_effect st0 st e t k : skeleton_start contours = Ok st0 -> history st0 st (e :: t) k ->
  current (lo_slav st) e ->
  exists s' arcs new F F', handle_event (lo_slav st) e = Ok (s', arcs, new) /\
    shows (lo_slav st) F /\ shows s' F' /\ keeps (lo_slav st) s' /\ effect (lo_slav st) F e s' F' arcs new.
Proof.
  intros H Hh Hc. destruct (history_good distinct (proj1 (start_good three nodorm H)) Hh) as (G1 & G2 & R & W & _).
  destruct (G2 e (or_introl eq_refl)) as [He Hd].
  destruct (event_ok distinct W He Hd Hc) as (s' & arcs & new & R' & H1 & _).
  destruct (event_effect W (proj1 G1) He Hd Hc H1) as (F & F' & H2 & H3 & H4 & H5). exists s', arcs, new, F, F'. auto.
Qed.

End Step.
