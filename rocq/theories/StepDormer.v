(** * StepDormer: what a dormer event does to the wavefront (C53) *)

From Coq Require Import Permutation.
From Verif Require Import Py PyFacts Arith Euclid Lav LavSpec LavWalk LavWf LavRing LavInit LavNext LavGrow LavStep LavSplit
  LoopSpec LavLoop LoopStart WaveSpec Cluster LavWave StepSpec.
Set Implicit Arguments.
Unset Strict Implicit.
Local Open Scope nat_scope.

Section Dormer.
Context {A : arith}.
Implicit Type s : @slav A.

(** ** from_chain *)
Lemma from_chain_loose s h ids : ring (nxt_of (s_vs s)) (prv_of (s_vs s)) ids -> In h ids ->
  (forall i, In i ids -> i < length (s_vs s)) ->
  let l := length (s_ls s) in
  exists s', from_chain s h = Ok (s', l) /\
    getl (s_ls s') l = LAV h (Z.of_nat (length ids)) /\
    s_act s' = s_act s /\ s_orig s' = s_orig s /\ length (s_vs s') = length (s_vs s) /\ length (s_ls s') = S l /\
    (forall i, getv (s_vs s') i = if in_dec Nat.eq_dec i ids then with_lav (Some l) (getv (s_vs s) i) else getv (s_vs s) i) /\
    (forall l', l' < l -> getl (s_ls s') l' = getl (s_ls s) l').
Proof.
  intros Hr Hh Hv l. unfold from_chain. fold l.
  set (s1 := with_ls (s_ls s ++ [LAV h 0]) s).
  assert (Hhead : l_head (getl (s_ls s1) l) = h).
  { unfold s1, getl, l. simpl. rewrite app_nth2 by lia. rewrite Nat.sub_diag. auto. }
  destruct (lav_iter_ring (s := s1) (lv := l) (ids := ids)) as (t & Hi & Hr' & Hp).
  { exact Hr. } { exact Hv. } { rewrite Hhead. auto. }
  rewrite Hhead in Hi, Hr', Hp. unfold lav_list. rewrite Hi. cbn [bind].
  set (vs' := fold_left _ (h :: t) (s_vs s1)).
  assert (Hget : forall i, getv vs' i = if existsb (Nat.eqb i) (h :: t) && (i <? length (s_vs s)) then
            with_lav (Some l) (getv (s_vs s) i) else getv (s_vs s) i).
  { intros i. unfold vs'. rewrite fold_lav_get. auto. }
  assert (Hlen : length vs' = length (s_vs s)) by (unfold vs'; rewrite fold_lav_length; auto).
  clearbody vs'.
  assert (Hl1 : length (s_ls s1) = S l) by (unfold s1; simpl; rewrite app_length; simpl; unfold l; lia).
  eexists. split; [reflexivity|]. cbn [s_vs s_ls s_act s_orig].
  split; [rewrite getl_set_at_eq by lia; f_equal; f_equal; apply Permutation_length in Hp; rewrite Hp; auto|].
  split; auto. split; auto. split; auto. split; [rewrite set_at_length; auto|]. split.
  - intros i. rewrite Hget. destruct (in_dec Nat.eq_dec i ids) as [Hin|Hin].
    + assert (Hex : existsb (Nat.eqb i) (h :: t) = true).
      { apply existsb_exists. exists i. split; [eapply Permutation_in; eauto|apply Nat.eqb_refl]. }
      specialize (Hv i Hin). apply Nat.ltb_lt in Hv. rewrite Hex, Hv. auto.
    + destruct (existsb (Nat.eqb i) (h :: t)) eqn:Ex; auto.
      exfalso. apply existsb_exists in Ex as (j & Hj & Hij). apply Nat.eqb_eq in Hij. subst j. apply Hin.
      eapply Permutation_in; [apply Permutation_sym|]; eauto.
  - intros l' Hl'. rewrite getl_set_at by lia. unfold s1. simpl. apply getl_app1. auto.
Qed.

(** taking a part out of a ring *)
Lemma ring_drop nxt prv nxt' prv' cut rest : ring nxt prv (cut ++ rest) -> rest <> [] ->
  (forall j, In j rest -> j <> last rest 0 -> nxt' j = nxt j) -> (forall j, In j rest -> j <> hd 0 rest -> prv' j = prv j) ->
  nxt' (last rest 0) = hd 0 rest -> prv' (hd 0 rest) = last rest 0 -> ring nxt' prv' rest.
Proof.
  intros Hr Hne Hn Hp H1 H2.
  assert (Hnd : NoDup rest).
  { apply ring_NoDup in Hr. apply NoDup_app_split in Hr. tauto. }
  assert (Hl : linked nxt prv rest).
  { destruct cut as [|c cut]; [destruct rest as [|a rest]; [congruence|]|]; apply ring_linked in Hr as [_ Hr]; [|change (linked nxt prv ([c] ++ (cut ++ rest) ++ [c])) in Hr].
    - change (a :: rest ++ [a]) with ((a :: rest) ++ [a]) in Hr. eapply linked_init; eauto.
    - apply (linked_tail (l1 := [c])) in Hr. apply linked_init in Hr. eapply linked_tail; eauto. }
  assert (Hl' : linked nxt' prv' rest) by (eapply linked_ext_ends; eauto).
  destruct rest as [|a rest]; [congruence|]. apply ring_linked. split; auto. change (a :: rest ++ [a]) with ((a :: rest) ++ [a]).
  apply linked_snoc; auto.
Qed.

Lemma dormer_effect s d dp vp dn vn de ipe va vb a b rest G p :
  woven s ((vp :: a :: b :: vn :: rest) :: G) -> rest <> [] ->
  va < length (s_vs s) -> vb < length (s_vs s) ->
  line_intersect (v_bis (getv (s_vs s) vp)) (v_bis (getv (s_vs s) vn)) = Some p ->
  exists s', handle_event s (DormerEv d dp vp dn vn de ipe va vb) =
      Ok (s', [Subtree ipe de [spot s va; spot s vb; p]; Subtree p (ndiv (nadd dp dn) twoN) [spot s vp; spot s vn]], []) /\
    woven s' (rest :: G) /\ keeps s s'.
Proof.
  intros (R & W1 & W2 & W3 & WF) Hne Lva Lvb Hp.
  set (ids := vp :: a :: b :: vn :: rest) in *.
  assert (Hl : exists l, In l (s_act s) /\ R l = ids).
  { assert (In ids (map R (s_act s))) by (eapply Permutation_in; [apply Permutation_sym; exact WF|left; auto]).
    apply in_map_iff in H as (l & H1 & H2). eauto. }
  destruct Hl as (l & Hl & Rl).
  destruct (py_remove_nodup W1 Hl) as (L & HL1 & HL2 & HL3 & HL4).
  assert (HG : Permutation (map R L) G).
  { apply Permutation_cons_inv with (a := ids). rewrite <- Rl at 1. change (R l :: map R L) with (map R (l :: L)).
    eapply Permutation_trans; [apply Permutation_sym, Permutation_map; exact HL2|exact WF]. }
  destruct (W2 l Hl) as (Hr & Hll & Hhd & Hlen & Hvs). rewrite Rl in Hr, Hhd, Hlen, Hvs.
  change (ring (nxt_of (s_vs s)) (prv_of (s_vs s)) ids) in Hr.
  pose proof (ring_NoDup Hr) as Hnd.
  assert (Hin : forall i, In i rest -> In i ids) by (intros i Hi; unfold ids; simpl; auto 6).
  set (p0 := last rest 0). set (n0 := hd 0 rest).
  assert (Hp0 : In p0 rest) by (apply last_in; auto). assert (Hn0 : In n0 rest) by (apply hd_in; auto).
  assert (Lp0 : p0 < length (s_vs s)) by (apply Hvs; auto). assert (Ln0 : n0 < length (s_vs s)) by (apply Hvs; auto).
  assert (Ivp : In vp ids) by (unfold ids; simpl; auto). assert (Ivn : In vn ids) by (unfold ids; simpl; auto 6).
  assert (Ia : In a ids) by (unfold ids; simpl; auto). assert (Ib : In b ids) by (unfold ids; simpl; auto).
  (* the links in the ring *)
  pose proof Hr as Hlk. unfold ids in Hlk. apply ring_linked in Hlk as [_ Hlk].
  assert (K : prv_of (s_vs s) vp = p0 /\ nxt_of (s_vs s) vp = a /\ prv_of (s_vs s) vn = b /\ nxt_of (s_vs s) vn = n0).
  { change (vp :: (a :: b :: vn :: rest) ++ [vp]) with ([vp; a; b; vn] ++ rest ++ [vp]) in Hlk.
    assert (Hlk' := Hlk). apply linked_tail in Hlk'. destruct (linked_last_nxt Hlk' Hne) as [_ K1].
    unfold p0, n0. destruct rest as [|n rest']; [congruence|]. simpl in Hlk. simpl hd. tauto. }
  destruct K as (Kp & Ka & Kb & Kn).
  assert (Dsj : ~ In vp rest /\ ~ In a rest /\ ~ In b rest /\ ~ In vn rest /\ vp <> vn).
  { unfold ids in Hnd. apply NoDup_cons_iff in Hnd as [N1 Hnd]. apply NoDup_cons_iff in Hnd as [N2 Hnd].
    apply NoDup_cons_iff in Hnd as [N3 Hnd]. apply NoDup_cons_iff in Hnd as [N4 Hnd]. simpl in N1, N2, N3.
    repeat split; try tauto. intros ->. tauto. }
  destruct Dsj as (Dp & Da & Db & Dn & Dpn).
  cbn [handle_event]. unfold is_valid. destruct (Hvs vp Ivp) as (Lvp & Vvp & Lavp). destruct (Hvs vn Ivn) as (Lvn & Vvn & Lavn).
  rewrite Vvp, Vvn. cbn [negb orb]. unfold handle_dormer_event. rewrite Lavp.
  change (v_prev (getv (s_vs s) vp)) with (prv_of (s_vs s) vp). change (v_next (getv (s_vs s) vp)) with (nxt_of (s_vs s) vp).
  change (v_prev (getv (s_vs s) vn)) with (prv_of (s_vs s) vn). rewrite Kp, Ka, Kb. cbn [s_vs with_ls].
  change (v_prev (getv (s_vs s) vp)) with (prv_of (s_vs s) vp). change (v_next (getv (s_vs s) vn)) with (nxt_of (s_vs s) vn).
  rewrite Kp, Kn. set (vs1 := modv p0 (with_next n0) (s_vs s)).
  assert (Nvp : p0 <> vp) by (intros He; apply Dp; rewrite <- He; auto).
  assert (Nvn : p0 <> vn) by (intros He; apply Dn; rewrite <- He; auto).
  assert (Gvp : getv vs1 vp = getv (s_vs s) vp).
  { unfold vs1. rewrite getv_modv. destruct (Nat.eqb_spec p0 vp); [congruence|auto]. }
  assert (Gvn : getv vs1 vn = getv (s_vs s) vn).
  { unfold vs1. rewrite getv_modv. destruct (Nat.eqb_spec p0 vn); [congruence|auto]. }
  rewrite Gvp, Gvn. change (v_prev (getv (s_vs s) vp)) with (prv_of (s_vs s) vp). change (v_next (getv (s_vs s) vn)) with (nxt_of (s_vs s) vn).
  rewrite Kp, Kn. set (vs2 := modv n0 (with_prev p0) vs1).
  assert (L1 : length vs1 = length (s_vs s)) by (unfold vs1; rewrite !modv_length; auto).
  assert (L2 : length vs2 = length (s_vs s)) by (unfold vs2; rewrite !modv_length; auto).
  assert (N2 : forall i, i < length (s_vs s) -> nxt_of vs2 i = if Nat.eqb p0 i then n0 else nxt_of (s_vs s) i).
  { intros i Li. unfold vs2. rewrite nxt_with_prev. unfold vs1. rewrite nxt_with_next by auto. auto. }
  assert (P2 : forall i, i < length (s_vs s) -> prv_of vs2 i = if Nat.eqb n0 i then p0 else prv_of (s_vs s) i).
  { intros i Li. unfold vs2. rewrite prv_with_prev by (rewrite L1; auto). unfold vs1. rewrite prv_with_next. auto. }
  assert (B2 : forall i, same_body (getv vs2 i) (getv (s_vs s) i)).
  { intros i. unfold vs2, vs1. eapply same_body_trans; [apply same_body_prev|]. eapply same_body_trans; [apply same_body_next|]. apply same_body_refl. }
  assert (G2 : forall i, i <> p0 -> i <> n0 -> getv vs2 i = getv (s_vs s) i).
  { intros i I1 I2. unfold vs2, vs1. rewrite !getv_modv. destruct (Nat.eqb_spec n0 i); [congruence|]. destruct (Nat.eqb_spec p0 i); [congruence|]. auto. }
  clearbody vs2. clear Gvp Gvn L1 vs1.
  assert (Hring : ring (nxt_of vs2) (prv_of vs2) rest).
  { apply (@ring_drop (nxt_of (s_vs s)) (prv_of (s_vs s)) _ _ [vp; a; b; vn] rest); auto.
    - intros j Ij Hj. rewrite N2 by (apply Hvs; auto). destruct (Nat.eqb_spec p0 j); [exfalso; apply Hj; symmetry; assumption|auto].
    - intros j Ij Hj. rewrite P2 by (apply Hvs; auto). destruct (Nat.eqb_spec n0 j); [exfalso; apply Hj; symmetry; assumption|auto].
    - fold p0. rewrite N2 by auto. rewrite Nat.eqb_refl. auto.
    - fold n0. rewrite P2 by auto. rewrite Nat.eqb_refl. auto. }
  set (s1 := with_vs vs2 (with_ls (set_at l (LAV p0 (l_len (getl (s_ls s) l))) (s_ls s)) s)).
  destruct (from_chain_loose (s := s1) (h := p0) (ids := rest)) as (s2 & F1 & F2 & F3 & F4 & F5 & F6 & F7 & F8); auto.
  { intros i Hi. unfold s1. simpl. rewrite L2. apply Hvs. auto. }
  rewrite F1. cbn [bind]. unfold remove_lav. rewrite F3. change (s_act s1) with (s_act s). rewrite HL1. cbn [bind].
  assert (Ls1 : length (s_ls s1) = length (s_ls s)) by (unfold s1; simpl; apply set_at_length).
  rewrite Ls1 in *. set (l2 := length (s_ls s)) in *.
  set (s4 := with_act (L ++ [l2]) s2).
  assert (Es4 : with_act (s_act (with_act L s2) ++ [l2]) (with_act L s2) = s4) by reflexivity.
  rewrite Es4.
  assert (B4 : forall i, body_kept (getv (s_vs s4) i) (getv (s_vs s) i)).
  { intros i. unfold s4. cbn [with_act s_vs]. rewrite F7. change (s_vs s1) with vs2.
    eapply body_kept_trans; [|apply same_body_kept; apply B2]. destruct (in_dec _ _ _); [apply body_with_lav|apply body_kept_refl]. }
  destruct (B4 vp) as (Pvp & _ & _ & _ & ->). destruct (B4 vn) as (Pvn & _ & _ & _ & ->). rewrite Hp.
  destruct (B4 va) as (-> & _). destruct (B4 vb) as (-> & _). rewrite Pvp, Pvn.
  set (rm := [vp; a; vn; b]).
  assert (Hrm : forall i, In i rm -> In i ids /\ ~ In i rest).
  { intros i. unfold rm, ids. simpl. intros [<-|[<-|[<-|[<-|[]]]]]; tauto. }
  assert (Hrm' : forall i, In i ids -> ~ In i rest -> In i rm).
  { intros i. unfold rm, ids. simpl. tauto. }
  clearbody rm.
  destruct (invalidate_all_spec [] s4 rm) as (J1 & J2 & J3 & J4 & J5 & J6 & J7 & J8 & J9 & J10 & J11).
  assert (Lv4 : length (s_vs s4) = length (s_vs s)) by (unfold s4; cbn [with_act s_vs]; rewrite F5; exact L2).
  assert (Ll4 : length (s_ls s4) = S l2) by (unfold s4; cbn [with_act s_ls]; auto).
  assert (Hdis : forall k i, In k L -> In i (R k) -> ~ In i ids).
  { intros k i Hk Hi Hi'. assert (Hka : In k (s_act s)) by (eapply Permutation_in; [apply Permutation_sym; exact HL2|right; auto]).
    destruct (Hvs i Hi') as (_ & _ & E1). destruct (W2 k Hka) as (_ & _ & _ & _ & Kv). destruct (Kv i Hi) as (_ & _ & E2).
    rewrite E1 in E2. injection E2 as ->. auto. }
  assert (HLa : forall k, In k L -> In k (s_act s) /\ k <> l).
  { intros k Hk. split; [eapply Permutation_in; [apply Permutation_sym; exact HL2|right; auto]|intros ->; auto]. }
  eexists. split; [reflexivity|]. set (s' := invalidate_all s4 rm) in *. split.
  - exists (fun k => if Nat.eqb k l2 then rest else R k).
    assert (Ha : s_act s' = L ++ [l2]) by (rewrite J3; auto). rewrite Ha.
    assert (HLl : forall k, In k L -> k <> l2).
    { intros k Hk. destruct (W2 k (proj1 (HLa k Hk))) as (_ & K2 & _). unfold l2. lia. }
    split; [|split; [|split]].
    + eapply Permutation_NoDup; [apply Permutation_cons_append|]. constructor; auto. intros Hi. apply (HLl _ Hi). auto.
    + intros k Hk. apply in_app_iff in Hk as [Hk|[<-|[]]].
      * destruct (Nat.eqb_spec k l2) as [E|_]; [exfalso; apply (HLl k Hk); auto|].
        destruct (HLa k Hk) as [Hka Hkl]. destruct (W2 k Hka) as (K1 & K2 & K3 & K4 & K5). fold l2 in K2.
        assert (Gk : forall i, In i (R k) -> getv (s_vs s') i = getv (s_vs s) i).
        { intros i Hi. pose proof (Hdis k i Hk Hi) as Hd. rewrite J5 by (intros Hm; apply Hd, Hrm; auto).
          unfold s4. cbn [with_act s_vs]. rewrite F7. destruct (in_dec Nat.eq_dec i rest) as [Hi'|_]; [exfalso; auto|].
          change (s_vs s1) with vs2. apply G2; intros ->; auto. }
        assert (Gl : getl (s_ls s') k = getl (s_ls s) k).
        { assert (G4 : getl (s_ls s4) k = getl (s_ls s) k).
          { unfold s4. cbn [with_act s_ls]. rewrite F8 by auto. unfold s1. cbn [with_vs with_ls s_ls]. apply getl_set_at. auto. }
          unfold s'. rewrite invalidate_all_head; rewrite G4; auto. intros Hm. apply Hrm in Hm. apply (Hdis k _ Hk K3). tauto. }
        split; [|split; [lia|rewrite Gl; split; auto; split; auto]].
        -- eapply ring_ext; [| |exact K1]; intros x Hx; rewrite Gk; auto.
        -- intros i Hi. destruct (K5 i Hi) as (V1 & V2 & V3). rewrite Gk by auto. split; [lia|auto].
      * rewrite Nat.eqb_refl.
        assert (Gl : getl (s_ls s') l2 = LAV p0 (Z.of_nat (length rest))).
        { assert (G4 : getl (s_ls s4) l2 = LAV p0 (Z.of_nat (length rest))) by exact F2.
          unfold s'. rewrite invalidate_all_head; rewrite G4; auto. intros Hm. apply Hrm in Hm. simpl in Hm. tauto. }
        assert (Gk : forall i, In i rest -> getv (s_vs s') i = with_lav (Some l2) (getv vs2 i)).
        { intros i Hi. rewrite J5 by (intros Hm; apply Hrm in Hm; tauto). unfold s4. cbn [with_act s_vs]. rewrite F7.
          destruct (in_dec Nat.eq_dec i rest); [auto|tauto]. }
        split; [|split; [lia|rewrite Gl; split; auto; split; auto]].
        -- eapply ring_ext; [| |exact Hring]; intros x Hx; rewrite Gk; auto.
        -- intros i Hi. rewrite Gk by auto. cbn [with_lav v_valid v_lav]. destruct (B2 i) as (_ & _ & _ & _ & -> & _).
           destruct (Hvs i (Hin i Hi)) as (V1 & V2 & _). split; [lia|auto].
    + intros i Hi Hv. rewrite J1, Lv4 in Hi.
      destruct (in_dec Nat.eq_dec i rest) as [Hr'|Hr'].
      { exists l2. split; [apply in_app_iff; right; left; auto|]. rewrite Nat.eqb_refl. auto. }
      destruct (in_dec Nat.eq_dec i rm) as [Hm|Hm]; [rewrite J9 in Hv by (auto; lia); discriminate|].
      rewrite J5 in Hv by auto. unfold s4 in Hv. cbn [with_act s_vs] in Hv. rewrite F7 in Hv.
      destruct (in_dec Nat.eq_dec i rest) as [|_]; [tauto|]. change (s_vs s1) with vs2 in Hv.
      destruct (B2 i) as (_ & _ & _ & _ & E1 & _). rewrite E1 in Hv. destruct (W3 i Hi Hv) as (k & Hk & Hik).
      assert (Hkl : k <> l) by (intros ->; rewrite Rl in Hik; apply Hm; auto).
      assert (HkL : In k L). { apply (Permutation_in _ HL2) in Hk. destruct Hk; [congruence|auto]. }
      exists k. split; [apply in_app_iff; auto|]. destruct (Nat.eqb_spec k l2) as [E|_]; [exfalso; apply (HLl k HkL); auto|auto].
    + rewrite map_app. cbn [map]. rewrite Nat.eqb_refl. eapply Permutation_trans; [apply Permutation_sym, Permutation_cons_append|].
      apply perm_skip. erewrite map_ext_in; [exact HG|]. intros k Hk. destruct (Nat.eqb_spec k l2) as [E|_]; [exfalso; apply (HLl k Hk); auto|auto].
  - pose proof (grows_body (invalidate_all_grow s4 rm) J1) as Hg.
    split; [rewrite J1, Lv4; auto|]. split; [rewrite J4; exact F4|].
    intros i _. destruct (body_kept_trans (Hg i) (B4 i)) as (X1 & X2 & X3 & X4 & X5). repeat split; auto.
Qed.

End Dormer.
