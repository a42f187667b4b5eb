(** * LavSplit: one event and the wavefront (C40) *)

From Coq Require Import Permutation.
From Verif Require Import Py PyFacts Arith Euclid Lav LavSpec LavWalk LavWf LavRing LavNext LavGrow LavStep.
Set Implicit Arguments.
Unset Strict Implicit.
Local Open Scope nat_scope.

(** ** cutting a ring, joining two rings *)
Lemma linked_snoc nxt prv l n : l <> [] -> linked nxt prv l -> nxt (last l 0) = n -> prv n = last l 0 -> linked nxt prv (l ++ [n]).
Proof.
  intros Hne Hl H1 H2. destruct (exists_last Hne) as (l' & z & ->). rewrite last_last in *. rewrite <- app_assoc. simpl.
  apply linked_app. split; auto. simpl. auto.
Qed.

Lemma linked_cons nxt prv n l : l <> [] -> linked nxt prv l -> nxt n = hd 0 l -> prv (hd 0 l) = n -> linked nxt prv (n :: l).
Proof. intros Hne Hl H1 H2. destruct l; [congruence|]. split; auto. Qed.

Lemma NoDup_app_split (a b : list nat) : NoDup (a ++ b) -> NoDup a /\ NoDup b /\ (forall z, In z a -> In z b -> False).
Proof.
  induction a as [|z a IH]; simpl; intros H.
  - split; [constructor|]. split; auto.
  - apply NoDup_cons_iff in H as [H1 H2]. destruct (IH H2) as (I1 & I2 & I3). rewrite in_app_iff in H1.
    split; [constructor; tauto|]. split; auto. intros w [<-|Hw] Hb; eauto.
Qed.

Section Cut.
Variables nxt prv nxt' prv' : nat -> nat.
Variables v x y n1 n2 : nat.
Hypothesis N1 : nxt' n1 = x.
Hypothesis N2 : nxt' n2 = nxt v.
Hypothesis N3 : nxt' (prv v) = n1.
Hypothesis N4 : nxt' y = n2.
Hypothesis N5 : forall j, j <> n1 -> j <> n2 -> j <> prv v -> j <> y -> nxt' j = nxt j.
Hypothesis P1 : prv' n1 = prv v.
Hypothesis P2 : prv' n2 = y.
Hypothesis P3 : prv' x = n1.
Hypothesis P4 : prv' (nxt v) = n2.
Hypothesis P5 : forall j, j <> n1 -> j <> n2 -> j <> x -> j <> nxt v -> prv' j = prv j.
Hypothesis N12 : n1 <> n2.

Lemma ring_cut p q : ring nxt prv (v :: p ++ y :: x :: q) -> ~ In n1 (v :: p ++ y :: x :: q) ->
  ~ In n2 (v :: p ++ y :: x :: q) -> ring nxt' prv' (n1 :: x :: q) /\ ring nxt' prv' (n2 :: p ++ [y]).
Proof.
  intros Hr Hn1 Hn2. pose proof Hr as Hr'. apply ring_linked in Hr' as [Hnd Hlk].
  replace (v :: (p ++ y :: x :: q) ++ [v]) with ((v :: p ++ [y]) ++ x :: q ++ [v]) in Hlk
    by (simpl; rewrite <- !app_assoc; auto).
  apply linked_app in Hlk as [Hl1 Hl2].
  change (x :: q ++ [v]) with ((x :: q) ++ [v]) in Hl2.
  destruct (linked_last_nxt (l := x :: q) Hl2) as [La1 La2]; [discriminate|].
  pose proof (linked_init Hl2) as Hl2'.
  replace ((v :: p ++ [y]) ++ [x]) with (v :: (p ++ [y]) ++ [x]) in Hl1 by auto.
  assert (Hpy : p ++ [y] <> []) by (destruct p; discriminate).
  assert (Hl1' : linked nxt prv (p ++ [y])) by (destruct Hl1 as [_ Hl1]; eapply linked_init; eauto).
  assert (Hvp : nxt v = hd 0 (p ++ [y]) /\ prv (hd 0 (p ++ [y])) = v).
  { apply linked_hd_prv; auto. eapply linked_init with (l2 := [x]). exact Hl1. }
  destruct Hvp as [Hv1 Hv2].
  apply NoDup_cons_iff in Hnd as [Nv Hnd].
  replace (p ++ y :: x :: q) with ((p ++ [y]) ++ x :: q) in * by (rewrite <- app_assoc; auto).
  assert (Hd1 : NoDup (p ++ [y])) by (exact (proj1 (NoDup_app_split Hnd))).
  assert (Hd2 : NoDup (x :: q)) by (exact (proj1 (proj2 (NoDup_app_split Hnd)))).
  assert (Hdis : forall z, In z (p ++ [y]) -> In z (x :: q) -> False).
  { exact (proj2 (proj2 (NoDup_app_split Hnd))). }
  assert (Hn1' : ~ In n1 (p ++ [y]) /\ ~ In n1 (x :: q)).
  { split; intros Hi; apply Hn1; right; apply in_app_iff; auto. }
  assert (Hn2' : ~ In n2 (p ++ [y]) /\ ~ In n2 (x :: q)).
  { split; intros Hi; apply Hn2; right; apply in_app_iff; auto. }
  assert (Hy : In y (p ++ [y])) by (apply in_app_iff; simpl; auto).
  assert (Hx : In x (x :: q)) by (left; auto).
  assert (Hpv : In (prv v) (x :: q)) by (rewrite La2; apply last_in; discriminate).
  assert (Hnv : In (nxt v) (p ++ [y])) by (rewrite Hv1; apply hd_in; auto).
  split; apply ring_linked.
  - split; [constructor; tauto|]. apply (linked_close (l := x :: q)); try discriminate; auto; try congruence.
    eapply linked_ext_ends; [exact Hd2| | |exact Hl2'].
    + intros z Z1 Z2. apply N5; intros ->; try tauto; try congruence; eauto.
    + intros z Z1 Z2. apply P5; intros ->; try tauto; try congruence; eauto.
  - split; [constructor; tauto|]. apply (linked_close (l := p ++ [y])); auto; try congruence.
    + eapply linked_ext_ends; [exact Hd1| | |exact Hl1'].
      * rewrite last_last. intros z Z1 Z2. apply N5; intros ->; try tauto; try congruence; eauto.
      * intros z Z1 Z2. apply P5; intros ->; try tauto; try congruence; eauto.
    + rewrite last_last. auto.
    + rewrite last_last. auto.
Qed.

Lemma ring_join p q : ring nxt prv (v :: p) -> ring nxt prv (x :: q) -> p <> [] -> q <> [] -> prv x = y ->
  (forall z, In z (v :: p) -> In z (x :: q) -> False) ->
  (forall z, In z (v :: p) \/ In z (x :: q) -> z <> n1 /\ z <> n2) ->
  ring nxt' prv' (n1 :: (x :: q) ++ n2 :: p).
Proof.
  intros R1 R2 Hp Hq Hy Hdis Hn. pose proof R1 as K1. pose proof R2 as K2.
  apply ring_linked in K1 as [D1 L1]. apply ring_linked in K2 as [D2 L2].
  change (v :: p ++ [v]) with ((v :: p) ++ [v]) in L1. change (x :: q ++ [x]) with ((x :: q) ++ [x]) in L2.
  destruct (linked_last_nxt L1) as [La1 La2]; [discriminate|]. destruct (linked_last_nxt L2) as [Lb1 Lb2]; [discriminate|].
  pose proof (linked_init L1) as L1'. pose proof (linked_init L2) as L2'.
  destruct (linked_hd_prv L1' Hp) as [Hv1 Hv2].
  rewrite last_cons in La1, La2 by auto.
  apply NoDup_cons_iff in D1 as [Nv D1].
  assert (Hpv : In (prv v) p) by (rewrite La2; apply last_in; auto).
  assert (Hnv : In (nxt v) p) by (rewrite Hv1; apply hd_in; auto).
  assert (Hyq : In y (x :: q)) by (rewrite <- Hy, Lb2; apply last_in; discriminate).
  assert (Hxq : In x (x :: q)) by (left; auto).
  assert (Hpq : forall z, In z p -> In z (x :: q) -> False) by (intros z Z1; apply Hdis; right; auto).
  apply ring_linked. split.
  - constructor.
    + intros Hi. apply in_app_iff in Hi as [Hi|[Hi|Hi]].
      * destruct (Hn n1); auto.
      * congruence.
      * destruct (Hn n1); [left; right; auto|]. auto.
    + apply Permutation_NoDup with (l := n2 :: (x :: q) ++ p); [apply Permutation_middle|]. constructor.
      * intros Hi. apply in_app_iff in Hi as [Hi|Hi]; destruct (Hn n2); auto. left; right; auto.
      * clear - D1 D2 Hpq. revert D2 Hpq. generalize (x :: q) as l. induction l as [|a l IH]; intros D2 Hpq; simpl; auto.
        apply NoDup_cons_iff in D2 as [Na D2]. constructor.
        -- intros Hi. apply in_app_iff in Hi as [Hi|Hi]; auto. apply (Hpq a); auto. left; auto.
        -- apply IH; auto. intros z Z1 Z2. apply (Hpq z); auto. right; auto.
  - apply (linked_close (l := (x :: q) ++ n2 :: p)).
    + discriminate.
    + apply linked_app. split.
      * apply linked_snoc; [discriminate| |congruence|congruence].
        eapply linked_ext_ends; [exact D2| | |exact L2'].
        -- intros z Z1 Z2. destruct (Hn z); auto. apply N5; auto; try congruence. intros ->; eauto.
        -- intros z Z1 Z2. destruct (Hn z); auto. apply P5; auto; try congruence. intros ->; eauto.
      * apply linked_cons; auto; try congruence. destruct L1' as [_ L1'].
        eapply linked_ext_ends; [exact D1| | |exact L1'].
        -- intros z Z1 Z2. destruct (Hn z); [left; right; auto|]. apply N5; auto; try congruence. intros ->; eauto.
        -- intros z Z1 Z2. destruct (Hn z); [left; right; auto|]. apply P5; auto; try congruence. intros ->; eauto.
    + auto.
    + auto.
    + assert (Hla : last ((x :: q) ++ n2 :: p) 0 = last p 0).
      { destruct (exists_last Hp) as (p' & z & ->). change (n2 :: p' ++ [z]) with ((n2 :: p') ++ [z]). rewrite app_assoc, !last_last. auto. }
      rewrite Hla, <- La2. auto.
    + assert (Hla : last ((x :: q) ++ n2 :: p) 0 = last p 0).
      { destruct (exists_last Hp) as (p' & z & ->). change (n2 :: p' ++ [z]) with ((n2 :: p') ++ [z]). rewrite app_assoc, !last_last. auto. }
      rewrite Hla, <- La2. auto.
Qed.

End Cut.

Section Split.
Context {A : arith}.
Implicit Type vs : list (@lavertex A).
Implicit Type s : @slav A.
Notation edge2 := (@edge2 A).
Variable E : list edge2.
Notation wf := (wf E).
Notation wfX := (wfX E).
Notation wfL := (wfL E).

Lemma phi_perm s R l L : Permutation (s_act s) (l :: L) ->
  phi s R = length (R l) - 2 + list_sum (map (fun k => length (R k) - 2) L).
Proof.
  intros H. unfold phi. rewrite (list_sum_perm (Permutation_map (fun k => length (R k) - 2) H)). auto.
Qed.

Lemma remove_lav_ok s R l : wf s R -> In l (s_act s) ->
  exists L, remove_lav s (Some l) = Ok (with_act L s) /\ Permutation (s_act s) (l :: L) /\ NoDup L /\ ~ In l L.
Proof.
  intros [(H & _) _] Hl. destruct (py_remove_nodup H Hl) as (L & H1 & H2 & H3 & H4). exists L.
  unfold remove_lav. rewrite H1. auto.
Qed.

Lemma hd_last (l : list nat) : NoDup l -> l <> [] -> last l 0 = hd 0 l -> exists c, l = [c].
Proof.
  intros Hn Hne He. destruct l as [|a [|b l]]; [congruence|eauto|]. exfalso.
  apply NoDup_cons_iff in Hn as [Hn _]. apply Hn. simpl in He. rewrite <- He at 1. change (In (last (b :: l) 0) (b :: l)).
  apply last_in. discriminate.
Qed.

(** the LAVs that are active before and not after *)
Definition gone s s' (l : nat) : Prop := In l (s_act s) /\ ~ In l (s_act s').

Lemma next_event_ok s id : v_lav (getv (s_vs s) id) <> None -> exists o, next_event s id = Ok o.
Proof.
  intros H. unfold next_event, candidates. destruct (v_reflex (getv (s_vs s) id)); [|cbn [bind]; eauto].
  destruct (v_lav (getv (s_vs s) id)); [|congruence]. cbn [bind]. eauto.
Qed.

(** what an edge event does to the rings: the last one of three vertices vanishes, or two vertices are unified *)
Definition edge_step s R s' R' (new : list (@event A)) va vb ip : Prop :=
  (length (s_vs s') = length (s_vs s) /\ new = [] /\ R' = R /\ (forall k, In k (s_act s') -> In k (s_act s)) /\
   forall i, nxt_of (s_vs s') i = nxt_of (s_vs s) i) \/
  (exists l nv rest, In l (s_act s) /\ s_act s' = s_act s /\ unified s s' R l va vb ip nv rest /\ 2 <= length rest /\
     R' = (fun k => if Nat.eqb k l then nv :: rest else R k) /\ forall e, In e new -> candidate s' nv e).

Lemma edge_event_ok s R d ip va vb : wf s R -> is_valid s va = true -> is_valid s vb = true ->
  nxt_of (s_vs s) va = vb ->
  exists s' a new R' l, handle_edge_event s d ip va vb = Ok (s', [a], new) /\ wf s' R' /\ length new <= 1 /\ phi s R = S (phi s' R') /\
    (forall k, gone s s' k -> k = l) /\ edge_step s R s' R' new va vb ip.
Proof.
  intros W Hva Hvb Hn. pose proof W as [(W1 & W2 & W3) W4].
  pose proof (is_valid_rng Hva) as La. destruct (W3 va La Hva) as (l & Hl & Hin).
  destruct (W2 l Hl) as [Hr Hlen].
  pose proof (lav_ok_lav (W2 l Hl) Hin) as Hlav.
  destruct (ring_pair Hr (W4 l Hl) Hin Hn) as (rest & Hrest & Hr2 & Hp & P1 & P2 & P3 & P4 & P5).
  pose proof (ring_NoDup Hr2) as Hnd. apply NoDup_cons_iff in Hnd as [Na Hnd1]. apply NoDup_cons_iff in Hnd1 as [Nb Hnd2].
  unfold handle_edge_event. rewrite Hlav.
  change (v_prev (getv (s_vs s) va)) with (prv_of (s_vs s) va).
  change (v_next (getv (s_vs s) vb)) with (nxt_of (s_vs s) vb).
  destruct (Nat.eqb_spec (prv_of (s_vs s) va) (nxt_of (s_vs s) vb)) as [Hpk|Hpk].
  - destruct (remove_lav_ok W Hl) as (L & H1 & H2 & H3 & H4). rewrite H1. cbn [bind of_option].
    rewrite P1, P2 in Hpk. destruct (hd_last Hnd2 Hrest Hpk) as (c & ->).
    destruct (ring_ok_iter (s := with_act L s) (l := l) (ids := R l) Hr) as (t & _ & Hll & _ & Hp').
    rewrite Hll. cbn [bind]. eexists _, _, _, R, l. split; [reflexivity|].
    match goal with |- wf ?x _ /\ _ => set (s' := x) end.
    destruct (invalidate_all_spec E (with_act L s) (l_head (getl (s_ls (with_act L s)) l) :: t)) as (J1 & _ & J3 & _ & _ & _ & J7 & _).
    assert (Ha : s_act s' = L) by (unfold s'; rewrite J3; auto).
    assert (Hw : wfL s' L R).
    { apply wfL_X. eapply wfX_kill; [|exact Hp']. eapply wfX_perm; [exact H2|]. apply wfL_X. exact (proj1 W). }
    split; [|split; [auto|split; [|split]]].
    + split; [rewrite Ha; auto|]. rewrite Ha. intros k Hk. apply W4. eapply Permutation_in; [apply Permutation_sym; exact H2|]. right; auto.
    + rewrite (phi_perm R H2). unfold phi. rewrite Ha. apply Permutation_length in Hp. rewrite Hp. simpl. auto.
    + intros k [K1 K2]. rewrite Ha in K2. apply (Permutation_in _ H2) in K1. destruct K1; auto. tauto.
    + left. split; [exact J1|]. split; auto. split; auto. split; [|exact J7].
      intros k Hk. rewrite Ha in Hk. eapply Permutation_in; [apply Permutation_sym; exact H2|right; auto].
  - cbn [bind of_option]. destruct (unify s l va vb ip) as [s1 nv] eqn:Eu.
    destruct (unify_ok (ip := ip) W Hl Hin Hn Hpk Eu) as (ids & U1 & U2 & U3 & U4 & U5 & U6 & U7 & U8 & rest' & -> & _ & U9).
    destruct (Nat.eqb_spec (l_head (getl (s_ls s1) l)) va); [congruence|].
    destruct (Nat.eqb_spec (l_head (getl (s_ls s1) l)) vb); [congruence|]. cbn [orb].
    destruct (next_event_ok (s := s1) (id := nv)) as (o & Ho). { rewrite U5. discriminate. }
    rewrite Ho. cbn [bind]. eexists _, _, _, _, l. split; [reflexivity|]. split; [exact U8|]. split; [destruct o; auto|]. split; [|split].
    + destruct (py_remove_nodup W1 Hl) as (L & _ & H2 & _ & H4).
      rewrite (phi_perm R H2). unfold phi. rewrite U4.
      rewrite (list_sum_perm (Permutation_map (fun k => length (if Nat.eqb k l then nv :: rest' else R k) - 2) H2)).
      cbn [map list_sum fold_right]. rewrite Nat.eqb_refl.
      rewrite (list_sum_ext (f := fun k => length (if Nat.eqb k l then nv :: rest' else R k) - 2) (g := fun k => length (R k) - 2)).
      2: { intros k Hk. destruct (Nat.eqb_spec k l); auto. congruence. }
      unfold list_sum. lia.
    + intros k [K1 K2]. rewrite U4 in K2. tauto.
    + right. exists l, nv, rest'. split; auto. split; auto. split; auto. simpl in U3. split; [lia|]. split; auto.
      intros e He. destruct o as [e'|]; [|destruct He]. destruct He as [<-|[]]. apply next_event_cand. auto.
Qed.

(** ** split events: the search *)
Hypothesis distinct : forall e e', In e E -> In e' E -> veq (ep1 e) (ep1 e') = true -> e = e'.

Lemma find_split_ok s R ip opp ls : (forall l, In l ls -> lav_ok E (s_vs s) (s_ls s) l (R l)) -> In opp E ->
  exists o, find_split_lavs s ip opp ls = Ok o /\
    forall x y, o = Some (x, y) ->
      exists l, In l ls /\ In x (R l) /\ In y (R l) /\ nxt_of (s_vs s) y = x /\ prv_of (s_vs s) x = y /\
        v_eprev (getv (s_vs s) x) = opp /\ v_enext (getv (s_vs s) y) = opp.
Proof.
  intros Hok Hopp.
  assert (Hex : exists o, find_split_lavs s ip opp ls = Ok o).
  { clear distinct Hopp. induction ls as [|l ls IH]; simpl; [eauto|].
    destruct (ring_ok_iter (proj1 (Hok l (or_introl eq_refl)))) as (t & Hi & _). rewrite Hi.
    destruct (find_split _ _ _ _); [eauto|]. apply IH. intros; apply Hok; right; auto. }
  destruct Hex as (o & Ho). exists o. split; auto. intros x y ->.
  destruct (find_split_lavs_in Ho) as (l & w & Hl & Hw & Hcase). exists l. split; auto.
  destruct (Hok l Hl) as [(Hr & H2 & H3 & H5) _].
  destruct (ring_ok_iter (s := s) (conj Hr (conj H2 (conj H3 H5)))) as (t & Hi & _ & _ & Hp).
  rewrite Hi in Hw. simpl fst in Hw. apply (Permutation_in _ (Permutation_sym Hp)) in Hw.
  destruct (H5 w Hw) as (V1 & V2 & V3 & V4 & V5 & V6).
  pose proof (ring_prev_in Hr Hw) as Hpw. pose proof (ring_next_in Hr Hw) as Hnw.
  destruct Hcase as [(-> & -> & _ & Hv)|(-> & -> & _ & Hv)].
  - apply distinct in Hv; auto. fold (prv_of (s_vs s) w). split; auto. split; auto. split; [apply (ring_prev_next Hr Hw)|]. split; auto.
    split; auto. destruct (H5 _ Hpw) as (_ & _ & _ & -> & _). rewrite (ring_prev_next Hr Hw). auto.
  - apply distinct in Hv; auto. fold (nxt_of (s_vs s) w). split; auto. split; auto. split; auto. split; [apply (ring_next_prev Hr Hw)|].
    split; auto. congruence.
Qed.

(** ** split events: the new links *)
Definition relink vs (v x y : nat) (v1 v2 : @lavertex A) : list (@lavertex A) :=
  let n1 := length vs in
  let n2 := S n1 in
  let vs0 := vs ++ [v1; v2] in
  let vs1 := modv n1 (with_prev (v_prev (getv vs0 v))) vs0 in
  let vs2 := modv n1 (with_next x) vs1 in
  let vs3 := modv (v_prev (getv vs2 v)) (with_next n1) vs2 in
  let vs4 := modv x (with_prev n1) vs3 in
  let vs5 := modv n2 (with_prev y) vs4 in
  let vs6 := modv n2 (with_next (v_next (getv vs5 v))) vs5 in
  let vs7 := modv (v_next (getv vs6 v)) (with_prev n2) vs6 in
  modv y (with_next n2) vs7.

Lemma relink_spec vs v x y v1 v2 : 
  let n1 := length vs in let n2 := S n1 in
  let pv := prv_of vs v in let nv := nxt_of vs v in
  v < n1 -> x < n1 -> y < n1 -> pv < n1 -> nv < n1 -> pv <> v -> nv <> v -> x <> v -> y <> v -> y <> pv -> x <> nv ->
  let vs' := relink vs v x y v1 v2 in
  length vs' = S n2 /\
  (forall i, i < n1 -> same_body (getv vs' i) (getv vs i)) /\ same_body (getv vs' n1) v1 /\ same_body (getv vs' n2) v2 /\
  (nxt_of vs' n1 = x /\ nxt_of vs' n2 = nv /\ nxt_of vs' pv = n1 /\ nxt_of vs' y = n2 /\
   (forall j, j < n1 -> j <> pv -> j <> y -> nxt_of vs' j = nxt_of vs j)) /\
  (prv_of vs' n1 = pv /\ prv_of vs' n2 = y /\ prv_of vs' x = n1 /\ prv_of vs' nv = n2 /\
   (forall j, j < n1 -> j <> x -> j <> nv -> prv_of vs' j = prv_of vs j)).
Proof.
  intros n1 n2 pv nv Lv Lx Ly Lp Ln Npv Nnv Nx Ny Nyp Nxn. unfold relink. fold n1. fold n2.
  set (vs0 := vs ++ [v1; v2]).
  assert (L0 : length vs0 = S n2) by (unfold vs0; rewrite app_length; simpl; unfold n2, n1; lia).
  assert (G0 : forall i, i < n1 -> getv vs0 i = getv vs i) by (intros i Hi; apply getv_app1; auto).
  assert (G1 : getv vs0 n1 = v1). { unfold vs0, getv, n1. rewrite app_nth2 by lia. rewrite Nat.sub_diag. auto. }
  assert (G2 : getv vs0 n2 = v2). { unfold vs0, getv, n2, n1. rewrite app_nth2 by lia. replace (S (length vs) - length vs) with 1 by lia. auto. }
  clearbody vs0.
  assert (N0 : forall i, i < n1 -> nxt_of vs0 i = nxt_of vs i) by (intros i Hi; unfold nxt_of; rewrite G0; auto).
  assert (P0 : forall i, i < n1 -> prv_of vs0 i = prv_of vs i) by (intros i Hi; unfold prv_of; rewrite G0; auto).
  change (v_prev (getv vs0 v)) with (prv_of vs0 v). rewrite P0 by auto. fold pv.
  set (vs1 := modv n1 (with_prev pv) vs0).
  set (vs2 := modv n1 (with_next x) vs1).
  assert (L1 : length vs1 = S n2) by (unfold vs1; rewrite modv_length; auto).
  assert (L2 : length vs2 = S n2) by (unfold vs2; rewrite modv_length; auto).
  replace (v_prev (getv vs2 v)) with pv.
  2: { change (pv = prv_of vs2 v). unfold vs2. rewrite prv_with_next. unfold vs1. rewrite prv_with_prev by lia.
       destruct (Nat.eqb_spec n1 v); [lia|]. rewrite P0; auto. }
  set (vs3 := modv pv (with_next n1) vs2).
  set (vs4 := modv x (with_prev n1) vs3).
  set (vs5 := modv n2 (with_prev y) vs4).
  assert (L3 : length vs3 = S n2) by (unfold vs3; rewrite modv_length; auto).
  assert (L4 : length vs4 = S n2) by (unfold vs4; rewrite modv_length; auto).
  assert (L5 : length vs5 = S n2) by (unfold vs5; rewrite modv_length; auto).
  assert (Nv5 : nxt_of vs5 v = nv).
  { unfold vs5. rewrite nxt_with_prev. unfold vs4. rewrite nxt_with_prev. unfold vs3. rewrite nxt_with_next by lia.
    destruct (Nat.eqb_spec pv v); [tauto|]. unfold vs2. rewrite nxt_with_next by lia. destruct (Nat.eqb_spec n1 v); [lia|].
    unfold vs1. rewrite nxt_with_prev. apply N0; auto. }
  change (v_next (getv vs5 v)) with (nxt_of vs5 v). rewrite Nv5.
  set (vs6 := modv n2 (with_next nv) vs5).
  assert (L6 : length vs6 = S n2) by (unfold vs6; rewrite modv_length; auto).
  replace (v_next (getv vs6 v)) with nv.
  2: { change (nv = nxt_of vs6 v). unfold vs6. rewrite nxt_with_next by lia. destruct (Nat.eqb_spec n2 v); [lia|auto]. }
  set (vs7 := modv nv (with_prev n2) vs6).
  assert (L7 : length vs7 = S n2) by (unfold vs7; rewrite modv_length; auto).
  set (vs8 := modv y (with_next n2) vs7).
  assert (L8 : length vs8 = S n2) by (unfold vs8; rewrite modv_length; auto).
  assert (B8 : forall i, same_body (getv vs8 i) (getv vs0 i)).
  { intros i. unfold vs8, vs7, vs6, vs5, vs4, vs3, vs2, vs1.
    repeat (first [eapply same_body_trans; [first [apply same_body_next|apply same_body_prev]|] | apply same_body_refl]). }
  assert (N8 : forall i, i < S n2 -> nxt_of vs8 i =
    if Nat.eqb y i then n2 else if Nat.eqb n2 i then nv else if Nat.eqb pv i then n1 else if Nat.eqb n1 i then x else nxt_of vs0 i).
  { intros i Hi. unfold vs8. rewrite nxt_with_next by lia. destruct (Nat.eqb y i); auto.
    unfold vs7. rewrite nxt_with_prev. unfold vs6. rewrite nxt_with_next by lia. destruct (Nat.eqb n2 i); auto.
    unfold vs5. rewrite nxt_with_prev. unfold vs4. rewrite nxt_with_prev. unfold vs3. rewrite nxt_with_next by lia.
    destruct (Nat.eqb pv i); auto. unfold vs2. rewrite nxt_with_next by lia. destruct (Nat.eqb n1 i); auto.
    unfold vs1. rewrite nxt_with_prev. auto. }
  assert (P8 : forall i, i < S n2 -> prv_of vs8 i =
    if Nat.eqb nv i then n2 else if Nat.eqb n2 i then y else if Nat.eqb x i then n1 else if Nat.eqb n1 i then pv else prv_of vs0 i).
  { intros i Hi. unfold vs8. rewrite prv_with_next. unfold vs7. rewrite prv_with_prev by lia. destruct (Nat.eqb nv i); auto.
    unfold vs6. rewrite prv_with_next. unfold vs5. rewrite prv_with_prev by lia. destruct (Nat.eqb n2 i); auto.
    unfold vs4. rewrite prv_with_prev by lia. destruct (Nat.eqb x i); auto.
    unfold vs3. rewrite prv_with_next. unfold vs2. rewrite prv_with_next. unfold vs1. rewrite prv_with_prev by lia.
    destruct (Nat.eqb n1 i); auto. }
  clearbody vs8. clear vs7 L7 vs6 L6 vs5 L5 Nv5 vs4 L4 vs3 L3 vs2 L2 vs1 L1. cbv zeta.
  split; auto. split; [intros i Hi; rewrite <- G0 by auto; auto|].
  split; [rewrite <- G1; auto|]. split; [rewrite <- G2; auto|]. split.
  - split; [|split; [|split; [|split]]]; try (intros j Hj H1 H2); rewrite N8 by (unfold n2; lia).
    + destruct (Nat.eqb_spec y n1); [lia|]. destruct (Nat.eqb_spec n2 n1); [unfold n2 in *; lia|].
      destruct (Nat.eqb_spec pv n1); [lia|]. rewrite Nat.eqb_refl. auto.
    + destruct (Nat.eqb_spec y n2); [unfold n2 in *; lia|]. rewrite Nat.eqb_refl. auto.
    + destruct (Nat.eqb_spec y pv); [tauto|]. destruct (Nat.eqb_spec n2 pv); [unfold n2 in *; lia|]. rewrite Nat.eqb_refl. auto.
    + rewrite Nat.eqb_refl. auto.
    + destruct (Nat.eqb_spec y j); [congruence|]. destruct (Nat.eqb_spec n2 j); [unfold n2 in *; lia|].
      destruct (Nat.eqb_spec pv j); [congruence|]. destruct (Nat.eqb_spec n1 j); [lia|]. auto.
  - split; [|split; [|split; [|split]]]; try (intros j Hj H1 H2); rewrite P8 by (unfold n2; lia).
    + destruct (Nat.eqb_spec nv n1); [lia|]. destruct (Nat.eqb_spec n2 n1); [unfold n2 in *; lia|].
      destruct (Nat.eqb_spec x n1); [lia|]. rewrite Nat.eqb_refl. auto.
    + destruct (Nat.eqb_spec nv n2); [unfold n2 in *; lia|]. rewrite Nat.eqb_refl. auto.
    + destruct (Nat.eqb_spec nv x); [congruence|]. destruct (Nat.eqb_spec n2 x); [unfold n2 in *; lia|]. rewrite Nat.eqb_refl. auto.
    + rewrite Nat.eqb_refl. auto.
    + destruct (Nat.eqb_spec nv j); [congruence|]. destruct (Nat.eqb_spec n2 j); [unfold n2 in *; lia|].
      destruct (Nat.eqb_spec x j); [congruence|]. destruct (Nat.eqb_spec n1 j); [lia|]. auto.
Qed.

(** ** settling the new LAVs *)
Lemma settle_all_ok new : forall s L R X verts snks, wfX s (new ++ L) R X ->
  let kept := filter (fun l => 3 <=? length (R l)) new in
  exists s' verts' snks', fold_left settle_lav new (Ok (s, verts, snks)) = Ok (s', verts', snks') /\
    s_act s' = s_act s ++ kept /\ wfX s' (kept ++ L) R X /\
    (forall h, In h verts' -> In h verts \/ exists l, In l kept /\ In h (R l)) /\
    length verts' <= length verts + length new.
Proof.
  induction new as [|l new IH]; intros s L R X verts snks W; cbn zeta.
  - exists s, verts, snks. simpl. rewrite app_nil_r. do 4 (split; auto). lia.
  - simpl app in W. destruct (settle_ok verts snks W) as (s1 & sn1 & ve1 & H1 & _ & _ & _ & Hcase).
    cbn [fold_left filter]. rewrite H1.
    destruct Hcase as [(Hle & Ha & -> & W1)|(Hge & -> & -> & W1)].
    + destruct (Nat.leb_spec 3 (length (R l))); [lia|].
      destruct (IH s1 L R X verts sn1 W1) as (s2 & ve2 & sn2 & I1 & I2 & I3 & I4 & I5).
      exists s2, ve2, sn2. rewrite <- Ha. do 4 (split; auto). simpl. lia.
    + destruct (Nat.leb_spec 3 (length (R l))); [|lia].
      destruct (IH _ (l :: L) R X (verts ++ [l_head (getl (s_ls s) l)]) sn1 (wfX_perm (Permutation_middle new L l) W1))
        as (s2 & ve2 & sn2 & I1 & I2 & I3 & I4 & I5).
      exists s2, ve2, sn2. split; auto. split.
      { rewrite I2. simpl. rewrite <- app_assoc. auto. }
      split. { eapply wfX_perm; [|exact I3]. apply Permutation_sym. apply (Permutation_middle _ L l). }
      split; [|rewrite app_length in I5; simpl in *; lia].
      intros h Hh. destruct (I4 h Hh) as [Hv|(k & K1 & K2)].
      * apply in_app_iff in Hv as [Hv|[<-|[]]]; auto. right. exists l. split; [left; auto|].
        destruct W as (_ & W & _). apply (W l). left; auto.
      * right. exists k. split; auto. right; auto.
Qed.

Lemma next_events_ok s ids : (forall v, In v ids -> v_lav (getv (s_vs s) v) <> None) ->
  exists evs, next_events s ids = Ok evs /\ length evs <= length ids.
Proof.
  induction ids as [|v ids IH]; intros H; simpl; [exists []; auto|]. destruct (next_event_ok (H v (or_introl eq_refl))) as (o & ->).
  cbn [bind]. destruct IH as (evs & -> & Hl); [intros; apply H; right; auto|]. cbn [bind]. eexists. split; [reflexivity|].
  rewrite app_length. destruct o; simpl; lia.
Qed.

Lemma wfX_drop s L R v : wfX s L R (eq v) -> (forall l, In l L -> ~ In v (R l)) ->
  wfL (invalidate s v) L R.
Proof.
  intros (H1 & H2 & H3) Hn. destruct (invalidate_vs s v) as (I1 & I2 & _ & _ & I5 & _ & _ & _ & _ & _ & I11).
  split; auto. split.
  - intros l Hl. destruct (H2 l Hl) as [K1 K2]. split; [apply invalidate_ring_ok; auto|]. rewrite I11. auto.
  - intros i Hi Hva. rewrite I1 in Hi. destruct (Nat.eq_dec i v) as [->|Hne]; [rewrite I5 in Hva by auto; discriminate|].
    rewrite I2 in Hva by auto. destruct (H3 i Hi Hva) as [<-|K]; [congruence|auto].
Qed.

Lemma sum_kept (R : nat -> list nat) new :
  list_sum (map (fun k => length (R k) - 2) (filter (fun l => 3 <=? length (R l)) new)) =
  list_sum (map (fun k => length (R k) - 2) new).
Proof.
  induction new as [|l new IH]; auto. cbn [filter map list_sum fold_right]. 
  destruct (Nat.leb_spec 3 (length (R l))); cbn [map list_sum fold_right]; unfold list_sum in *; lia.
Qed.

Lemma finish_split s L R v new snks : wfX s (new ++ L) R (eq v) -> s_act s = L ->
  (forall l, In l (new ++ L) -> ~ In v (R l)) -> (forall l, In l L -> 3 <= length (R l)) ->
  exists s4 verts snks' evs, fold_left settle_lav new (Ok (s, [], snks)) = Ok (s4, verts, snks') /\
    next_events s4 verts = Ok evs /\ length evs <= length new /\ wf (invalidate s4 v) R /\
    phi (invalidate s4 v) R = list_sum (map (fun k => length (R k) - 2) (new ++ L)) /\
    (forall k, In k (s_act (invalidate s4 v)) -> In k (new ++ L)) /\ (forall k, In k L -> In k (s_act (invalidate s4 v))).
Proof.
  intros W Ha Hv H3. destruct (settle_all_ok [] snks W) as (s4 & verts & snks' & F1 & F2 & F3 & F4 & F5).
  set (kept := filter _ new) in *. rewrite Ha in F2.
  exists s4, verts, snks'.
  assert (Hlav : forall h, In h verts -> v_lav (getv (s_vs s4) h) <> None).
  { intros h Hh. destruct (F4 h Hh) as [[]|(l & K1 & K2)]. destruct F3 as (_ & F3 & _).
    rewrite (lav_ok_lav (F3 l (proj2 (in_app_iff kept L l) (or_introl K1))) K2). discriminate. }
  destruct (next_events_ok Hlav) as (evs & He & Hel). exists evs. split; auto. split; auto. split; [simpl in F5; lia|].
  assert (Hact : s_act (invalidate s4 v) = L ++ kept).
  { destruct (invalidate_vs s4 v) as (_ & _ & _ & _ & _ & _ & I7 & _). rewrite I7. auto. }
  assert (Hk : forall l, In l kept -> In l new /\ 3 <= length (R l)).
  { intros l Hl. unfold kept in Hl. apply filter_In in Hl as [K1 K2]. apply Nat.leb_le in K2. auto. }
  split; [|split; [|split]].
  - split.
    + rewrite Hact. assert (Hw : wfL (invalidate s4 v) (kept ++ L) R).
      { apply wfX_drop; auto. intros l Hl. apply Hv. apply in_app_iff in Hl as [Hl|Hl]; apply in_app_iff; auto.
        left. apply Hk; auto. }
      apply wfL_X. eapply wfX_perm; [apply Permutation_app_comm|]. apply wfL_X. exact Hw.
    + rewrite Hact. intros l Hl. apply in_app_iff in Hl as [Hl|Hl]; auto. apply Hk; auto.
  - unfold phi. rewrite Hact, !map_app, !list_sum_app. unfold kept. rewrite sum_kept. lia.
  - rewrite Hact. intros k Hin. apply in_app_iff in Hin as [Hin|Hin]; apply in_app_iff; auto. left. apply Hk; auto.
  - rewrite Hact. intros k Hin. apply in_app_iff. auto.
Qed.

Lemma flat_map_ext_in (X Y : Type) (f g : X -> list Y) l : (forall x, In x l -> f x = g x) -> flat_map f l = flat_map g l.
Proof. intros H. rewrite !flat_map_concat_map. f_equal. apply map_ext_in. auto. Qed.

Lemma invalidate_all_head s ids l : ~ In (l_head (getl (s_ls s) l)) ids ->
  getl (s_ls (invalidate_all s ids)) l = getl (s_ls s) l.
Proof.
  unfold invalidate_all. revert s. induction ids as [|v ids IH]; intros s Hn; simpl; auto.
  destruct (invalidate_vs s v) as (_ & _ & _ & _ & _ & _ & _ & _ & _ & I10 & _).
  assert (Hl : getl (s_ls (invalidate s v)) l = getl (s_ls s) l) by (apply I10; intros He; apply Hn; left; auto).
  rewrite IH; rewrite Hl; auto. intros Hi. apply Hn. right; auto.
Qed.

Lemma grows_body vs vs' : grows vs vs' -> length vs' = length vs -> forall i, body_kept (getv vs' i) (getv vs i).
Proof.
  intros [_ H] Hl i. destruct (Nat.lt_ge_cases i (length vs)) as [Hi|Hi]; [apply H; auto|].
  unfold getv. rewrite !nth_overflow by lia. apply body_kept_refl.
Qed.

(** what settling does besides *)
Lemma settle_all_more new : forall s L R X verts snks s' verts' snks', wfX s (new ++ L) R X ->
  fold_left settle_lav new (Ok (s, verts, snks)) = Ok (s', verts', snks') ->
  let kept := filter (fun l => 3 <=? length (R l)) new in
  verts' = verts ++ map (fun l => l_head (getl (s_ls s) l)) kept /\
  snks' = snks ++ flat_map (fun l => if 3 <=? length (R l) then []
                                     else [v_point (getv (s_vs s) (nxt_of (s_vs s) (l_head (getl (s_ls s) l))))]) new /\
  s_act s' = s_act s ++ kept /\ s_orig s' = s_orig s /\ length (s_vs s') = length (s_vs s) /\
  (forall i, body_kept (getv (s_vs s') i) (getv (s_vs s) i)) /\
  (forall i, (forall l, In l new -> In i (R l) -> 3 <= length (R l)) -> getv (s_vs s') i = getv (s_vs s) i).
Proof.
  induction new as [|l new IH]; intros s L R X verts snks s' verts' snks' W H; cbn zeta.
  - simpl in *. apply Ok_inj, triple_inj in H. destruct H as (<- & <- & <-). rewrite !app_nil_r.
    do 5 (split; [reflexivity|]). split; [intros; apply body_kept_refl|auto].
  - simpl app in W. cbn [fold_left] in H. destruct (settle_ok verts snks W) as (s1 & sn1 & ve1 & H1 & S1 & S2 & S3 & Hcase).
    rewrite H1 in H. pose proof W as (Wn & Wl & _). destruct (Wl l (or_introl eq_refl)) as [Hr Hlen].
    assert (Hh : forall k, In k new -> k <> l /\ ~ In (l_head (getl (s_ls s) k)) (R l)).
    { intros k Hk. assert (Hne : k <> l). { intros ->. simpl in Wn. apply NoDup_cons_iff in Wn as [Wn _]. apply Wn. apply in_app_iff; auto. }
      split; auto. intros Hi. apply Hne. apply (wfX_disjoint W (i := l_head (getl (s_ls s) k))); auto.
      - right. apply in_app_iff; auto.
      - left; auto.
      - apply (Wl k). right. apply in_app_iff; auto. }
    assert (Hset : (if 3 <=? length (R l) then sn1 = snks /\ s_vs s1 = s_vs s /\ s_ls s1 = s_ls s
        else sn1 = snks ++ [v_point (getv (s_vs s) (nxt_of (s_vs s) (l_head (getl (s_ls s) l))))] /\
             grows (s_vs s) (s_vs s1) /\ (forall i, nxt_of (s_vs s1) i = nxt_of (s_vs s) i) /\
             forall k, In k new -> getl (s_ls s1) k = getl (s_ls s) k)).
    { unfold settle_lav in H1. cbn [bind] in H1. rewrite Hlen in H1.
      destruct (Z.ltb_spec 2 (Z.of_nat (length (R l)))) as [Hlt|Hge]; destruct (Nat.leb_spec 3 (length (R l))); try lia.
      - apply Ok_inj, triple_inj in H1. destruct H1 as (<- & <- & <-). auto.
      - destruct (ring_ok_iter Hr) as (t & _ & Hll & _ & Hp). rewrite Hll in H1. cbn [bind] in H1.
        apply Ok_inj, triple_inj in H1. destruct H1 as (<- & <- & <-). split; auto. split; [apply invalidate_all_grow|].
        split; [apply (invalidate_all_spec E s)|]. intros k Hk. apply invalidate_all_head.
        intros Hi. apply (proj2 (Hh k Hk)). eapply Permutation_in; [apply Permutation_sym; exact Hp|exact Hi]. }
    cbn [filter map flat_map]. destruct Hcase as [(Hle & Ha & -> & W1)|(Hge & -> & -> & W1)].
    + destruct (Nat.leb_spec 3 (length (R l))); [lia|]. destruct Hset as (-> & Hg & Hnx & Hgl).
      destruct (IH s1 L R X verts _ s' verts' snks' W1 H) as (I1 & I2 & I3 & I4 & I5 & I6 & I7).
      pose proof (grows_body Hg S1) as Hb.
      split.
      { rewrite I1. f_equal. apply map_ext_in. intros k Hk. apply filter_In in Hk as [Hk _]. rewrite Hgl; auto. }
      split.
      { rewrite I2, <- app_assoc. f_equal. cbn [app]. f_equal. apply flat_map_ext_in. intros k Hk. rewrite (Hgl k Hk), Hnx.
        destruct (Hb (nxt_of (s_vs s) (l_head (getl (s_ls s) k)))) as [-> _]. auto. }
      split; [congruence|]. split; [congruence|]. split; [congruence|].
      split; [intros i; eapply body_kept_trans; [apply I6|apply Hb]|].
      intros i Hi. rewrite I7 by (intros k Hk; apply Hi; right; auto). apply S3. intros Hin. specialize (Hi l (or_introl eq_refl) Hin). lia.
    + destruct (Nat.leb_spec 3 (length (R l))); [|lia]. destruct Hset as (-> & _ & _).
      destruct (IH _ (l :: L) R X _ _ s' verts' snks' (wfX_perm (Permutation_middle new L l) W1) H) as (I1 & I2 & I3 & I4 & I5 & I6 & I7).
      cbn [with_act s_vs s_ls s_act s_orig] in *.
      split; [rewrite I1, <- app_assoc; auto|]. split; [rewrite I2; auto|]. split; [rewrite I3, <- app_assoc; auto|].
      split; auto. split; auto. split; auto. intros i Hi. apply I7. intros k Hk. apply Hi. right; auto.
Qed.

Lemma same_body_kept (v w : @lavertex A) : same_body v w -> body_kept v w.
Proof. intros (S1 & S2 & S3 & _ & _ & S6 & S7). repeat split; auto. Qed.

Lemma next_event_ext s s' id : s_orig s' = s_orig s -> getv (s_vs s') id = getv (s_vs s) id ->
  (forall i, body_kept (getv (s_vs s') i) (getv (s_vs s) i)) -> next_event s' id = next_event s id.
Proof.
  intros Ho Hg Hb. unfold next_event, candidates, edge_candidates. rewrite Hg, Ho.
  destruct (Hb (v_prev (getv (s_vs s) id))) as (_ & _ & _ & _ & ->).
  destruct (Hb (v_next (getv (s_vs s) id))) as (_ & _ & _ & _ & ->). auto.
Qed.

Lemma next_events_ext s s' ids : (forall i, In i ids -> next_event s' i = next_event s i) -> next_events s' ids = next_events s ids.
Proof. induction ids as [|i ids IH]; intros H; simpl; auto. rewrite H, IH; auto; [intros; apply H; right; auto|left; auto]. Qed.

(** what a split event does to the rings: nothing, or the ring of v is cut in two, or the ring of v and another one
    become one *)
Definition split_step s (R : nat -> list nat) s' R' d ip v opp (arcs : list (@subtree A)) (new : list (@event A)) : Prop :=
  let born n e e' := body_kept (getv (s_vs s') n) (mk_vertex 0 ip e e' None true) in
  let spot i := v_point (getv (s_vs s) i) in
  (arcs = [] /\ new = [] /\ s' = s /\ R' = R /\ find_split_lavs s ip opp (s_act s) = Ok None) \/
  (exists x y n1 n2, find_split_lavs s ip opp (s_act s) = Ok (Some (x, y)) /\
     v_enext (getv (s_vs s) y) = opp /\ v_eprev (getv (s_vs s) x) = opp /\
     born n1 (v_eprev (getv (s_vs s) v)) opp /\ born n2 opp (v_enext (getv (s_vs s) v)) /\
     ((exists l L p q l1 l2, Permutation (s_act s) (l :: L) /\
         ring (nxt_of (s_vs s)) (prv_of (s_vs s)) (v :: p ++ y :: x :: q) /\ Permutation (R l) (v :: p ++ y :: x :: q) /\
         s_act s' = L ++ filter (fun k => 3 <=? length (R' k)) [l1; l2] /\
         R' l1 = n1 :: x :: q /\ R' l2 = n2 :: p ++ [y] /\ (forall k, In k L -> R' k = R k) /\
         arcs = [Subtree ip d ([spot v] ++ (match q with [] => [spot x] | _ => [] end) ++ (match p with [] => [spot y] | _ => [] end))] /\
         next_events s' (map (fun k => hd 0 (R' k)) (filter (fun k => 3 <=? length (R' k)) [l1; l2])) = Ok new) \/
      (exists l lx M p q l1, Permutation (s_act s) (l :: lx :: M) /\
         ring (nxt_of (s_vs s)) (prv_of (s_vs s)) (v :: p) /\ Permutation (R l) (v :: p) /\
         ring (nxt_of (s_vs s)) (prv_of (s_vs s)) (x :: q) /\ Permutation (R lx) (x :: q) /\ q <> [] /\ last q 0 = y /\
         s_act s' = M ++ [l1] /\ R' l1 = n1 :: x :: q ++ n2 :: p /\ (forall k, In k M -> R' k = R k) /\
         arcs = [Subtree ip d [spot v]] /\ next_events s' [n1] = Ok new))).

Lemma ring_prev_ne s l ids v : ring_ok E (s_vs s) (s_ls s) l ids -> 3 <= length ids -> In v ids ->
  prv_of (s_vs s) v <> v /\ nxt_of (s_vs s) v <> v.
Proof.
  intros Hr H3 Hin. destruct (ring_pair Hr H3 Hin eq_refl) as (rest & Hne & Hr2 & Hp & P1 & P2 & _).
  apply ring_NoDup in Hr2. apply NoDup_cons_iff in Hr2 as [Na _]. split.
  - rewrite P1. intros He. apply Na. right. rewrite <- He at 1. apply last_in. auto.
  - intros He. apply Na. left. auto.
Qed.

Lemma vertex_eq (a b : @lavertex A) : same_body a b -> v_next a = v_next b -> v_prev a = v_prev b -> a = b.
Proof. intros (S1 & S2 & S3 & S4 & S5 & S6 & S7) H1 H2. destruct a, b. simpl in *. congruence. Qed.

Lemma split_event_ok s R d ip v opp : wf s R -> is_valid s v = true -> In opp E ->
  opp <> v_eprev (getv (s_vs s) v) -> opp <> v_enext (getv (s_vs s) v) ->
  exists s' arcs new R', handle_split_event s d ip v opp = Ok (s', arcs, new) /\ wf s' R' /\ length new <= 2 * length arcs /\
    ((arcs = [] /\ s' = s /\ R' = R) \/
     (exists a l, arcs = [a] /\ phi s R = S (phi s' R') /\ forall k, gone s s' k -> k = l) \/
     (exists a l l', arcs = [a] /\ l <> l' /\ gone s s' l /\ gone s s' l' /\ phi s' R' = phi s R + 3)) /\
    split_step s R s' R' d ip v opp arcs new.
Proof.
  intros W Hva Hopp Hep Hen. pose proof W as [(W1 & W2 & W3) W4].
  pose proof (is_valid_rng Hva) as Lv. destruct (W3 v Lv Hva) as (l & Hl & Hin).
  destruct (W2 l Hl) as [Hr Hlen]. pose proof Hr as (Hrr & Hll & Hhd & Hvs).
  pose proof (lav_ok_lav (W2 l Hl) Hin) as Hlav.
  unfold handle_split_event. rewrite Hlav.
  destruct (find_split_ok ip W2 Hopp) as (o & Ho & Hxy). rewrite Ho. cbn [bind].
  destruct o as [[x y]|].
  2: { eexists _, _, _, R. split; [reflexivity|]. split; auto. split; auto. split; auto. left. auto. }
  destruct (Hxy x y eq_refl) as (lx & Hlx & Hx & Hy & Nyx & Pxy & Ex & Ey). clear Hxy.
  set (n1 := length (s_vs s)). set (n2 := S n1).
  set (v1 := mk_vertex n1 ip _ opp None true). set (v2 := mk_vertex n2 ip opp _ None true).
  assert (Hv1 : v_valid v1 = true /\ v_eprev v1 = v_eprev (getv (s_vs s) v) /\ v_enext v1 = opp) by (unfold v1, mk_vertex; simpl; auto).
  assert (Hv2 : v_valid v2 = true /\ v_enext v2 = v_enext (getv (s_vs s) v) /\ v_eprev v2 = opp) by (unfold v2, mk_vertex; simpl; auto).
  assert (Hb1 : body_kept v1 (mk_vertex 0 ip (v_eprev (getv (s_vs s) v)) opp None true)) by apply mk_vertex_kept.
  assert (Hb2 : body_kept v2 (mk_vertex 0 ip opp (v_enext (getv (s_vs s) v)) None true)) by apply mk_vertex_kept.
  clearbody v1 v2.
  match goal with |- context [with_vs ?t s] => change t with (relink (s_vs s) v x y v1 v2) end.
  match goal with |- context [v_lav (getv ?t x)] => change t with (relink (s_vs s) v x y v1 v2) end.
  (* positions *)
  set (pv := prv_of (s_vs s) v). set (nv := nxt_of (s_vs s) v).
  destruct (ring_prev_ne Hr (W4 l Hl) Hin) as [Npv Nnv].
  pose proof (ring_prev_in Hrr Hin) as Hpv. pose proof (ring_next_in Hrr Hin) as Hnv.
  assert (Nx : x <> v) by (intros ->; auto). assert (Ny : y <> v) by (intros ->; auto).
  assert (Lx : x < n1) by (apply (proj2 (proj2 (proj2 (proj1 (W2 lx Hlx)))) x Hx)).
  assert (Ly : y < n1) by (apply (proj2 (proj2 (proj2 (proj1 (W2 lx Hlx)))) y Hy)).
  assert (Lp : pv < n1) by (apply (Hvs pv Hpv)). assert (Ln : nv < n1) by (apply (Hvs nv Hnv)).
  assert (Nyp : y <> pv). { intros ->. apply Nx. rewrite <- Nyx. apply (ring_prev_next Hrr Hin). }
  assert (Nxn : x <> nv). { intros ->. apply Ny. rewrite <- Pxy. apply (ring_next_prev Hrr Hin). }
  destruct (@relink_spec (s_vs s) v x y v1 v2 Lv Lx Ly Lp Ln Npv Nnv Nx Ny Nyp Nxn)
    as (RL & RB & RB1 & RB2 & (RN1 & RN2 & RN3 & RN4 & RN5) & (RP1 & RP2 & RP3 & RP4 & RP5)).
  fold n1 in RL, RB, RB1, RB2, RN1, RN2, RN3, RN4, RN5, RP1, RP2, RP3, RP4, RP5.
  fold n2 in RL, RB2, RN2, RN4, RP2, RP4. fold pv in RN3, RN5, RP1. fold nv in RN2, RP4, RP5.
  set (vs8 := relink (s_vs s) v x y v1 v2) in *. clearbody vs8.
  assert (Hxlav : v_lav (getv vs8 x) = Some lx).
  { destruct (RB x Lx) as (_ & _ & _ & -> & _). apply (lav_ok_lav (W2 lx Hlx) Hx). }
  rewrite Hxlav.
  (* facts shared by both cases *)
  assert (Hpre : forall k i, In k (s_act s) -> In i (R k) -> i <> v -> vert_pre E vs8 i).
  { intros k i Hk Hi Hiv. destruct (W2 k Hk) as [(Kr & K2 & K3 & K5) _].
    destruct (K5 i Hi) as (V1 & V2 & V3 & V4 & V5 & V6). fold n1 in V1.
    destruct (RB i V1) as (_ & B2 & B3 & _ & B5 & _).
    split; [lia|]. split; [congruence|]. split; [|rewrite B2, B3; auto]. rewrite B3.
    destruct (Nat.eq_dec i pv) as [->|Np].
    { rewrite RN3. destruct RB1 as (_ & -> & _). destruct Hv1 as (_ & -> & _). rewrite V4. unfold pv.
      rewrite (ring_prev_next Hrr Hin). auto. }
    destruct (Nat.eq_dec i y) as [->|Nyi].
    { rewrite RN4. destruct RB2 as (_ & -> & _). destruct Hv2 as (_ & _ & ->). auto. }
    rewrite RN5 by auto. rewrite V4.
    destruct (RB (nxt_of (s_vs s) i)) as (_ & -> & _); auto. apply (K5 _ (ring_next_in Kr Hi)). }
  assert (Hpre1 : vert_pre E vs8 n1).
  { destruct Hv1 as (V1 & V2 & V3). destruct RB1 as (_ & B2 & B3 & _ & B5 & _). split; [lia|]. rewrite B5, B3, B2, V1, V2, V3, RN1.
    split; auto. split; [|split; auto; apply (Hvs v Hin)]. destruct (RB x Lx) as (_ & -> & _). auto. }
  assert (Hpre2 : vert_pre E vs8 n2).
  { destruct Hv2 as (V1 & V2 & V3). destruct RB2 as (_ & B2 & B3 & _ & B5 & _). split; [lia|]. rewrite B5, B3, B2, V1, V2, V3, RN2.
    split; auto. destruct (Hvs v Hin) as (_ & _ & _ & V4 & V5 & V6).
    split; [|split; auto]. destruct (RB nv Ln) as (_ & -> & _). auto. }
  assert (Hrng : forall k i, In k (s_act s) -> In i (R k) -> i < n1).
  { intros k i Hk Hi. apply (proj2 (proj2 (proj2 (proj1 (W2 k Hk)))) i Hi). }
  assert (Hlrng : forall k, In k (s_act s) -> k < length (s_ls s)) by (intros k Hk; apply (proj1 (W2 k Hk))).
  assert (Hdis : forall k k' i, In k (s_act s) -> In k' (s_act s) -> In i (R k) -> In i (R k') -> k = k').
  { intros k k' i K1 K2 I1 I2. eapply (wfX_disjoint (proj1 (wfL_X E s (s_act s) R) (proj1 W))); eauto. }
  assert (Hold : forall k i, In k (s_act s) -> k <> l -> k <> lx -> In i (R k) -> getv vs8 i = getv (s_vs s) i).
  { intros k i Hk K1 K2 Hi. pose proof (Hrng k i Hk Hi) as Li. apply vertex_eq; auto.
    - apply RN5; auto; intros ->; eauto.
    - apply RP5; auto; intros ->; eauto. }
  destruct (remove_lav_ok W Hl) as (L & HL1 & HL2 & HL3 & HL4).
  unfold remove_lav in HL1 |- *. destruct (py_remove Nat.eqb l (s_act s)) as [L'|] eqn:EL; [|discriminate].
  cbn [bind] in HL1. apply Ok_inj in HL1. assert (L' = L) by (apply (f_equal (@s_act A)) in HL1; auto). subst L'. clear HL1.
  change (s_act (with_vs vs8 s)) with (s_act s). rewrite EL. cbn [bind].
  assert (HLin : forall k, In k L -> In k (s_act s) /\ k <> l).
  { intros k Hk. split; [eapply Permutation_in; [apply Permutation_sym; exact HL2|right; auto]|intros ->; auto]. }
  assert (HLin' : forall k, In k (s_act s) -> k = l \/ In k L).
  { intros k Hk. apply (Permutation_in _ HL2) in Hk. destruct Hk; auto. }
  set (s2 := with_act L (with_vs vs8 s)).
  destruct (ring_at Hrr Hin) as (t & Ht & Hp).
  destruct (Nat.eqb_spec l lx) as [El|El]; cbn [negb].
  - (* the wavefront is cut in two *)
    subst lx. 
    assert (Hyt : In y t). { apply (Permutation_in _ Hp) in Hy. destruct Hy; [congruence|auto]. }
    apply in_split in Hyt as (p & r & ->).
    assert (Hrq : exists q, r = x :: q).
    { pose proof Ht as Hlk. apply ring_linked in Hlk as [_ Hlk]. destruct r as [|x' q].
      - replace (v :: (p ++ [y]) ++ [v]) with ((v :: p) ++ [y; v]) in Hlk by (simpl; rewrite <- app_assoc; auto).
        apply linked_tail in Hlk. destruct Hlk as [[Hc _] _]. congruence.
      - replace (v :: (p ++ y :: x' :: q) ++ [v]) with ((v :: p) ++ y :: x' :: q ++ [v]) in Hlk by (simpl; rewrite <- app_assoc; auto).
        apply linked_tail in Hlk. destruct Hlk as [[Hc _] _]. exists q. congruence. }
    destruct Hrq as (q & ->).
    set (ids1 := n1 :: x :: q). set (ids2 := n2 :: p ++ [y]).
    assert (Hmem : forall i, In i (R l) <-> i = v \/ In i (x :: q) \/ In i (p ++ [y])).
    { intros i. split.
      - intros Hi. apply (Permutation_in _ Hp) in Hi. destruct Hi as [Hi|Hi]; auto. apply in_app_iff in Hi as [Hi|[Hi|Hi]].
        + right; right. apply in_app_iff; auto.
        + right; right. apply in_app_iff; right; left; auto.
        + auto.
      - intros Hi. apply (Permutation_in _ (Permutation_sym Hp)). destruct Hi as [->|[Hi|Hi]]; [left; auto| |].
        + right. apply in_app_iff. right. right. auto.
        + right. apply in_app_iff in Hi as [Hi|[Hi|[]]]; apply in_app_iff; auto. right; left; auto. }
    assert (Hnin : forall i, In i (v :: p ++ y :: x :: q) -> i < n1).
    { intros i Hi. apply (Hrng l); auto. apply (Permutation_in _ (Permutation_sym Hp)). auto. }
    destruct (ring_cut (nxt := nxt_of (s_vs s)) (prv := prv_of (s_vs s)) (nxt' := nxt_of vs8) (prv' := prv_of vs8)
                (v := v) (x := x) (y := y) (n1 := n1) (n2 := n2)) with (p := p) (q := q) as [Hring1 Hring2]; auto.
    { intros j J1 J2 J3 J4. destruct (Nat.lt_ge_cases j n1); [apply RN5; auto|].
      unfold nxt_of, getv. rewrite !nth_overflow; auto. fold n1. lia. }
    { intros j J1 J2 J3 J4. destruct (Nat.lt_ge_cases j n1); [apply RP5; auto|].
      unfold prv_of, getv. rewrite !nth_overflow; auto. fold n1. lia. }
    { intros Hi. apply Hnin in Hi. lia. }
    { intros Hi. apply Hnin in Hi. unfold n2 in Hi. lia. }
    fold ids1 in Hring1. fold ids2 in Hring2.
    pose proof (ring_NoDup Ht) as Hnd. apply NoDup_cons_iff in Hnd as [Nvt Hnd].
    assert (Hdis12 : forall z, In z (x :: q) -> In z (p ++ [y]) -> False).
    { intros z Z1 Z2. replace (p ++ y :: x :: q) with ((p ++ [y]) ++ x :: q) in Hnd by (rewrite <- app_assoc; auto).
      apply (proj2 (proj2 (NoDup_app_split Hnd)) z); auto. }
    assert (Nv1 : ~ In v (x :: q)). { intros Hi. apply Nvt. apply in_app_iff. right. right. auto. }
    assert (Nv2 : ~ In v (p ++ [y])). { intros Hi. apply Nvt. apply in_app_iff in Hi as [Hi|[Hi|[]]]; apply in_app_iff; auto. right; left; auto. }
    assert (I1 : forall i, In i ids1 -> vert_pre E vs8 i).
    { intros i [<-|Hi]; auto. apply (Hpre l); auto; [apply Hmem; auto|intros ->; auto]. }
    assert (I2 : forall i, In i ids2 -> vert_pre E vs8 i).
    { intros i [<-|Hi]; auto. apply (Hpre l); auto; [apply Hmem; auto|intros ->; auto]. }
    destruct (from_chain_ok (E := E) (s := s2) (h := n1) Hring1 (or_introl eq_refl) I1)
      as (sa & F1 & F2 & F3 & F4 & F5 & F6 & F7 & F8 & F9 & F10).
    change (length (s_ls s2)) with (length (s_ls s)) in F1, F2, F3, F7, F10. change (s_act s2) with L in F4.
    change (s_vs s2) with vs8 in F6, F8, F9. change (s_ls s2) with (s_ls s) in F10.
    rewrite F1. cbn [bind].
    assert (Hring2' : ring (nxt_of (s_vs sa)) (prv_of (s_vs sa)) ids2).
    { eapply ring_ext; [| |exact Hring2]; intros z Hz; symmetry; apply F9. }
    assert (I2' : forall i, In i ids2 -> vert_pre E (s_vs sa) i).
    { intros i Hi. destruct (I2 i Hi) as (V1 & V2 & V3 & V4 & V5). destruct (F9 i) as ((B1 & B2 & B3 & B4 & B5) & B6 & B7 & B8).
      destruct (F9 (nxt_of vs8 i)) as ((C1 & C2 & C3 & C4 & C5) & _).
      split; [lia|]. rewrite B6, B7, B3, B2, C2. auto. }
    destruct (from_chain_ok (E := E) (s := sa) (h := n2) Hring2' (or_introl eq_refl) I2')
      as (sb & G1 & G2 & G3 & G4 & G5 & G6 & G7 & G8 & G9 & G10).
    rewrite G1. cbn [bind]. rewrite F7 in *.
    set (l1 := length (s_ls s)) in *. set (l2 := S l1) in *.
    set (R' := fun k => if Nat.eqb k l1 then ids1 else if Nat.eqb k l2 then ids2 else R k).
    assert (Rl1 : R' l1 = ids1) by (unfold R'; rewrite Nat.eqb_refl; auto).
    assert (Rl2 : R' l2 = ids2). { unfold R'. destruct (Nat.eqb_spec l2 l1); [unfold l2 in *; lia|]. rewrite Nat.eqb_refl. auto. }
    assert (HLl : forall k, In k L -> k < l1) by (intros k Hk; apply Hlrng; apply HLin; auto).
    assert (RL' : forall k, In k L -> R' k = R k).
    { intros k Hk. unfold R'. specialize (HLl k Hk). destruct (Nat.eqb_spec k l1); [lia|]. destruct (Nat.eqb_spec k l2); [unfold l2 in *; lia|]. auto. }
    assert (Hnot1 : forall k i, In k L -> In i (R k) -> ~ In i ids1).
    { intros k i Hk Hi [Hi'|Hi']; [specialize (Hrng k i (proj1 (HLin k Hk)) Hi); lia|].
      apply (proj2 (HLin k Hk)). apply (Hdis k l i); auto; [apply HLin; auto|apply Hmem; auto]. }
    assert (Hnot2 : forall k i, In k L -> In i (R k) -> ~ In i ids2).
    { intros k i Hk Hi [Hi'|Hi']; [specialize (Hrng k i (proj1 (HLin k Hk)) Hi); unfold n2 in Hi'; lia|].
      apply (proj2 (HLin k Hk)). apply (Hdis k l i); auto; [apply HLin; auto|apply Hmem; auto]. }
    assert (Hids12 : forall i, In i ids1 -> ~ In i ids2).
    { intros i [<-|Hi] [Hi'|Hi'].
      - unfold n2 in Hi'. lia.
      - assert (n1 < n1) by (apply (Hrng l n1); auto; apply Hmem; auto). lia.
      - assert (n2 < n1) by (apply (Hrng l n2); auto; apply Hmem; subst i; auto). unfold n2 in *. lia.
      - eauto. }
    assert (Wb : wfX sb ([l1; l2] ++ L) R' (eq v)).
    { split; [|split].
      - simpl. constructor; [|constructor; auto].
        + intros [Hi|Hi]; [unfold l2 in Hi; lia|specialize (HLl _ Hi); lia].
        + intros Hi. specialize (HLl _ Hi). unfold l2 in *. lia.
      - intros k [<-|[<-|Hk]].
        + rewrite Rl1. eapply lav_ok_frame; [exact F2|lia| |lia|apply G10; unfold l2; lia].
          intros i Hi. apply G8. auto.
        + rewrite Rl2. exact G2.
        + rewrite (RL' k Hk). destruct (HLin k Hk) as [Hka Hkl]. pose proof (HLl k Hk) as Hkk.
          eapply lav_ok_frame; [exact (W2 k Hka)| | | |].
          * rewrite G6, F6. fold n1. unfold n2 in RL. lia.
          * intros i Hi. rewrite G8, F8 by eauto. apply (Hold k); auto.
          * rewrite G7. unfold l2. lia.
          * rewrite G10, F10 by (unfold l2; lia). auto.
      - intros i Hi Hvi. rewrite G6, F6, RL in Hi. destruct (G9 i) as (_ & V1 & _). destruct (F9 i) as (_ & V2 & _).
        rewrite V1, V2 in Hvi.
        destruct (Nat.eq_dec i n1) as [->|D1]; [right; exists l1; rewrite Rl1; split; [left; auto|left; auto]|].
        destruct (Nat.eq_dec i n2) as [->|D2]; [right; exists l2; rewrite Rl2; split; [right; left; auto|left; auto]|].
        assert (Li : i < n1) by (unfold n2 in *; lia).
        destruct (RB i Li) as (_ & _ & _ & _ & V3 & _). rewrite V3 in Hvi.
        destruct (W3 i Li Hvi) as (k & Hk & Hik). destruct (HLin' k Hk) as [->|HkL].
        + apply Hmem in Hik. destruct Hik as [->|[Hik|Hik]]; [left; auto|right; exists l1; rewrite Rl1|right; exists l2; rewrite Rl2].
          * split; [left; auto|right; auto].
          * split; [right; left; auto|right; auto].
        + right. exists k. rewrite (RL' k HkL). split; [right; right; auto|auto]. }
    destruct (finish_split [v_point (getv (s_vs s) v)] Wb) as (s4 & verts & snks' & evs & S1 & S2 & Sl & S3 & S4 & S5 & S6).
    { rewrite G4, F4. auto. }
    { intros k [<-|[<-|Hk]]; [rewrite Rl1|rewrite Rl2|rewrite (RL' k Hk)].
      - intros [Hi|Hi]; auto. lia.
      - intros [Hi|Hi]; auto. unfold n2 in Hi; lia.
      - intros Hi. apply (proj2 (HLin k Hk)). apply (Hdis k l v); auto. apply HLin; auto. }
    { intros k Hk. rewrite (RL' k Hk). apply W4. apply HLin; auto. }
    rewrite S1. cbn [bind]. rewrite S2. cbn [bind].
    eexists _, _, _, R'. split; [reflexivity|]. split; auto. split; [simpl in *; lia|].
    split; [right; left; eexists _, l; split; [reflexivity|]; split|].
    + rewrite S4, (phi_perm R HL2). cbn [app map list_sum fold_right]. rewrite Rl1, Rl2.
      apply Permutation_length in Hp. rewrite Hp. unfold ids1, ids2. simpl length. rewrite !app_length. simpl length.
      rewrite (list_sum_ext (f := fun k => length (R' k) - 2) (g := fun k => length (R k) - 2)) by (intros k Hk; rewrite RL'; auto).
      unfold list_sum. lia.
    + intros k [K1 K2]. destruct (HLin' k K1) as [->|K3]; auto. exfalso. apply K2. apply S6. auto.
    + right. exists x, y, n1, n2. 
      destruct (settle_all_more Wb S1) as (M1 & M2 & M3 & M4 & M5 & M6 & M7).
      destruct (invalidate_vs s4 v) as (V1 & V2 & _ & _ & _ & _ & V7 & V8 & _).
      pose proof (grows_body (invalidate_grow s4 v) V1) as Vb.
      assert (B8 : forall i, body_kept (getv (s_vs (invalidate s4 v)) i) (getv vs8 i)).
      { intros i. eapply body_kept_trans; [apply Vb|]. eapply body_kept_trans; [apply M6|].
        eapply body_kept_trans; [apply G9|]. apply F9. }
      assert (Hpt : forall i, i < n1 -> v_point (getv (s_vs sb) i) = v_point (getv (s_vs s) i)).
      { intros i Hi. destruct (G9 i) as ((-> & _) & _). destruct (F9 i) as ((-> & _) & _). apply RB; auto. }
      assert (Hh1 : l_head (getl (s_ls sb) l1) = n1) by (rewrite G10 by (unfold l2; lia); auto).
      assert (Hx1 : nxt_of (s_vs sb) n1 = x).
      { destruct (G9 n1) as (_ & _ & -> & _). destruct (F9 n1) as (_ & _ & -> & _). auto. }
      assert (Hx2 : p = [] -> nxt_of (s_vs sb) n2 = y).
      { intros ->. destruct (G9 n2) as (_ & _ & -> & _). destruct (F9 n2) as (_ & _ & -> & _).
        apply ring_linked in Hring2 as [_ Hlk]. simpl in Hlk. tauto. }
      split; auto. split; auto. split; auto.
      split; [eapply body_kept_trans; [apply B8|]; eapply body_kept_trans; [|exact Hb1]; apply same_body_kept; auto|].
      split; [eapply body_kept_trans; [apply B8|]; eapply body_kept_trans; [|exact Hb2]; apply same_body_kept; auto|].
      left. exists l, L, p, q, l1, l2. split; auto. split; auto. split; auto.
      split; [rewrite V7, M3, G4, F4; auto|]. split; auto. split; auto. split; auto. split.
      * rewrite M2. cbn [flat_map]. rewrite Rl1, Rl2, Hh1, G3, Hx1, Hpt by auto. f_equal. f_equal.
        unfold ids1, ids2. rewrite app_nil_r.
        destruct q as [|? q]; destruct p as [|? p]; cbn [length app Nat.leb]; rewrite ?app_length; cbn [length];
          rewrite ?Nat.add_1_r; cbn [Nat.leb]; rewrite ?Hx2, ?Hpt by auto; auto.
      * replace (map (fun k => hd 0 (R' k)) (filter (fun k => 3 <=? length (R' k)) [l1; l2])) with verts.
        2: { rewrite M1. cbn [app]. apply map_ext_in. intros k Hk. apply filter_In in Hk as [[<-|[<-|[]]] _].
             - rewrite Rl1, Hh1. auto.
             - rewrite Rl2, G3. auto. }
        rewrite <- S2. apply next_events_ext. intros i Hi. apply next_event_ext; auto. apply V2.
        rewrite M1 in Hi. apply in_map_iff in Hi as (k & <- & Hk). apply filter_In in Hk as [[<-|[<-|[]]] _].
        -- rewrite Hh1. lia.
        -- rewrite G3. unfold n2. lia.
  - (* two wavefronts are joined *)
    assert (HlxL : In lx L) by (destruct (HLin' lx Hlx); [congruence|auto]).
    destruct (py_remove_nodup HL3 HlxL) as (M & HM1 & HM2 & HM3 & HM4).
    change (s_act s2) with L. rewrite HM1. cbn [bind].
    destruct (W2 lx Hlx) as [(Xrr & Xll & Xhd & Xvs) Xlen].
    destruct (ring_at Xrr Hx) as (q & Hq & Hpq).
    assert (Htne : t <> []). { intros ->. pose proof (W4 l Hl). apply Permutation_length in Hp. simpl in Hp. lia. }
    assert (Hqne : q <> []). { intros ->. pose proof (W4 lx Hlx). apply Permutation_length in Hpq. simpl in Hpq. lia. }
    set (ids := n1 :: (x :: q) ++ n2 :: t).
    assert (Hmt : forall i, In i (v :: t) -> In i (R l)) by (intros i; apply (Permutation_in _ (Permutation_sym Hp))).
    assert (Hmq : forall i, In i (x :: q) -> In i (R lx)) by (intros i; apply (Permutation_in _ (Permutation_sym Hpq))).
    assert (Hring : ring (nxt_of vs8) (prv_of vs8) ids).
    { apply (ring_join (nxt := nxt_of (s_vs s)) (prv := prv_of (s_vs s)) (nxt' := nxt_of vs8) (prv' := prv_of vs8)
                (v := v) (x := x) (y := y) (n1 := n1) (n2 := n2)); auto.
      - intros j J1 J2 J3 J4. destruct (Nat.lt_ge_cases j n1); [apply RN5; auto|].
        unfold nxt_of, getv. rewrite !nth_overflow; auto. fold n1. lia.
      - intros j J1 J2 J3 J4. destruct (Nat.lt_ge_cases j n1); [apply RP5; auto|].
        unfold prv_of, getv. rewrite !nth_overflow; auto. fold n1. lia.
      - unfold n2; lia.
      - intros z Z1 Z2. apply El. apply (Hdis l lx z); auto.
      - intros z [Z|Z]; [apply Hmt in Z; apply (Hrng l) in Z|apply Hmq in Z; apply (Hrng lx) in Z]; auto; unfold n2; lia. }
    pose proof (ring_NoDup Ht) as Hnd. apply NoDup_cons_iff in Hnd as [Nvt Hnd].
    assert (Hmem : forall i, In i ids <-> i = n1 \/ i = n2 \/ In i (x :: q) \/ In i t).
    { intros i. unfold ids. change (n1 :: (x :: q) ++ n2 :: t) with ([n1] ++ (x :: q) ++ [n2] ++ t). rewrite !in_app_iff.
      change (In i [n1]) with (n1 = i \/ False). change (In i [n2]) with (n2 = i \/ False). intuition auto. }
    assert (I1 : forall i, In i ids -> vert_pre E vs8 i).
    { intros i Hi. apply Hmem in Hi. destruct Hi as [->|[->|[Hi|Hi]]]; auto.
      - apply (Hpre lx); auto. intros ->. apply El. apply (Hdis l lx v); auto.
      - apply (Hpre l); auto; [apply Hmt; right; auto|intros ->; auto]. }
    destruct (from_chain_ok (E := E) (s := with_act M s2) (h := n1) Hring (or_introl eq_refl) I1)
      as (sa & F1 & F2 & F3 & F4 & F5 & F6 & F7 & F8 & F9 & F10).
    change (length (s_ls (with_act M s2))) with (length (s_ls s)) in F1, F2, F3, F7, F10. change (s_act (with_act M s2)) with M in F4.
    change (s_vs (with_act M s2)) with vs8 in F6, F8, F9. change (s_ls (with_act M s2)) with (s_ls s) in F10.
    rewrite F1. cbn [bind].
    set (l1 := length (s_ls s)) in *.
    set (R' := fun k => if Nat.eqb k l1 then ids else R k).
    assert (Rl1 : R' l1 = ids) by (unfold R'; rewrite Nat.eqb_refl; auto).
    assert (HMin : forall k, In k M -> In k L /\ k <> lx).
    { intros k Hk. split; [eapply Permutation_in; [apply Permutation_sym; exact HM2|right; auto]|intros ->; auto]. }
    assert (HMl : forall k, In k M -> k < l1) by (intros k Hk; apply Hlrng; apply HLin; apply HMin; auto).
    assert (RM' : forall k, In k M -> R' k = R k).
    { intros k Hk. unfold R'. specialize (HMl k Hk). destruct (Nat.eqb_spec k l1); [lia|]. auto. }
    assert (HMa : forall k, In k M -> In k (s_act s) /\ k <> l /\ k <> lx).
    { intros k Hk. destruct (HMin k Hk) as [K1 K2]. destruct (HLin k K1). auto. }
    assert (Hnot1 : forall k i, In k M -> In i (R k) -> ~ In i ids).
    { intros k i Hk Hi Hi'. destruct (HMa k Hk) as (K1 & K2 & K3). pose proof (Hrng k i K1 Hi).
      apply Hmem in Hi'. destruct Hi' as [Hi'|[Hi'|[Hi'|Hi']]].
      - lia.
      - unfold n2 in Hi'. lia.
      - apply K3. apply (Hdis k lx i); auto.
      - apply K2. apply (Hdis k l i); auto. apply Hmt. right; auto. }
    assert (Wb : wfX sa ([l1] ++ M) R' (eq v)).
    { split; [|split].
      - simpl. constructor; auto. intros Hi. specialize (HMl _ Hi). lia.
      - intros k [<-|Hk].
        + rewrite Rl1. exact F2.
        + rewrite (RM' k Hk). destruct (HMa k Hk) as (K1 & K2 & K3). pose proof (HMl k Hk) as Hkk.
          eapply lav_ok_frame; [exact (W2 k K1)| | | |].
          * rewrite F6. fold n1. unfold n2 in RL. lia.
          * intros i Hi. rewrite F8 by eauto. apply (Hold k); auto.
          * rewrite F7. lia.
          * rewrite F10 by auto. auto.
      - intros i Hi Hvi. rewrite F6, RL in Hi. destruct (F9 i) as (_ & V2 & _).
        rewrite V2 in Hvi.
        destruct (Nat.eq_dec i n1) as [->|D1]; [right; exists l1; rewrite Rl1; split; [left; auto|apply Hmem; auto]|].
        destruct (Nat.eq_dec i n2) as [->|D2]; [right; exists l1; rewrite Rl1; split; [left; auto|apply Hmem; auto]|].
        assert (Li : i < n1) by (unfold n2 in *; lia).
        destruct (RB i Li) as (_ & _ & _ & _ & V3 & _). rewrite V3 in Hvi.
        destruct (W3 i Li Hvi) as (k & Hk & Hik). destruct (HLin' k Hk) as [->|HkL].
        + apply (Permutation_in _ Hp) in Hik. destruct Hik as [->|Hik]; [left; auto|right; exists l1; rewrite Rl1].
          split; [left; auto|apply Hmem; auto].
        + apply (Permutation_in _ HM2) in HkL. destruct HkL as [<-|HkM].
          * apply (Permutation_in _ Hpq) in Hik. right. exists l1. rewrite Rl1. split; [left; auto|apply Hmem; auto].
          * right. exists k. rewrite (RM' k HkM). split; [right; auto|auto]. }
    destruct (finish_split [v_point (getv (s_vs s) v)] Wb) as (s4 & verts & snks' & evs & S1 & S2 & Sl & S3 & S4 & S5 & S6).
    { auto. }
    { intros k [<-|Hk]; [rewrite Rl1|rewrite (RM' k Hk)].
      - intros Hi. apply Hmem in Hi. destruct Hi as [Hi|[Hi|[Hi|Hi]]]; auto; try (unfold n2 in *; lia).
        apply El. apply (Hdis l lx v); auto.
      - intros Hi. destruct (HMa k Hk) as (K1 & K2 & K3). apply K2. apply (Hdis k l v); auto. }
    { intros k Hk. rewrite (RM' k Hk). apply W4. apply HMa; auto. }
    rewrite S1. cbn [bind]. rewrite S2. cbn [bind].
    eexists _, _, _, R'. split; [reflexivity|]. split; auto. split; [simpl in *; lia|].
    split; [right; right; eexists _, l, lx; split; [reflexivity|]; split; auto; split; [|split]|].
    + split; auto. intros Hi. apply S5 in Hi. destruct Hi as [Hi|Hi]; [specialize (Hlrng l Hl); lia|apply HMa in Hi; tauto].
    + split; auto. intros Hi. apply S5 in Hi. destruct Hi as [Hi|Hi]; [specialize (Hlrng lx Hlx); lia|apply HMa in Hi; tauto].
    + rewrite S4, (phi_perm R HL2). rewrite (list_sum_perm (Permutation_map (fun k => length (R k) - 2) HM2)).
      cbn [app map list_sum fold_right]. rewrite Rl1.
      pose proof (W4 l Hl) as Q1. pose proof (W4 lx Hlx) as Q2.
      apply Permutation_length in Hp. apply Permutation_length in Hpq. rewrite Hp in *. rewrite Hpq in *.
      unfold ids. simpl length in *. rewrite app_length. simpl length.
      rewrite (list_sum_ext (f := fun k => length (R' k) - 2) (g := fun k => length (R k) - 2)) by (intros k Hk; rewrite RM'; auto).
      unfold list_sum. lia.
    + right. exists x, y, n1, n2.
      destruct (settle_all_more Wb S1) as (M1 & M2 & M3 & M4 & M5 & M6 & M7).
      destruct (invalidate_vs s4 v) as (V1 & V2 & _ & _ & _ & _ & V7 & V8 & _).
      pose proof (grows_body (invalidate_grow s4 v) V1) as Vb.
      assert (B8 : forall i, body_kept (getv (s_vs (invalidate s4 v)) i) (getv vs8 i)).
      { intros i. eapply body_kept_trans; [apply Vb|]. eapply body_kept_trans; [apply M6|]. apply F9. }
      assert (Hk1 : filter (fun k => 3 <=? length (R' k)) [l1] = [l1]).
      { simpl. rewrite Rl1. unfold ids. destruct q as [|? q]; [congruence|]. auto. }
      split; auto. split; auto. split; auto.
      split; [eapply body_kept_trans; [apply B8|]; eapply body_kept_trans; [|exact Hb1]; apply same_body_kept; auto|].
      split; [eapply body_kept_trans; [apply B8|]; eapply body_kept_trans; [|exact Hb2]; apply same_body_kept; auto|].
      right. exists l, lx, M, t, q, l1. split; [eapply Permutation_trans; [exact HL2|]; apply perm_skip; auto|].
      split; auto. split; auto. split; auto. split; auto. split; auto. split.
      { pose proof Hq as Hlk. apply ring_linked in Hlk as [_ Hlk]. change (x :: q ++ [x]) with ([x] ++ q ++ [x]) in Hlk.
        apply linked_tail in Hlk. destruct (linked_last_nxt (l := q) (z := x) Hlk Hqne) as [L1 L2]. congruence. }
      split; [rewrite V7, M3, F4, Hk1; auto|]. split; auto. split; auto. split.
      * rewrite M2. cbn [flat_map]. rewrite Rl1. unfold ids. destruct q as [|? q]; [congruence|]. auto.
      * rewrite Hk1 in M1. cbn [map app] in M1. rewrite F3 in M1. rewrite <- S2, M1.
        apply next_events_ext. intros i [<-|[]]. apply next_event_ext; auto. apply V2. lia.
Qed.

End Split.
