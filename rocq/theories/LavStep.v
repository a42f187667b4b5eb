(** * LavStep: handling edge and split events keeps the wavefront a set of rings (C40) *)

From Coq Require Import Permutation.
From Verif Require Import Py PyFacts Arith Euclid Lav LavSpec LavWalk LavWf LavRing LavNext LavGrow.
Set Implicit Arguments.
Unset Strict Implicit.
Local Open Scope nat_scope.

Section Step.
Context {A : arith}.
Implicit Type vs : list (@lavertex A).
Implicit Type s : @slav A.
Notation edge2 := (@edge2 A).
Variable E : list edge2.

(** ** the invariant, with some vertices X set aside *)
Definition wfX s (L : list nat) (R : nat -> list nat) (X : nat -> Prop) : Prop :=
  NoDup L /\ (forall l, In l L -> lav_ok E (s_vs s) (s_ls s) l (R l)) /\
  (forall i, i < length (s_vs s) -> v_valid (getv (s_vs s) i) = true -> X i \/ exists l, In l L /\ In i (R l)).

Lemma wfL_X s L R : wfL E s L R <-> wfX s L R (fun _ => False).
Proof.
  unfold wfL, wfX. split; intros (H1 & H2 & H3); (split; [auto|split; [auto|]]); intros i Hi Hv;
    specialize (H3 i Hi Hv); tauto.
Qed.

Lemma lav_ok_lav vs ls l ids i : lav_ok E vs ls l ids -> In i ids -> v_lav (getv vs i) = Some l.
Proof. intros ((_ & _ & _ & H) & _) Hi. apply (H i Hi). Qed.

Lemma wfX_disjoint s L R X l l' i : wfX s L R X -> In l L -> In l' L -> In i (R l) -> In i (R l') -> l = l'.
Proof.
  intros (_ & H & _) H1 H2 I1 I2. pose proof (lav_ok_lav (H l H1) I1) as P. pose proof (lav_ok_lav (H l' H2) I2). congruence.
Qed.

Lemma wfX_perm s L L' R X : Permutation L L' -> wfX s L R X -> wfX s L' R X.
Proof.
  intros P (H1 & H2 & H3). split; [eapply Permutation_NoDup; eauto|]. split.
  - intros l Hl. apply H2. eapply Permutation_in; [apply Permutation_sym|]; eauto.
  - intros i Hi Hv. destruct (H3 i Hi Hv) as [K|(l & K1 & K2)]; auto. right. exists l. split; auto.
    eapply Permutation_in; eauto.
Qed.

Lemma wfX_kill s l L R X ids : wfX s (l :: L) R X -> Permutation (R l) ids -> wfX (invalidate_all s ids) L R X.
Proof.
  intros W P. pose proof W as (H1 & H2 & H3). inversion H1 as [|? ? N1 N2]; subst.
  destruct (invalidate_all_spec E s ids) as (J1 & J2 & J3 & J4 & J5 & J6 & J7 & J8 & J9 & J10 & J11).
  split; auto. split.
  - intros l' Hl'. destruct (H2 l' (or_intror Hl')) as [K1 K2]. split.
    + apply J11; auto. intros i Hi Hin. apply N1.
      rewrite <- (wfX_disjoint (l := l') (l' := l) (i := i) W); simpl; auto.
      eapply Permutation_in; [apply Permutation_sym|]; eauto.
    + rewrite J10. auto.
  - intros i Hi Hv. rewrite J1 in Hi. destruct (in_dec Nat.eq_dec i ids) as [Hin|Hin].
    { rewrite J9 in Hv by auto. discriminate. }
    rewrite J5 in Hv by auto. destruct (H3 i Hi Hv) as [K|(l' & [<-|K1] & K2)]; eauto.
    exfalso. apply Hin. eapply Permutation_in; eauto.
Qed.

(** ** from_chain *)
Definition vert_pre vs i : Prop :=
  i < length vs /\ v_valid (getv vs i) = true /\
  v_enext (getv vs i) = v_eprev (getv vs (nxt_of vs i)) /\
  In (v_enext (getv vs i)) E /\ In (v_eprev (getv vs i)) E.

Lemma fold_lav_get o ids vs i :
  getv (fold_left (fun vs i => modv i (with_lav o) vs) ids vs) i =
  if existsb (Nat.eqb i) ids && (i <? length vs) then with_lav o (getv vs i) else getv vs i.
Proof.
  revert vs. induction ids as [|j ids IH]; intros vs; simpl; auto. rewrite IH, modv_length, getv_modv.
  rewrite (Nat.eqb_sym j i). destruct (Nat.eqb i j), (existsb (Nat.eqb i) ids), (i <? length vs); simpl; auto.
Qed.

Lemma from_chain_ok s h ids : ring (nxt_of (s_vs s)) (prv_of (s_vs s)) ids -> In h ids ->
  (forall i, In i ids -> vert_pre (s_vs s) i) ->
  let l := length (s_ls s) in
  exists s', from_chain s h = Ok (s', l) /\ lav_ok E (s_vs s') (s_ls s') l ids /\
    l_head (getl (s_ls s') l) = h /\
    s_act s' = s_act s /\ s_orig s' = s_orig s /\ length (s_vs s') = length (s_vs s) /\ length (s_ls s') = S l /\
    (forall i, ~ In i ids -> getv (s_vs s') i = getv (s_vs s) i) /\
    (forall i, body_kept (getv (s_vs s') i) (getv (s_vs s) i) /\
       v_valid (getv (s_vs s') i) = v_valid (getv (s_vs s) i) /\
       nxt_of (s_vs s') i = nxt_of (s_vs s) i /\ prv_of (s_vs s') i = prv_of (s_vs s) i) /\
    (forall l', l' < l -> getl (s_ls s') l' = getl (s_ls s) l').
Proof.
  intros Hr Hh Hv l. unfold from_chain. fold l.
  set (s1 := with_ls (s_ls s ++ [LAV h 0]) s).
  assert (Hhead : l_head (getl (s_ls s1) l) = h).
  { unfold s1, getl, l. simpl. rewrite app_nth2 by lia. rewrite Nat.sub_diag. auto. }
  destruct (lav_iter_ring (s := s1) (lv := l) (ids := ids)) as (t & Hi & Hr' & Hp).
  { exact Hr. } { intros i Hi. apply (Hv i Hi). } { rewrite Hhead. auto. }
  rewrite Hhead in Hi, Hr', Hp. unfold lav_list. rewrite Hi. cbn [bind].
  set (vs' := fold_left _ (h :: t) (s_vs s1)).
  assert (Hget : forall i, getv vs' i = if existsb (Nat.eqb i) (h :: t) && (i <? length (s_vs s)) then
            with_lav (Some l) (getv (s_vs s) i) else getv (s_vs s) i).
  { intros i. unfold vs'. rewrite fold_lav_get. auto. }
  assert (Hlen : length vs' = length (s_vs s)) by (unfold vs'; rewrite fold_lav_length; auto).
  clearbody vs'.
  assert (Hbody : forall i, body_kept (getv vs' i) (getv (s_vs s) i) /\
       v_valid (getv vs' i) = v_valid (getv (s_vs s) i) /\
       nxt_of vs' i = nxt_of (s_vs s) i /\ prv_of vs' i = prv_of (s_vs s) i).
  { intros i. unfold nxt_of, prv_of. rewrite Hget. destruct (_ && _); repeat split. }
  assert (Hl1 : length (s_ls s1) = S l) by (unfold s1; simpl; rewrite app_length; simpl; unfold l; lia).
  eexists. split; [reflexivity|]. cbn [s_vs s_ls s_act s_orig].
  split; [split; [split; [|split; [|split]]|]|].
  - eapply ring_ext; [| |exact Hr]; intros x Hx; symmetry; apply Hbody.
  - rewrite set_at_length. lia.
  - rewrite getl_set_at_eq by lia. auto.
  - intros i Hin. destruct (Hv i Hin) as (V1 & V2 & V3 & V4 & V5).
    destruct (Hbody i) as ((B1 & B2 & B3 & B4 & B5) & B6 & B7 & B8).
    destruct (Hbody (nxt_of (s_vs s) i)) as ((C1 & C2 & C3 & C4 & C5) & _).
    split; [lia|]. split; [|split; [congruence|]].
    + rewrite Hget. assert (Hex : existsb (Nat.eqb i) (h :: t) = true).
      { apply existsb_exists. exists i. split; [eapply Permutation_in; eauto|apply Nat.eqb_refl]. }
      apply Nat.ltb_lt in V1. rewrite Hex, V1. auto.
    + rewrite B7. rewrite C2, B3, B2. auto.
  - rewrite getl_set_at_eq by lia. simpl l_len. f_equal. apply Permutation_length in Hp. rewrite Hp. reflexivity.
  - rewrite getl_set_at_eq by lia. split; auto. split; auto. split; auto. split; auto.
    split; [rewrite set_at_length; auto|]. split; [|split; auto].
    + intros i Hin. rewrite Hget. destruct (existsb (Nat.eqb i) (h :: t)) eqn:Ex; auto.
      exfalso. apply existsb_exists in Ex as (j & Hj & Hij). apply Nat.eqb_eq in Hij. subst j. apply Hin.
      eapply Permutation_in; [apply Permutation_sym|]; eauto.
    + intros l' Hl'. rewrite getl_set_at by lia. unfold s1. simpl. apply getl_app1. auto.
Qed.

(** ** settle_lav *)
Lemma settle_ok s l L R X verts snks : wfX s (l :: L) R X ->
  exists s' snks' verts', settle_lav (Ok (s, verts, snks)) l = Ok (s', verts', snks') /\
  length (s_vs s') = length (s_vs s) /\ s_orig s' = s_orig s /\
  (forall i, ~ In i (R l) -> getv (s_vs s') i = getv (s_vs s) i) /\
  (length (R l) <= 2 /\ s_act s' = s_act s /\ verts' = verts /\ wfX s' L R X \/
   3 <= length (R l) /\ s' = with_act (s_act s ++ [l]) s /\ verts' = verts ++ [l_head (getl (s_ls s) l)] /\
   wfX s' (l :: L) R X).
Proof.
  intros W. pose proof W as (_ & H & _). destruct (H l (or_introl eq_refl)) as [Hr Hlen].
  unfold settle_lav. cbn [bind]. rewrite Hlen. destruct (Z.ltb_spec 2 (Z.of_nat (length (R l)))) as [Hlt|Hge].
  - eexists _, _, _. split; [reflexivity|]. split; auto. split; auto. split; auto. right. split; [lia|].
    split; auto.
  - destruct (ring_ok_iter Hr) as (t & _ & Hll & _ & Hp). rewrite Hll. cbn [bind].
    eexists _, _, _. split; [reflexivity|].
    destruct (invalidate_all_spec E s (l_head (getl (s_ls s) l) :: t)) as (J1 & J2 & J3 & J4 & J5 & _).
    split; auto. split; auto. split.
    + intros i Hi. apply J5. intros Hin. apply Hi. eapply Permutation_in; [apply Permutation_sym|]; eauto.
    + left. split; [lia|]. split; auto. split; auto. eapply wfX_kill; eauto.
Qed.

(** ** the potential: how many more nodes the rings can give *)
Definition phi s (R : nat -> list nat) : nat := list_sum (map (fun l => length (R l) - 2) (s_act s)).

Lemma list_sum_perm l l' : Permutation l l' -> list_sum l = list_sum l'.
Proof. intros H. induction H; simpl; auto; lia. Qed.

Lemma list_sum_ext (f g : nat -> nat) l : (forall x, In x l -> f x = g x) -> list_sum (map f l) = list_sum (map g l).
Proof. intros H. f_equal. apply map_ext_in; auto. Qed.

Lemma py_remove_nodup l L : NoDup L -> In l L ->
  exists L', py_remove Nat.eqb l L = Ok L' /\ Permutation L (l :: L') /\ NoDup L' /\ ~ In l L'.
Proof.
  induction L as [|a L IH]; intros Hd Hin; [destruct Hin|]. inversion Hd as [|? ? N1 N2]; subst. simpl.
  destruct (Nat.eqb_spec a l) as [->|Hne].
  - exists L. auto.
  - destruct Hin as [->|Hin]; [congruence|]. destruct (IH N2 Hin) as (L' & H1 & H2 & H3 & H4). rewrite H1. simpl.
    exists (a :: L'). split; auto. split; [|split].
    + eapply Permutation_trans; [apply perm_skip; exact H2|]. apply perm_swap.
    + constructor; auto. intros Ha. apply N1. eapply Permutation_in; [apply Permutation_sym; exact H2|]. right; auto.
    + intros [->|Ha]; auto.
Qed.

(** ** edge events *)
Lemma ring_pair s l ids va vb : ring_ok E (s_vs s) (s_ls s) l ids -> 3 <= length ids -> In va ids ->
  nxt_of (s_vs s) va = vb ->
  exists rest, rest <> [] /\ ring (nxt_of (s_vs s)) (prv_of (s_vs s)) (va :: vb :: rest) /\
    Permutation ids (va :: vb :: rest) /\
    prv_of (s_vs s) va = last rest 0 /\ nxt_of (s_vs s) vb = hd 0 rest /\
    linked (nxt_of (s_vs s)) (prv_of (s_vs s)) rest /\
    prv_of (s_vs s) (hd 0 rest) = vb /\ nxt_of (s_vs s) (last rest 0) = va.
Proof.
  intros (Hr & _) Hlen Hin Hn. destruct (ring_at Hr Hin) as (t & Ht & Hp).
  pose proof (Permutation_length Hp) as Hl. simpl in Hl.
  destruct t as [|c [|d rest]]; simpl in Hl; [lia|lia|].
  pose proof Ht as Hlk. apply ring_linked in Hlk as [Hnd Hlk].
  assert (c = vb). { destruct Hlk as [[Hc _] _]. congruence. } subst c.
  exists (d :: rest). split; [discriminate|]. split; auto. split; auto.
  destruct Hlk as [_ [[H1 H2] H3]]. change ((d :: rest) ++ [va]) with (d :: rest ++ [va]) in H3.
  destruct (linked_last_nxt (l := d :: rest) (z := va) H3) as [L1 L2]; [discriminate|].
  split; auto. split; auto. split; [eapply linked_init; exact H3|]. simpl. auto.
Qed.

(** the vertices va and vb, neighbours in that order, are replaced by nv; rest is the remainder of their ring *)
Definition unified s s' (R : nat -> list nat) l va vb ip nv rest : Prop :=
  nv = length (s_vs s) /\ length (s_vs s') = S nv /\ Permutation (R l) (va :: vb :: rest) /\
  v_valid (getv (s_vs s') va) = false /\ v_valid (getv (s_vs s') vb) = false /\
  (forall i, i < nv -> nxt_of (s_vs s') i = if Nat.eqb i (prv_of (s_vs s) va) then nv else nxt_of (s_vs s) i) /\
  v_eprev (getv (s_vs s') nv) = v_eprev (getv (s_vs s) va) /\ v_enext (getv (s_vs s') nv) = v_enext (getv (s_vs s) vb) /\
  let m := mk_vertex nv ip (v_eprev (getv (s_vs s) va)) (v_enext (getv (s_vs s) vb))
             (Some (vnormalized (lv (v_bis (getv (s_vs s) vb))), vnormalized (lv (v_bis (getv (s_vs s) va))))) false in
  v_reflex (getv (s_vs s') nv) = v_reflex m /\ v_bis (getv (s_vs s') nv) = v_bis m /\ v_point (getv (s_vs s') nv) = ip.

Lemma unify_ok s R l va vb ip : wf E s R -> In l (s_act s) -> In va (R l) -> nxt_of (s_vs s) va = vb ->
  prv_of (s_vs s) va <> nxt_of (s_vs s) vb ->
  forall s' nv, unify s l va vb ip = (s', nv) ->
  exists ids, nv < length (s_vs s') /\ S (length ids) = length (R l) /\ 3 <= length ids /\ s_act s' = s_act s /\
    v_lav (getv (s_vs s') nv) = Some l /\
    l_head (getl (s_ls s') l) <> va /\ l_head (getl (s_ls s') l) <> vb /\
    wf E s' (fun k => if Nat.eqb k l then ids else R k) /\
    exists rest, ids = nv :: rest /\ ring (nxt_of (s_vs s)) (prv_of (s_vs s)) (va :: vb :: rest) /\
      unified s s' R l va vb ip nv rest.
Proof.
  intros W Hl Hva Hn Hne s' nv Hu. pose proof W as [(W1 & W2 & W3) W4].
  destruct (W2 l Hl) as [Hr Hlen].
  destruct (ring_pair Hr (W4 l Hl) Hva Hn) as (rest & Hrest & Hr2 & Hp & P1 & P2 & P3 & P4 & P5).
  pose proof Hr as (Hr0 & Hll & Hh & Hv).
  assert (Hvb : In vb (R l)) by (eapply Permutation_in; [apply Permutation_sym; exact Hp|right; left; auto]).
  assert (Hin : forall i, In i rest -> In i (R l)) by (intros i Hi; eapply Permutation_in; [apply Permutation_sym; exact Hp|right; right; auto]).
  pose proof (ring_NoDup Hr2) as Hnd. apply NoDup_cons_iff in Hnd as [Na Hnd1]. apply NoDup_cons_iff in Hnd1 as [Nb Hnd2].
  assert (Hab : va <> vb) by (intros He; apply Na; left; auto).
  destruct (Hv va Hva) as (A1 & A2 & A3 & A4 & A5 & A6). destruct (Hv vb Hvb) as (B1 & B2 & B3 & B4 & B5 & B6).
  rewrite Hn in A4.
  set (pa := prv_of (s_vs s) va) in *. set (nb := nxt_of (s_vs s) vb) in *.
  assert (Hpa : In pa rest) by (rewrite P1; apply last_in; auto).
  assert (Hnb : In nb rest) by (rewrite P2; apply hd_in; auto).
  assert (Hpav : pa <> va /\ pa <> vb). { split; intros He; rewrite He in Hpa; auto. apply Na. right; auto. }
  assert (Hnbv : nb <> va /\ nb <> vb). { split; intros He; rewrite He in Hnb; auto. apply Na. right; auto. }
  assert (Hpal : pa < length (s_vs s)) by (apply (Hv pa); auto).
  assert (Hnbl : nb < length (s_vs s)) by (apply (Hv nb); auto).
  unfold unify in Hu. injection Hu as Hs' Hnv.
  set (id := length (s_vs s)) in *.
  set (r := with_lav (Some l) _) in Hs'.
  assert (Hr_body : v_lav r = Some l /\ v_valid r = true /\ v_eprev r = v_eprev (getv (s_vs s) va) /\ v_enext r = v_enext (getv (s_vs s) vb) /\
    let m := mk_vertex id ip (v_eprev (getv (s_vs s) va)) (v_enext (getv (s_vs s) vb))
             (Some (vnormalized (lv (v_bis (getv (s_vs s) vb))), vnormalized (lv (v_bis (getv (s_vs s) va))))) false in
    v_reflex r = v_reflex m /\ v_bis r = v_bis m /\ v_point r = ip).
  { unfold r, mk_vertex. simpl. auto 10. }
  clearbody r.
  set (vs0 := s_vs s ++ [r]) in Hs'.
  assert (L0 : length vs0 = S id) by (unfold vs0; rewrite app_length; simpl; unfold id; lia).
  assert (G0 : forall i, i < id -> getv vs0 i = getv (s_vs s) i) by (intros i Hi; apply getv_app1; auto).
  assert (G0i : getv vs0 id = r). { unfold vs0, getv, id. rewrite app_nth2 by lia. rewrite Nat.sub_diag. auto. }
  clearbody vs0.
  change (v_prev (getv vs0 va)) with (prv_of vs0 va) in Hs'.
  replace (prv_of vs0 va) with pa in Hs' by (unfold prv_of; rewrite G0 by auto; auto).
  set (vs1 := modv pa (with_next id) vs0) in Hs'.
  replace (v_next (getv vs1 vb)) with nb in Hs'.
  2: { change (nb = nxt_of vs1 vb). unfold vs1. rewrite nxt_with_next by lia.
       destruct (Nat.eqb_spec pa vb); [tauto|]. unfold nxt_of. rewrite G0 by auto. auto. }
  set (vs2 := modv nb (with_prev id) vs1) in Hs'.
  assert (L1 : length vs1 = S id) by (unfold vs1; rewrite modv_length; auto).
  assert (L2 : length vs2 = S id) by (unfold vs2; rewrite modv_length; auto).
  replace (v_prev (getv vs2 va)) with pa in Hs'.
  2: { change (pa = prv_of vs2 va). unfold vs2. rewrite prv_with_prev by lia.
       destruct (Nat.eqb_spec nb va); [tauto|]. unfold vs1. rewrite prv_with_next. unfold prv_of. rewrite G0 by auto. auto. }
  set (vs3 := modv id (with_prev pa) vs2) in Hs'.
  assert (L3 : length vs3 = S id) by (unfold vs3; rewrite modv_length; auto).
  replace (v_next (getv vs3 vb)) with nb in Hs'.
  2: { change (nb = nxt_of vs3 vb). unfold vs3. rewrite nxt_with_prev. unfold vs2. rewrite nxt_with_prev. unfold vs1.
       rewrite nxt_with_next by lia. destruct (Nat.eqb_spec pa vb); [tauto|]. unfold nxt_of. rewrite G0 by auto. auto. }
  set (vs4 := modv id (with_next nb) vs3) in Hs'.
  assert (L4 : length vs4 = S id) by (unfold vs4; rewrite modv_length; auto).
  assert (N4 : forall i, i < S id -> nxt_of vs4 i = if Nat.eqb i id then nb else if Nat.eqb i pa then id else nxt_of (s_vs s) i).
  { intros i Hi. unfold vs4. rewrite nxt_with_next by lia. rewrite (Nat.eqb_sym i id).
    destruct (Nat.eqb_spec id i) as [|Hi']; auto. unfold vs3. rewrite nxt_with_prev. unfold vs2. rewrite nxt_with_prev. unfold vs1.
    rewrite nxt_with_next by lia. rewrite (Nat.eqb_sym i pa). destruct (Nat.eqb_spec pa i); auto.
    unfold nxt_of. rewrite G0 by lia. auto. }
  assert (Q4 : forall i, i < S id -> prv_of vs4 i = if Nat.eqb i id then pa else if Nat.eqb i nb then id else prv_of (s_vs s) i).
  { intros i Hi. unfold vs4. rewrite prv_with_next. unfold vs3. rewrite prv_with_prev by lia. rewrite (Nat.eqb_sym i id).
    destruct (Nat.eqb_spec id i) as [|Hi']; auto. unfold vs2. rewrite prv_with_prev by lia. unfold vs1.
    rewrite prv_with_next. rewrite (Nat.eqb_sym i nb). destruct (Nat.eqb_spec nb i); auto.
    unfold prv_of. rewrite G0 by lia. auto. }
  assert (B4' : forall i, same_body (getv vs4 i) (getv vs0 i)).
  { intros i. unfold vs4, vs3, vs2, vs1.
    repeat (first [eapply same_body_trans; [first [apply same_body_next|apply same_body_prev]|] | apply same_body_refl]). }
  clearbody vs4. clear vs3 L3 vs2 L2 vs1 L1.
  (* the two invalidations *)
  set (lv0 := getl (s_ls s) l) in *.
  set (h' := if Nat.eqb (l_head lv0) va || Nat.eqb (l_head lv0) vb then id else l_head lv0) in Hs'.
  assert (Hh' : h' <> va /\ h' <> vb /\ (h' = id \/ In h' rest)).
  { unfold h'. destruct (Nat.eqb_spec (l_head lv0) va) as [E1|E1]; simpl; [unfold id; lia|].
    destruct (Nat.eqb_spec (l_head lv0) vb) as [E2|E2]; simpl; [unfold id; lia|]. split; auto. split; auto. right.
    apply (Permutation_in _ Hp) in Hh. destruct Hh as [Hh|[Hh|Hh]]; auto; congruence. }
  clearbody h'.
  set (s1 := SLAV vs4 (set_at l (LAV h' (l_len lv0)) (s_ls s)) (s_act s) (s_orig s)) in Hs'.
  destruct (invalidate_vs s1 va) as (I1 & I2 & I3 & I4 & I5 & I6 & I7 & I8 & I9 & I10 & I11).
  destruct (invalidate_vs (invalidate s1 va) vb) as (J1 & J2 & J3 & J4 & J5 & J6 & J7 & J8 & J9 & J10 & J11).
  set (s2 := invalidate (invalidate s1 va) vb) in *.
  assert (Hls1 : length (s_ls s1) = length (s_ls s)) by (unfold s1; simpl; apply set_at_length).
  assert (Gl1 : getl (s_ls s1) l = LAV h' (l_len lv0)) by (unfold s1; simpl; apply getl_set_at_eq; auto).
  assert (Gl1' : forall k, k <> l -> getl (s_ls s1) k = getl (s_ls s) k) by (intros k Hk; unfold s1; simpl; apply getl_set_at; auto).
  assert (Gl2 : getl (s_ls s2) l = LAV h' (l_len lv0)).
  { rewrite J10; rewrite I10; rewrite ?Gl1; simpl; auto; try apply Hh'. }
  assert (Hother : forall k i, In k (s_act s) -> k <> l -> In i (R k) -> i <> va /\ i <> vb /\ ~ In i rest /\ i < id).
  { intros k i Hk Hkl Hi. assert (~ In i (R l)).
    { intros Hi'. apply Hkl. eapply (wfX_disjoint (proj1 (wfL_X s (s_act s) R) (proj1 W))); eauto. }
    split; [intros ->; auto|]. split; [intros ->; auto|]. split; [intros Hi'; auto|].
    apply (proj2 (proj2 (proj2 (proj1 (W2 k Hk)))) i Hi). }
  assert (Gl2' : forall k, In k (s_act s) -> k <> l -> getl (s_ls s2) k = getl (s_ls s) k).
  { intros k Hk Hkl. destruct (Hother k (l_head (getl (s_ls s) k)) Hk Hkl) as (O1 & O2 & _).
    { apply (W2 k Hk). }
    assert (K1 : getl (s_ls (invalidate s1 va)) k = getl (s_ls s1) k) by (apply I10; rewrite Gl1' by auto; auto).
    rewrite J10; rewrite K1, Gl1' by auto; auto. }
  assert (G2 : forall i, i <> va -> i <> vb -> getv (s_vs s2) i = getv vs4 i).
  { intros i H1 H2. rewrite J2, I2 by auto. auto. }
  assert (L2 : length (s_vs s2) = S id) by (rewrite J1, I1; auto).
  assert (N2 : forall i, nxt_of (s_vs s2) i = nxt_of vs4 i) by (intros i; rewrite J3, I3; auto).
  assert (Q2 : forall i, prv_of (s_vs s2) i = prv_of vs4 i) by (intros i; rewrite J4, I4; auto).
  assert (V2 : v_valid (getv (s_vs s2) va) = false /\ v_valid (getv (s_vs s2) vb) = false).
  { split; [|apply J5; rewrite I1; simpl; lia]. rewrite J2 by auto. apply I5. simpl. lia. }
  assert (Hact : s_act s2 = s_act s) by (rewrite J7, I7; auto).
  assert (Hls2 : length (s_ls s2) = length (s_ls s)) by (rewrite J9, I9; auto).
  clearbody s2. clear I1 I2 I3 I4 I5 I6 I7 I8 I9 I10 I11 J1 J2 J3 J4 J5 J6 J7 J8 J9 J10 J11.
  rewrite Gl2 in Hs'. simpl in Hs'. subst nv s'. cbn [with_ls s_vs s_ls s_act].
  assert (Hrange : forall i, In i rest -> i < id) by (intros i Hi; apply (Hv i); auto).
  assert (Hidrest : ~ In id rest) by (intros Hi; specialize (Hrange _ Hi); lia).
  assert (Hlenrest : S (length (id :: rest)) = length (R l)).
  { apply Permutation_length in Hp. rewrite Hp. auto. }
  assert (Hrest2 : 2 <= length rest).
  { destruct rest as [|c [|c' rest]]; [congruence| |simpl; lia]. exfalso. apply Hne. rewrite P1, P2. auto. }
  exists (id :: rest). split; [lia|]. split; auto. split; [simpl; lia|]. split; auto.
  split. { rewrite G2 by (unfold id; lia). destruct (B4' id) as (_ & _ & _ & -> & _). rewrite G0i. tauto. }
  rewrite getl_set_at_eq by lia. simpl l_head. split; [tauto|]. split; [tauto|].
  split; [|exists rest; split; auto; split; auto; unfold unified; cbn [with_ls s_vs]; rewrite (G2 id) by (unfold id; lia);
    destruct (B4' id) as (-> & -> & -> & _ & _ & -> & ->); rewrite G0i; destruct Hr_body as (_ & _ & -> & -> & -> & -> & ->);
    destruct V2; repeat (split; auto); intros i Hi; rewrite N2, N4 by lia; destruct (Nat.eqb_spec i id); [lia|auto]].
  split; [split; [|split]|].
  - cbn [s_act with_ls]. rewrite Hact. auto.
  - cbn [s_act with_ls s_vs s_ls]. rewrite Hact. intros k Hk. destruct (Nat.eqb_spec k l) as [->|Hkl].
    + split; [split; [|split; [|split]]|].
      * apply ring_linked. split; [constructor; auto|].
        apply (linked_close (l := rest)); auto; rewrite ?N2, ?Q2, ?N4, ?Q4 by (try lia; rewrite <- ?P1, <- ?P2; lia).
        -- eapply linked_ext_ends; [exact Hnd2| | |exact P3].
           ++ intros x Hx Hx'. rewrite N2, N4 by (specialize (Hrange x Hx); lia).
              destruct (Nat.eqb_spec x id) as [->|]; [tauto|]. destruct (Nat.eqb_spec x pa); [congruence|auto].
           ++ intros x Hx Hx'. rewrite Q2, Q4 by (specialize (Hrange x Hx); lia).
              destruct (Nat.eqb_spec x id) as [->|]; [tauto|]. destruct (Nat.eqb_spec x nb); [congruence|auto].
        -- rewrite Nat.eqb_refl. auto.
        -- rewrite <- P2. destruct (Nat.eqb_spec nb id); [lia|]. rewrite Nat.eqb_refl. auto.
        -- rewrite <- P1. destruct (Nat.eqb_spec pa id); [lia|]. rewrite Nat.eqb_refl. auto.
        -- rewrite Nat.eqb_refl. auto.
      * rewrite set_at_length. lia.
      * rewrite getl_set_at_eq by lia. simpl. destruct (proj2 (proj2 Hh')) as [->|]; auto.
      * intros i Hi. unfold vert_ok. rewrite N2.
        assert (Hi' : i <> va /\ i <> vb /\ i < S id).
        { destruct Hi as [<-|Hi]; [unfold id; lia|]. specialize (Hrange i Hi).
          split; [intros ->; apply Na; right; auto|]. split; [intros ->; auto|lia]. }
        rewrite G2 by tauto. destruct (B4' i) as (_ & -> & -> & -> & -> & _).
        assert (Hnn : In (nxt_of vs4 i) (id :: rest) /\ v_eprev (getv vs0 (nxt_of vs4 i)) = v_enext (getv vs0 i)).
        { rewrite N4 by lia. destruct Hi as [<-|Hi].
          - rewrite Nat.eqb_refl. split; [right; auto|]. rewrite G0 by lia. rewrite G0i.
            destruct Hr_body as (_ & _ & _ & -> & _). rewrite B4. auto.
          - pose proof (Hrange i Hi). destruct (Nat.eqb_spec i id); [lia|]. rewrite (G0 i) by lia.
            destruct (Hv i (Hin i Hi)) as (C1 & C2 & C3 & C4 & C5 & C6).
            destruct (Nat.eqb_spec i pa) as [->|Hip].
            + split; [left; auto|]. rewrite G0i. destruct Hr_body as (_ & _ & -> & _). rewrite C4.
              unfold pa. rewrite (ring_prev_next Hr0) by auto. auto.
            + assert (Hnr : In (nxt_of (s_vs s) i) rest).
              { assert (Hx : In (nxt_of (s_vs s) i) (va :: vb :: rest)) by (apply (ring_next_in Hr2); right; right; auto).
                destruct Hx as [Hx|[Hx|Hx]]; auto; exfalso.
                - apply Hip. unfold pa. rewrite Hx. symmetry. apply (ring_next_prev Hr2). right; right; auto.
                - assert (i = va). { rewrite <- (ring_next_prev Hr2 (x := i)) by (right; right; auto). rewrite <- Hx.
                    rewrite <- Hn. apply (ring_next_prev Hr2). left; auto. }
                  subst i. apply Na. right; auto. }
              split; [right; auto|]. rewrite G0 by (apply Hrange; auto). auto. }
        destruct Hnn as [Hn1 Hn2].
        rewrite G2 by (destruct Hn1 as [Hn1|Hn1]; intros Hx; rewrite Hx in Hn1; [unfold id in Hn1; lia|auto; apply Na; right; auto]).
        destruct (B4' (nxt_of vs4 i)) as (_ & -> & _). rewrite Hn2.
        destruct Hi as [<-|Hi].
        -- rewrite G0i. destruct Hr_body as (-> & -> & -> & -> & _). split; [lia|]. auto.
        -- rewrite G0 by (apply Hrange; auto). destruct (Hv i (Hin i Hi)) as (C1 & C2 & C3 & C4 & C5 & C6).
           split; [lia|]. auto.
      * rewrite getl_set_at_eq by lia. simpl l_len. rewrite Hlen, <- Hlenrest. simpl length. lia.
    + eapply lav_ok_frame; [exact (W2 k Hk)|lia| | |].
      * intros i Hi. destruct (Hother k i Hk Hkl Hi) as (O1 & O2 & O3 & O4).
        assert (i <> pa) by (intros ->; auto). assert (i <> nb) by (intros ->; auto).
        rewrite G2 by auto. rewrite <- G0 by auto.
        assert (HN : nxt_of vs4 i = nxt_of vs0 i).
        { rewrite N4 by lia. destruct (Nat.eqb_spec i id); [lia|]. destruct (Nat.eqb_spec i pa); [tauto|].
          unfold nxt_of. rewrite G0; auto. }
        assert (HQ : prv_of vs4 i = prv_of vs0 i).
        { rewrite Q4 by lia. destruct (Nat.eqb_spec i id); [lia|]. destruct (Nat.eqb_spec i nb); [tauto|].
          unfold prv_of. rewrite G0; auto. }
        destruct (B4' i) as (S1 & S2 & S3 & S4 & S5 & S6 & S7). unfold nxt_of, prv_of in HN, HQ.
        destruct (getv vs4 i), (getv vs0 i). simpl in *. congruence.
      * rewrite set_at_length. destruct (proj1 (W2 k Hk)) as (_ & K & _). lia.
      * rewrite getl_set_at by auto. apply Gl2'; auto.
  - cbn [s_act with_ls s_vs]. rewrite Hact, L2. intros i Hi Hvi.
    assert (Hi1 : i <> va) by (intros ->; destruct V2; congruence).
    assert (Hi2 : i <> vb) by (intros ->; destruct V2; congruence).
    destruct (Nat.eq_dec i id) as [->|Hid].
    { exists l. rewrite Nat.eqb_refl. split; auto. left; auto. }
    rewrite G2 in Hvi by auto. destruct (B4' i) as (_ & _ & _ & _ & S5 & _). rewrite S5, G0 in Hvi by lia.
    destruct (W3 i) as (k & Hk & Hik); auto. { fold id. lia. }
    exists k. split; auto. destruct (Nat.eqb_spec k l) as [->|]; auto.
    apply (Permutation_in _ Hp) in Hik. destruct Hik as [Hik|[Hik|Hik]]; [congruence|congruence|right; auto].
  - cbn [s_act with_ls]. rewrite Hact. intros k Hk. destruct (Nat.eqb_spec k l); auto. simpl. lia.
Qed.

End Step.
