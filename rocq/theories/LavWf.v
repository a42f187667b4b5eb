(** * LavWf: the wavefront stays a set of consistent rings (C33, C40) *)

From Coq Require Import Permutation.
From Verif Require Import Py PyFacts Arith Euclid Lav LavSpec LavWalk.
Set Implicit Arguments.
Unset Strict Implicit.

Section Wf.
Context {A : arith}.
Implicit Type vs : list (@lavertex A).
Implicit Type s : @slav A.
Variable E : list (@edge2 A).      (* the edges of all contours *)

(** ** stores *)
Lemma modv_length i f vs : length (modv i f vs) = length vs.
Proof. apply set_at_length. Qed.

Lemma getv_modv i f vs j :
  getv (modv i f vs) j = if Nat.eqb i j && Nat.ltb j (length vs) then f (getv vs j) else getv vs j.
Proof.
  unfold getv, modv. destruct (Nat.eqb_spec i j) as [->|Hij]; simpl.
  - destruct (Nat.ltb_spec j (length vs)).
    + rewrite nth_set_at_eq; auto.
    + rewrite set_at_out by lia. auto.
  - rewrite nth_set_at_neq; auto.
Qed.

Lemma getv_app1 vs vs' i : i < length vs -> getv (vs ++ vs') i = getv vs i.
Proof. intros H. unfold getv. apply app_nth1; auto. Qed.

Lemma getl_set_at ls l l' (x : lav) : l' <> l -> getl (set_at l x ls) l' = getl ls l'.
Proof. intros H. unfold getl. apply nth_set_at_neq; auto. Qed.
Lemma getl_set_at_eq ls l (x : lav) : l < length ls -> getl (set_at l x ls) l = x.
Proof. intros H. unfold getl. apply nth_set_at_eq; auto. Qed.
Lemma getl_app1 ls ls' l : l < length ls -> getl (ls ++ ls') l = getl ls l.
Proof. intros H. unfold getl. apply app_nth1; auto. Qed.

(** everything but the links *)
Definition same_body (v w : @lavertex A) : Prop :=
  v_point v = v_point w /\ v_eprev v = v_eprev w /\ v_enext v = v_enext w /\
  v_lav v = v_lav w /\ v_valid v = v_valid w /\ v_reflex v = v_reflex w /\ v_bis v = v_bis w.

Lemma same_body_refl v : same_body v v.
Proof. repeat split. Qed.
Lemma same_body_trans v w z : same_body v w -> same_body w z -> same_body v z.
Proof. unfold same_body. intuition congruence. Qed.

Lemma same_body_next i k vs j : same_body (getv (modv i (with_next k) vs) j) (getv vs j).
Proof. rewrite getv_modv. destruct (_ && _); repeat split. Qed.
Lemma same_body_prev i k vs j : same_body (getv (modv i (with_prev k) vs) j) (getv vs j).
Proof. rewrite getv_modv. destruct (_ && _); repeat split. Qed.

Lemma nxt_with_next i k vs j : j < length vs ->
  nxt_of (modv i (with_next k) vs) j = if Nat.eqb i j then k else nxt_of vs j.
Proof.
  intros H. unfold nxt_of. rewrite getv_modv. apply Nat.ltb_lt in H. rewrite H, andb_true_r.
  destruct (Nat.eqb i j); auto.
Qed.
Lemma nxt_with_prev i k vs j : nxt_of (modv i (with_prev k) vs) j = nxt_of vs j.
Proof. unfold nxt_of. rewrite getv_modv. destruct (_ && _); auto. Qed.
Lemma prv_with_prev i k vs j : j < length vs ->
  prv_of (modv i (with_prev k) vs) j = if Nat.eqb i j then k else prv_of vs j.
Proof.
  intros H. unfold prv_of. rewrite getv_modv. apply Nat.ltb_lt in H. rewrite H, andb_true_r.
  destruct (Nat.eqb i j); auto.
Qed.
Lemma prv_with_next i k vs j : prv_of (modv i (with_next k) vs) j = prv_of vs j.
Proof. unfold prv_of. rewrite getv_modv. destruct (_ && _); auto. Qed.

(** ** the invariant *)

(** a vertex on the ring of lav l *)
Definition vert_ok vs (l i : nat) : Prop :=
  i < length vs /\ v_lav (getv vs i) = Some l /\ v_valid (getv vs i) = true /\
  v_enext (getv vs i) = v_eprev (getv vs (nxt_of vs i)) /\
  In (v_enext (getv vs i)) E /\ In (v_eprev (getv vs i)) E.

(** the ring of lav l, apart from its recorded length *)
Definition ring_ok vs (ls : list lav) (l : nat) (ids : list nat) : Prop :=
  ring (nxt_of vs) (prv_of vs) ids /\ l < length ls /\ In (l_head (getl ls l)) ids /\
  (forall i, In i ids -> vert_ok vs l i).

Definition lav_ok vs (ls : list lav) (l : nat) (ids : list nat) : Prop :=
  ring_ok vs ls l ids /\ l_len (getl ls l) = Z.of_nat (length ids).

(** the lavs in L are consistent rings R, and these hold all valid vertices *)
Definition wfL s (L : list nat) (R : nat -> list nat) : Prop :=
  NoDup L /\ (forall l, In l L -> lav_ok (s_vs s) (s_ls s) l (R l)) /\
  (forall i, i < length (s_vs s) -> v_valid (getv (s_vs s) i) = true -> exists l, In l L /\ In i (R l)).

(** the invariant of the event loop: in addition every active lav has three or more vertices *)
Definition wf s (R : nat -> list nat) : Prop :=
  wfL s (s_act s) R /\ (forall l, In l (s_act s) -> 3 <= length (R l)).

Lemma ring_ok_perm vs ls l ids a t : ring_ok vs ls l ids ->
  ring (nxt_of vs) (prv_of vs) (a :: t) -> Permutation ids (a :: t) -> ring_ok vs ls l (a :: t).
Proof.
  intros (H1 & H2 & H3 & H5) Hr Hp. split; auto. split; auto. split.
  - eapply Permutation_in; eauto.
  - intros i Hi. apply H5. eapply Permutation_in; [apply Permutation_sym|]; eauto.
Qed.

Lemma ring_ok_frame vs ls l ids vs' ls' :
  ring_ok vs ls l ids -> length vs <= length vs' -> (forall i, In i ids -> getv vs' i = getv vs i) ->
  l < length ls' -> l_head (getl ls' l) = l_head (getl ls l) -> ring_ok vs' ls' l ids.
Proof.
  intros (H1 & H2 & H3 & H5) Hl Hg Hl' Hgl. split; [|split; [|split]]; auto.
  - eapply ring_ext; [| |exact H1]; intros x Hx; unfold nxt_of, prv_of; rewrite Hg; auto.
  - rewrite Hgl; auto.
  - intros i Hi. destruct (H5 i Hi) as (V1 & V2 & V3 & V4 & V5 & V6).
    assert (Hn : nxt_of vs' i = nxt_of vs i) by (unfold nxt_of; rewrite Hg; auto).
    unfold vert_ok. rewrite Hn, Hg by auto. rewrite Hg by (apply (ring_next_in H1); auto).
    repeat split; auto. lia.
Qed.

Lemma lav_ok_frame vs ls l ids vs' ls' :
  lav_ok vs ls l ids -> length vs <= length vs' -> (forall i, In i ids -> getv vs' i = getv vs i) ->
  l < length ls' -> getl ls' l = getl ls l -> lav_ok vs' ls' l ids.
Proof.
  intros [H1 H2] Hl Hg Hl' Hgl. split; [|congruence].
  eapply ring_ok_frame; eauto. congruence.
Qed.

(** ** lists of a LAV *)
Lemma ring_ok_iter s l ids : ring_ok (s_vs s) (s_ls s) l ids ->
  exists t, let h := l_head (getl (s_ls s) l) in
    lav_iter s l = (h :: t, None) /\ lav_list s l = Ok (h :: t) /\
    ring (nxt_of (s_vs s)) (prv_of (s_vs s)) (h :: t) /\ Permutation ids (h :: t).
Proof.
  intros (H1 & H2 & H3 & H5).
  destruct (lav_iter_ring (s := s) (lv := l) H1) as (t & Hi & Hr & Hp); auto.
  { intros i Hi. apply (H5 i Hi). }
  exists t. cbn zeta. split; [exact Hi|]. split; [unfold lav_list; rewrite Hi; auto|]. split; auto.
Qed.

Lemma chain_list_ok s L R : (forall l, In l L -> lav_ok (s_vs s) (s_ls s) l (R l)) ->
  exists ids, chain_list s L = Ok ids /\ Permutation ids (concat (map R L)).
Proof.
  induction L as [|l L IH]; intros H; simpl.
  - exists []. auto.
  - destruct (ring_ok_iter (proj1 (H l (or_introl eq_refl)))) as (t & _ & Hl & _ & Hp). rewrite Hl. simpl.
    destruct IH as (ids & Hids & Hp'). { intros; apply H; right; auto. }
    rewrite Hids. simpl. eexists; split; eauto.
    apply (Permutation_app (Permutation_sym Hp) Hp').
Qed.

(** ** invalidate *)
Lemma invalidate_vs s v :
  length (s_vs (invalidate s v)) = length (s_vs s) /\
  (forall i, i <> v -> getv (s_vs (invalidate s v)) i = getv (s_vs s) i) /\
  (forall i, nxt_of (s_vs (invalidate s v)) i = nxt_of (s_vs s) i) /\
  (forall i, prv_of (s_vs (invalidate s v)) i = prv_of (s_vs s) i) /\
  (v < length (s_vs s) -> v_valid (getv (s_vs (invalidate s v)) v) = false) /\
  v_point (getv (s_vs (invalidate s v)) v) = v_point (getv (s_vs s) v) /\
  s_act (invalidate s v) = s_act s /\ s_orig (invalidate s v) = s_orig s /\
  length (s_ls (invalidate s v)) = length (s_ls s) /\
  (forall l, l_head (getl (s_ls s) l) <> v -> getl (s_ls (invalidate s v)) l = getl (s_ls s) l) /\
  (forall l, l_len (getl (s_ls (invalidate s v)) l) = l_len (getl (s_ls s) l)).
Proof.
  assert (G : forall f, (forall w, v_next (f w) = v_next w) -> (forall w, v_prev (f w) = v_prev w) ->
     (forall w, v_valid (f w) = false) -> (forall w, v_point (f w) = v_point w) ->
     length (modv v f (s_vs s)) = length (s_vs s) /\
     (forall i, i <> v -> getv (modv v f (s_vs s)) i = getv (s_vs s) i) /\
     (forall i, nxt_of (modv v f (s_vs s)) i = nxt_of (s_vs s) i) /\
     (forall i, prv_of (modv v f (s_vs s)) i = prv_of (s_vs s) i) /\
     (v < length (s_vs s) -> v_valid (getv (modv v f (s_vs s)) v) = false) /\
     v_point (getv (modv v f (s_vs s)) v) = v_point (getv (s_vs s) v)).
  { intros f F1 F2 F3 F4. split; [apply modv_length|].
    split; [|split; [|split; [|split]]].
    - intros i Hi. rewrite getv_modv. destruct (Nat.eqb_spec v i); [congruence|auto].
    - intros i. unfold nxt_of. rewrite getv_modv. destruct (_ && _); auto.
    - intros i. unfold prv_of. rewrite getv_modv. destruct (_ && _); auto.
    - intros Hv. rewrite getv_modv, Nat.eqb_refl. apply Nat.ltb_lt in Hv. rewrite Hv. simpl. auto.
    - rewrite getv_modv. destruct (_ && _); auto. }
  unfold invalidate. destruct (v_lav (getv (s_vs s) v)) as [l0|]; simpl.
  - destruct (G (fun x => with_lav None (with_valid false x))) as (G1 & G2 & G3 & G4 & G5 & G6); auto.
    repeat (split; [assumption|]). split; [reflexivity|]. split; [reflexivity|].
    split; [apply set_at_length|].
    destruct (Nat.lt_ge_cases l0 (length (s_ls s))) as [Hlt|Hge].
    2: { rewrite set_at_out by auto. auto. }
    split; intros l; destruct (Nat.eq_dec l l0) as [->|Hne].
    + intros Hh. rewrite getl_set_at_eq by auto. apply Nat.eqb_neq in Hh. rewrite Hh.
      destruct (getl (s_ls s) l0); auto.
    + intros _. apply getl_set_at. auto.
    + rewrite getl_set_at_eq by auto. auto.
    + rewrite getl_set_at by auto. auto.
  - destruct (G (with_valid false)) as (G1 & G2 & G3 & G4 & G5 & G6); auto.
    repeat (split; [assumption|]). auto.
Qed.

Lemma invalidate_ring_ok s v l ids : ring_ok (s_vs s) (s_ls s) l ids -> ~ In v ids ->
  ring_ok (s_vs (invalidate s v)) (s_ls (invalidate s v)) l ids.
Proof.
  intros H Hv. destruct (invalidate_vs s v) as (I1 & I2 & _ & _ & _ & _ & _ & _ & I9 & I10 & _).
  eapply ring_ok_frame; [exact H | lia | | destruct H as (_ & H & _); lia | ].
  - intros i Hi. apply I2. intros ->. auto.
  - f_equal. apply I10. intros He. apply Hv. rewrite <- He. destruct H as (_ & _ & H & _). auto.
Qed.

Lemma invalidate_all_spec s ids :
  let s' := invalidate_all s ids in
  length (s_vs s') = length (s_vs s) /\ length (s_ls s') = length (s_ls s) /\
  s_act s' = s_act s /\ s_orig s' = s_orig s /\
  (forall i, ~ In i ids -> getv (s_vs s') i = getv (s_vs s) i) /\
  (forall i, v_point (getv (s_vs s') i) = v_point (getv (s_vs s) i)) /\
  (forall i, nxt_of (s_vs s') i = nxt_of (s_vs s) i) /\
  (forall i, prv_of (s_vs s') i = prv_of (s_vs s) i) /\
  (forall i, In i ids -> i < length (s_vs s) -> v_valid (getv (s_vs s') i) = false) /\
  (forall l, l_len (getl (s_ls s') l) = l_len (getl (s_ls s) l)) /\
  (forall l ids', (forall i, In i ids' -> ~ In i ids) -> ring_ok (s_vs s) (s_ls s) l ids' ->
                  ring_ok (s_vs s') (s_ls s') l ids').
Proof.
  unfold invalidate_all. revert s. induction ids as [|v ids IH]; intros s; simpl.
  - do 8 (split; [auto|]). split; [intros i []|auto].
  - destruct (invalidate_vs s v) as (I1 & I2 & I3 & I4 & I5 & I6 & I7 & I8 & I9 & I10 & I11).
    destruct (IH (invalidate s v)) as (J1 & J2 & J3 & J4 & J5 & J6 & J7 & J8 & J9 & J10 & J11).
    split; [lia|]. split; [lia|]. split; [congruence|]. split; [congruence|].
    split; [|split; [|split; [|split; [|split; [|split]]]]].
    + intros i Hi. rewrite J5 by tauto. apply I2. intros ->; apply Hi; left; auto.
    + intros i. rewrite J6. destruct (Nat.eq_dec i v) as [->|Hne]; auto. rewrite I2; auto.
    + intros i. rewrite J7. auto.
    + intros i. rewrite J8. auto.
    + intros i Hi Hlen. destruct (in_dec Nat.eq_dec i ids) as [Hin|Hin].
      * apply J9; auto. lia.
      * destruct Hi as [<-|Hi]; [|tauto]. rewrite J5 by auto. apply I5; auto.
    + intros l. rewrite J10. auto.
    + intros l ids' Hd Hok. apply J11.
      * intros i Hi Hin. apply (Hd i Hi). right; auto.
      * apply invalidate_ring_ok; auto. intros Hv. apply (Hd v Hv). left; auto.
Qed.

End Wf.
