(** * HeapProofs: heappush/heappop implement a priority queue *)

From Coq Require Import Permutation.
From Verif Require Import Py PyFacts Heapq HeapSpec.
Set Implicit Arguments.

Lemma list_eq_nil T (l : list T) : l = [] \/ l <> [].
Proof. destruct l; [left | right]; congruence. Qed.

Section Heap.
Variable T : Type.
Variable lt : T -> T -> bool.

Definition parent (i : nat) : nat := (i - 1) / 2.

Lemma parent_lt i : 0 < i -> parent i < i.
Proof. intros H. unfold parent. apply Nat.div_lt_upper_bound; lia. Qed.

Lemma parent_cases i : 0 < i -> i = 2 * parent i + 1 \/ i = 2 * parent i + 2.
Proof.
  intros H. unfold parent. pose proof (Nat.div_mod (i - 1) 2). 
  pose proof (Nat.mod_upper_bound (i - 1) 2). lia.
Qed.

Lemma parent_odd i : parent (2 * i + 1) = i.
Proof. unfold parent. replace (2 * i + 1 - 1) with (i * 2) by lia. apply Nat.div_mul; lia. Qed.
Lemma parent_even i : parent (2 * i + 2) = i.
Proof.
  unfold parent. replace (2 * i + 2 - 1) with (1 + i * 2) by lia.
  rewrite Nat.div_add by lia. reflexivity.
Qed.

Lemma swap_length i j (h : list T) : length (swap i j h) = length h.
Proof. unfold swap. destruct (nth_error h i), (nth_error h j); rewrite ?set_at_length; auto. Qed.

Lemma swap_nth i j (h : list T) k : i < length h -> j < length h -> i <> j ->
  nth_error (swap i j h) k =
  if Nat.eqb k i then nth_error h j else if Nat.eqb k j then nth_error h i else nth_error h k.
Proof.
  intros Hi Hj Hij. unfold swap.
  destruct (nth_error h i) as [a|] eqn:Ea; [|apply nth_error_None in Ea; lia].
  destruct (nth_error h j) as [b|] eqn:Eb; [|apply nth_error_None in Eb; lia].
  destruct (Nat.eqb_spec k i) as [->|Hki].
  - rewrite nth_error_set_at_eq; auto. rewrite set_at_length; auto.
  - rewrite nth_error_set_at_neq by auto. destruct (Nat.eqb_spec k j) as [->|Hkj].
    + rewrite nth_error_set_at_eq; auto.
    + rewrite nth_error_set_at_neq; auto.
Qed.

Lemma swap_perm i j (h : list T) : Permutation (swap i j h) h.
Proof.
  unfold swap.
  destruct (nth_error h i) as [a|] eqn:Ea; auto.
  destruct (nth_error h j) as [b|] eqn:Eb; auto.
  destruct (Nat.eq_dec i j) as [->|Hij].
  { rewrite Ea in Eb; injection Eb as ->.
    assert (set_at j b (set_at j b h) = h) as ->; auto.
    apply nth_error_ext. intros k. destruct (Nat.eq_dec j k) as [<-|].
    - rewrite nth_error_set_at_eq; auto. rewrite set_at_length. apply nth_error_Some; congruence.
    - rewrite !nth_error_set_at_neq; auto. }
  assert (H1 : Permutation (a :: h) (b :: set_at j a h)).
  { apply Permutation_sym, Permutation_set_at; auto. }
  assert (H2 : Permutation (b :: set_at j a h) (a :: set_at i b (set_at j a h))).
  { apply Permutation_sym, Permutation_set_at. rewrite nth_error_set_at_neq; auto. }
  apply Permutation_sym. eapply Permutation_cons_inv. eapply Permutation_trans; eauto.
Qed.

Lemma siftdown_perm fuel h pos : Permutation (siftdown lt fuel h pos) h.
Proof.
  revert h pos. induction fuel as [|f IH]; intros h pos; cbn [siftdown]; auto.
  destruct pos as [|p]; auto. destruct (lt_at lt h (S p) (p / 2)); auto.
  eapply Permutation_trans; [apply IH | apply swap_perm].
Qed.

Lemma siftup_perm fuel h pos : Permutation (siftup lt fuel h pos) h.
Proof.
  revert h pos. induction fuel as [|f IH]; intros h pos; cbn [siftup]; auto.
  destruct (Nat.ltb _ _).
  - eapply Permutation_trans; [apply IH | apply swap_perm].
  - apply siftdown_perm.
Qed.

Lemma heappush_perm h x : Permutation (heappush lt h x) (x :: h).
Proof. unfold heappush. eapply Permutation_trans; [apply siftdown_perm | apply Permutation_sym, Permutation_cons_append]. Qed.

Lemma heappop_cons y t x h' : t <> [] -> heappop lt (y :: t) = Some (x, h') ->
  x = y /\ h' = siftup lt (S (length (removelast t))) (last t y :: removelast t) 0.
Proof.
  intros Ht. destruct t as [|z t]; [congruence|]. unfold heappop.
  remember (siftup lt (length (last (z :: t) y :: removelast (z :: t)))
                   (last (z :: t) y :: removelast (z :: t)) 0) as r eqn:Er.
  intros H. split; [congruence|]. assert (h' = r) as -> by congruence. exact Er.
Qed.

Lemma heappop_perm h x h' : heappop lt h = Some (x, h') -> Permutation h (x :: h').
Proof.
  destruct h as [|y t]; [discriminate|]. destruct (list_eq_nil t) as [->|Ht].
  - simpl. intros [= <- <-]. auto.
  - intros H. apply heappop_cons in H as [-> ->]; auto. constructor.
    apply Permutation_sym. eapply Permutation_trans; [apply siftup_perm|].
    rewrite (app_removelast_last y Ht) at 3.
    apply Permutation_cons_append.
Qed.

Lemma heappop_none h : heappop lt h = None <-> h = [].
Proof. destruct h as [|y [|z t]]; simpl; split; congruence. Qed.

Lemma heappop_hd h x h' : heappop lt h = Some (x, h') -> nth_error h 0 = Some x.
Proof. destruct h as [|y [|z t]]; simpl; congruence. Qed.

(** ** order *)

Hypothesis lt_asym : forall a b, lt a b = true -> lt b a = false.
(** transitivity may be limited to some of the items (floats that are not NaN, say) *)
Variable ok : T -> Prop.
Hypothesis le_trans : forall a b c, ok a -> ok b -> ok c -> lt b a = false -> lt c b = false -> lt c a = false.

Lemma perm_ok (h h' : list T) : Permutation h h' -> Forall ok h -> Forall ok h'.
Proof.
  intros Hp H. rewrite Forall_forall in *. intros x Hx. apply H.
  eapply Permutation_in; [apply Permutation_sym, Hp | exact Hx].
Qed.

(** h[i] <= h[j] *)
Definition le_at (h : list T) (i j : nat) : Prop :=
  forall a b, nth_error h i = Some a -> nth_error h j = Some b -> lt b a = false.

Definition heap (h : list T) : Prop := forall i, 0 < i < length h -> le_at h (parent i) i.

Lemma le_at_trans h i j k : Forall ok h -> j < length h -> le_at h i j -> le_at h j k -> le_at h i k.
Proof.
  intros Hok Hj H1 H2 a c Ha Hc. rewrite Forall_forall in Hok. destruct (nth_error h j) as [b|] eqn:E.
  - apply (@le_trans a b c); eauto using nth_error_In.
  - apply nth_error_None in E. lia.
Qed.

Lemma lt_at_true h i j : lt_at lt h i j = true -> i < length h /\ j < length h /\ le_at h i j.
Proof.
  unfold lt_at. destruct (nth_error h i) as [a|] eqn:Ea; [|discriminate].
  destruct (nth_error h j) as [b|] eqn:Eb; [|discriminate].
  intros H. split; [apply nth_error_Some; congruence|]. split; [apply nth_error_Some; congruence|].
  intros a' b' Ha' Hb'. rewrite Ea in Ha'; rewrite Eb in Hb'. injection Ha' as <-; injection Hb' as <-.
  apply lt_asym; auto.
Qed.

Lemma lt_at_false h i j : lt_at lt h i j = false -> le_at h j i.
Proof.
  unfold lt_at. intros H a b Ha Hb. rewrite Ha, Hb in H. auto.
Qed.

(** heap except that the item at pos may be too small *)
Definition up_inv (h : list T) (pos : nat) : Prop :=
  (forall i, 0 < i < length h -> i <> pos -> le_at h (parent i) i) /\
  (forall c, 0 < c < length h -> parent c = pos -> 0 < pos -> le_at h (parent pos) c).

Lemma siftdown_heap fuel h pos : Forall ok h -> pos < length h -> pos <= fuel -> up_inv h pos -> heap (siftdown lt fuel h pos).
Proof.
  revert h pos. induction fuel as [|f IH]; intros h pos Hok Hpos Hf [H1 H2]; cbn [siftdown].
  - intros i Hi. apply H1; lia.
  - destruct pos as [|p]; [intros i Hi; apply H1; lia|].
    assert (Ep : p / 2 = parent (S p)) by (unfold parent; f_equal; lia).
    rewrite Ep. set (par := parent (S p)) in *.
    assert (Hpar : par < S p) by (apply parent_lt; lia).
    destruct (lt_at lt h (S p) par) eqn:E.
    2: { apply lt_at_false in E. intros i Hi. destruct (Nat.eq_dec i (S p)) as [->|]; auto. }
    apply lt_at_true in E as (_ & _ & E).
    assert (Hg : forall k, nth_error (swap (S p) par h) k = if Nat.eqb k (S p) then nth_error h par
              else if Nat.eqb k par then nth_error h (S p) else nth_error h k)
      by (intros; apply swap_nth; lia).
    apply IH; rewrite ?swap_length; try lia; [apply (perm_ok (Permutation_sym (swap_perm _ _ _)) Hok)|].
    split; rewrite swap_length; intros i Hi; intros.
    + intros a b Ha Hb. rewrite Hg in Ha, Hb.
      destruct (Nat.eqb_spec i (S p)) as [->|Hi1].
      { fold par in Ha. replace (Nat.eqb par (S p)) with false in Ha by (symmetry; apply Nat.eqb_neq; lia).
        rewrite Nat.eqb_refl in Ha. eapply E; eauto. }
      replace (Nat.eqb i par) with false in Hb by (symmetry; apply Nat.eqb_neq; auto).
      destruct (Nat.eqb_spec (parent i) (S p)) as [Hc|Hc].
      { eapply (H2 i); eauto; lia. }
      destruct (Nat.eqb_spec (parent i) par) as [Hs|Hs].
      { rewrite <- Hs in E, Hpar. eapply (@le_at_trans h (S p) (parent i) i); try eassumption; try lia.
        apply H1; auto. }
      eapply H1; eauto.
    + intros a b Ha Hb. rewrite Hg in Ha, Hb.
      assert (Hpp : parent par < par) by (apply parent_lt; auto).
      replace (Nat.eqb (parent par) (S p)) with false in Ha by (symmetry; apply Nat.eqb_neq; lia).
      replace (Nat.eqb (parent par) par) with false in Ha by (symmetry; apply Nat.eqb_neq; lia).
      assert (Hle : le_at h (parent par) par) by (apply H1; lia).
      destruct (Nat.eqb_spec i (S p)) as [->|Hi1]; [eapply Hle; eauto|].
      assert (i <> par) by (intros ->; lia).
      replace (Nat.eqb i par) with false in Hb by (symmetry; apply Nat.eqb_neq; auto).
      eapply (@le_at_trans h (parent par) par i); try eassumption; [lia|].
      rewrite <- H. apply H1; auto.
Qed.

(** heap except for the comparisons with the item at pos *)
Definition down_inv (h : list T) (pos : nat) : Prop :=
  (forall i, 0 < i < length h -> i <> pos -> parent i <> pos -> le_at h (parent i) i) /\
  (forall c, 0 < c < length h -> parent c = pos -> 0 < pos -> le_at h (parent pos) c).

Lemma siftup_heap fuel h pos : Forall ok h -> pos < length h -> length h <= pos + fuel ->
  down_inv h pos -> heap (siftup lt fuel h pos).
Proof.
  revert h pos. induction fuel as [|f IH]; intros h pos Hok Hpos Hf [H1 H2]; cbn [siftup]; [lia|].
  destruct (Nat.ltb_spec (2 * pos + 1) (length h)) as [Hl|Hl].
  2: { apply siftdown_heap; auto. split; auto. intros i Hi Hip. apply H1; auto.
       intros Hp. destruct (parent_cases (i := i)); lia. }
  set (l := 2 * pos + 1) in *.
  set (c := if Nat.ltb (l + 1) (length h) && negb (lt_at lt h l (l + 1)) then l + 1 else l).
  assert (Hc : (c = l \/ c = l + 1) /\ c < length h /\ parent c = pos).
  { unfold c. destruct (Nat.ltb_spec (l + 1) (length h)); simpl.
    - destruct (negb _).
      + split; auto. split; auto. unfold l. replace (2 * pos + 1 + 1) with (2 * pos + 2) by lia. apply parent_even.
      + split; auto. split; auto. apply parent_odd.
    - split; auto. split; auto. apply parent_odd. }
  assert (Hmin : forall i, 0 < i < length h -> parent i = pos -> i <> c -> le_at h c i).
  { intros i Hi Hp Hne.
    assert (Hic : i = l \/ i = l + 1) by (destruct (parent_cases (i := i)); unfold l; lia).
    unfold c in *. destruct (Nat.ltb_spec (l + 1) (length h)); simpl in *.
    - destruct (lt_at lt h l (l + 1)) eqn:E; simpl in *.
      + assert (i = l + 1) as -> by lia. apply lt_at_true in E. tauto.
      + assert (i = l) as -> by lia. apply lt_at_false in E. auto.
    - lia. }
  clearbody c. destruct Hc as (Hc1 & Hc2 & Hc3).
  assert (Hpc : pos < c) by lia.
  assert (Hg : forall k, nth_error (swap pos c h) k = if Nat.eqb k pos then nth_error h c
              else if Nat.eqb k c then nth_error h pos else nth_error h k)
      by (intros; apply swap_nth; lia).
  apply IH; rewrite ?swap_length; try lia; [apply (perm_ok (Permutation_sym (swap_perm _ _ _)) Hok)|].
  split; rewrite swap_length; intros i Hi; intros; intros a b Ha Hb; rewrite Hg in Ha, Hb.
  - replace (Nat.eqb i c) with false in Hb by (symmetry; apply Nat.eqb_neq; auto).
    replace (Nat.eqb (parent i) c) with false in Ha by (symmetry; apply Nat.eqb_neq; auto).
    destruct (Nat.eqb_spec i pos) as [->|Hip].
    + replace (Nat.eqb (parent pos) pos) with false in Ha
        by (symmetry; apply Nat.eqb_neq; pose proof (parent_lt (i := pos)); lia).
      eapply (H2 c); eauto; lia.
    + destruct (Nat.eqb_spec (parent i) pos) as [Hpp|Hpp].
      * eapply Hmin; eauto.
      * eapply H1; eauto.
  - rewrite Hc3, Nat.eqb_refl in Ha.
    assert (c < i) by (rewrite <- H; apply parent_lt; lia).
    replace (Nat.eqb i pos) with false in Hb by (symmetry; apply Nat.eqb_neq; lia).
    replace (Nat.eqb i c) with false in Hb by (symmetry; apply Nat.eqb_neq; lia).
    rewrite <- H in Ha. eapply H1; eauto; lia.
Qed.

Lemma heap_nil : heap [].
Proof. intros i Hi; simpl in Hi; lia. Qed.

Lemma heappush_heap h x : Forall ok (x :: h) -> heap h -> heap (heappush lt h x).
Proof.
  intros Hok H. unfold heappush.
  apply siftdown_heap; rewrite ?app_length; simpl; try lia; [apply (perm_ok (Permutation_cons_append h x) Hok)|].
  split; intros i Hi; rewrite app_length in Hi; simpl in Hi; intros.
  - assert (parent i < i) by (apply parent_lt; lia).
    intros a b Ha Hb. rewrite nth_error_app1 in Ha, Hb by lia. eapply H; eauto; lia.
  - pose proof (parent_lt (i := i)); lia.
Qed.

Lemma nth_error_hd (h : list T) x h' k : heappop lt h = Some (x, h') -> k < length h ->
  Forall ok h -> heap h -> le_at h 0 k.
Proof.
  intros Hp. induction k as [k IH] using lt_wf_ind. intros Hk Hok Hh.
  destruct (Nat.eq_dec k 0) as [->|Hk0].
  - intros a b Ha Hb. assert (a = b) as -> by congruence.
    destruct (lt b b) eqn:E; auto. pose proof (lt_asym E). congruence.
  - pose proof (parent_lt (i := k)). apply le_at_trans with (parent k); auto; try lia.
    + apply IH; auto; lia.
    + apply Hh; lia.
Qed.

Lemma heappop_heap h x h' : Forall ok h -> heap h -> heappop lt h = Some (x, h') -> heap h'.
Proof.
  intros Hok H. destruct h as [|y t]; [discriminate|]. destruct (list_eq_nil t) as [->|Ht].
  - simpl. intros [= <- <-]. apply heap_nil.
  - intros Hp. apply heappop_cons in Hp as [-> ->]; auto.
    set (h' := last t y :: removelast t).
    assert (Hlen : length h' = length t).
    { unfold h'. cbn [length]. rewrite removelast_length. destruct t; [congruence|simpl; lia]. }
    assert (Hn : forall k, 0 < k < length h' -> nth_error h' k = nth_error (y :: t) k).
    { intros k Hk. destruct k as [|k]; [lia|]. unfold h'. cbn [nth_error]. rewrite Hlen in Hk.
      apply removelast_nth. lia. }
    change (S (length (removelast t))) with (length h').
    assert (0 < length h') by (unfold h'; simpl; lia).
    apply siftup_heap; [ | lia | lia |].
    { apply (@perm_ok t); [|inversion Hok; auto]. unfold h'. rewrite (app_removelast_last y Ht) at 1.
      apply Permutation_sym, Permutation_cons_append. }
    split; intros i Hi; intros; [|lia].
    pose proof (parent_lt (i := i)).
    assert (Hi' : 0 < i < length (y :: t)) by (rewrite Hlen in Hi; simpl in Hi |- *; lia).
    intros a b Ha Hb. rewrite Hn in Ha by lia. rewrite Hn in Hb by lia. eapply (H i Hi'); eauto.
Qed.

Lemma heappop_least h x h' : Forall ok h -> heap h -> heappop lt h = Some (x, h') -> forall y, In y h' -> lt y x = false.
Proof.
  intros Hok H Hp y Hy.
  assert (Hin : In y h) by (eapply Permutation_in; [apply Permutation_sym, heappop_perm; eauto | right; auto]).
  apply In_nth_error in Hin as [k Hk].
  assert (k < length h) by (apply nth_error_Some; congruence).
  eapply (nth_error_hd Hp); eauto. eapply heappop_hd; eauto.
Qed.

(** a history of heap operations *)
Inductive heap_run : list T -> list (pq_op T) -> list T -> Prop :=
| hr_nil h : heap_run h [] h
| hr_put h x ops h' : heap_run (heappush lt h x) ops h' -> heap_run h (Put x :: ops) h'
| hr_got h x h1 ops h' : heappop lt h = Some (x, h1) -> heap_run h1 ops h' -> heap_run h (Got (Some x) :: ops) h'
| hr_none h ops h' : heappop lt h = None -> heap_run h ops h' -> heap_run h (Got None :: ops) h'.

Lemma pq_history_perm bag1 bag2 ops bag' :
  Permutation bag1 bag2 -> pq_history lt bag1 ops bag' -> pq_history lt bag2 ops bag'.
Proof.
  intros Hp H. revert bag2 Hp. induction H; intros bag2 Hp.
  - constructor. rewrite <- Hp. auto.
  - constructor. apply IHpq_history. auto.
  - econstructor; [rewrite <- Hp; eauto | auto | auto].
  - apply Permutation_nil in Hp as ->. constructor; auto.
Qed.

Definition op_ok (o : pq_op T) : Prop := match o with Put x => ok x | Got _ => True end.

Lemma heap_run_history h ops h' : Forall ok h -> Forall op_ok ops -> heap h -> heap_run h ops h' ->
  Forall ok h' /\ heap h' /\ pq_history lt h ops h'.
Proof.
  intros Hok Hops Hh Hr. induction Hr.
  - split; auto. split; auto. constructor; auto.
  - inversion_clear Hops as [|? ? Ho Ho']. assert (Hok' : Forall ok (x :: h)) by (constructor; auto).
    destruct IHHr as (H0 & H1 & H2); auto.
    { apply (perm_ok (Permutation_sym (heappush_perm h x)) Hok'). }
    { apply heappush_heap; auto. }
    split; auto. split; auto. constructor.
    eapply pq_history_perm; [apply heappush_perm | eauto].
  - inversion_clear Hops as [|? ? Ho Ho']. pose proof (perm_ok (@heappop_perm h x h1 H) Hok) as Hok'.
    inversion_clear Hok'. destruct IHHr as (H3 & H4 & H5); auto. { exact (heappop_heap Hok Hh H). }
    split; auto. split; auto.
    apply pq_get with h1; [apply heappop_perm; exact H | exact (heappop_least Hok Hh H) | exact H5].
  - inversion_clear Hops as [|? ? Ho Ho']. destruct IHHr as (H3 & H4 & H5); auto. split; auto. split; auto.
    apply heappop_none in H as ->. constructor; auto.
Qed.

Lemma fold_push_heap xs h : Forall ok (xs ++ h) -> heap h -> heap (fold_left (heappush lt) xs h).
Proof.
  revert h. induction xs as [|x xs IH]; simpl; auto. intros h Hok H. inversion_clear Hok.
  rewrite Forall_app in H1. destruct H1.
  apply IH; [|apply heappush_heap; auto; constructor; auto]. rewrite Forall_app. split; auto.
  apply (@perm_ok (x :: h)); [apply Permutation_sym, heappush_perm | constructor; auto].
Qed.

End Heap.

Lemma fold_push_perm T (lt : T -> T -> bool) xs h : Permutation (fold_left (heappush lt) xs h) (xs ++ h).
Proof.
  revert h. induction xs as [|x xs IH]; simpl; intros h; auto.
  eapply Permutation_trans; [apply IH|].
  eapply Permutation_trans; [apply Permutation_app_head, heappush_perm|].
  apply Permutation_sym, Permutation_middle.
Qed.
