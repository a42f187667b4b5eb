(** * SortProofs: CPython's sort (PySort.v) returns a permutation of its input,
    and a sorted one if the comparison decides a transitive relation on distinct
    elements. *)

From Coq Require Import Permutation Sorting.Sorted.
From Verif Require Import Py PyFacts PySort.
Set Implicit Arguments.

Section SortProofs.
Variable T : Type.
Variable lt : T -> T -> res bool.

(** ** permutation *)
Lemma binarysort_perm rest : forall pre out,
  binarysort lt pre rest = Ok out -> Permutation (pre ++ rest) out.
Proof.
  induction rest as [|p t IH]; simpl; intros pre out H.
  - inv_ok H; subst. rewrite app_nil_r; auto.
  - inv_ok H. apply IH in Hb. rewrite <- Hb.
    rewrite <- app_assoc. rewrite <- (firstn_skipn a pre) at 1.
    rewrite <- !app_assoc. apply Permutation_app_head. simpl.
    symmetry; apply Permutation_middle.
Qed.

Lemma py_sorted_perm l out : py_sorted lt l = Ok out -> Permutation l out.
Proof.
  destruct l as [|x [|y t]]; simpl; intros H; try (inv_ok H; subst; auto; fail).
  inv_ok H. inv_ok Ha. inv_ok Hb0. inv_ok Hb1. subst a. cbn iota beta in Hb.
  apply binarysort_perm in Hb. rewrite <- Hb.
  rewrite <- (firstn_skipn (S (S a1)) (x :: y :: t)) at 1.
  apply Permutation_app_tail. destruct a0; auto. apply Permutation_rev.
Qed.

(** ** no exception if the comparison raises none *)
Lemma run_len_total down : forall l prev,
  (forall a b, In a (prev :: l) -> In b (prev :: l) -> exists r, lt a b = Ok r) ->
  exists n, run_len lt down prev l = Ok n /\ n <= length l.
Proof.
  induction l as [|x t IH]; simpl; intros prev H; [eauto|].
  destruct (H x prev) as [b Hb]; auto. rewrite Hb; simpl.
  destruct (Bool.eqb b down); [|exists 0; split; auto; lia].
  destruct (IH x) as [n [Hn Hle]]; [intros; apply H; simpl in *; tauto|].
  rewrite Hn; simpl. exists (S n); split; auto; lia.
Qed.

Lemma bsearch_total pivot l : forall fuel lo hi,
  (forall b, In b l -> exists r, lt pivot b = Ok r) ->
  hi - lo < fuel -> hi <= length l -> lo <= hi ->
  exists i, bsearch lt fuel pivot l lo hi = Ok i /\ lo <= i <= hi.
Proof.
  induction fuel as [|f IH]; intros lo hi H Hf Hhi Hlo; [lia|]. simpl.
  destruct (Nat.ltb_spec lo hi) as [Hlt|Hge]; [|exists lo; split; auto; lia].
  change (fst (Nat.divmod (hi - lo) 1 0 1)) with ((hi - lo) / 2).
  assert (Hd : (hi - lo) / 2 < hi - lo) by (apply Nat.div_lt; lia).
  set (p := lo + (hi - lo) / 2) in *.
  destruct (nth_error l p) as [y|] eqn:E; [|apply nth_error_None in E; lia].
  destruct (H y) as [b Hb]; [eapply nth_error_In; eauto|]. rewrite Hb; simpl.
  destruct b.
  - destruct (IH lo p) as (i & Hi & Hr); try lia; auto. exists i; split; auto; lia.
  - destruct (IH (S p) hi) as (i & Hi & Hr); try lia; auto. exists i; split; auto; lia.
Qed.

Lemma binarysort_total rest : forall pre,
  (forall a b, In a (pre ++ rest) -> In b (pre ++ rest) -> exists r, lt a b = Ok r) ->
  exists out, binarysort lt pre rest = Ok out.
Proof.
  induction rest as [|p t IH]; intros pre H; [simpl; eauto|].
  cbn [binarysort].
  destruct (@bsearch_total p pre (S (length pre)) 0 (length pre)) as (i & Hi & Hr); try lia.
  { intros b Hb; apply H; apply in_or_app; simpl; auto. }
  rewrite Hi; cbn [bind]. apply IH. intros a b Ha Hb. apply H.
  - apply in_app_or in Ha. apply in_or_app. simpl.
    destruct Ha as [Ha|Ha]; [|tauto]. apply in_app_or in Ha; simpl in Ha.
    rewrite <- (firstn_skipn i pre). rewrite in_app_iff. tauto.
  - apply in_app_or in Hb. apply in_or_app. simpl.
    destruct Hb as [Hb|Hb]; [|tauto]. apply in_app_or in Hb; simpl in Hb.
    rewrite <- (firstn_skipn i pre). rewrite in_app_iff. tauto.
Qed.

Lemma py_sorted_total l :
  (forall a b, In a l -> In b l -> exists r, lt a b = Ok r) ->
  exists out, py_sorted lt l = Ok out.
Proof.
  intros H. destruct l as [|x [|y t]]; try (simpl; eauto; fail).
  unfold py_sorted, count_run.
  destruct (H y x) as [b Hb]; simpl; auto. rewrite Hb; cbn [bind].
  destruct (@run_len_total b t y) as [n [Hn Hle]]; [intros; apply H; simpl in *; tauto|].
  rewrite Hn; cbn [bind]. apply binarysort_total.
  assert (K : forall c, In c ((if b then rev (firstn (S (S n)) (x :: y :: t))
                               else firstn (S (S n)) (x :: y :: t)) ++
                              skipn (S (S n)) (x :: y :: t)) -> In c (x :: y :: t)).
  { intros c Hc. rewrite <- (firstn_skipn (S (S n)) (x :: y :: t)).
    apply in_app_or in Hc. apply in_or_app. destruct Hc as [Hc|Hc]; auto.
    left. destruct b; auto. apply in_rev; auto. }
  intros c d Hc Hd; apply H; auto.
Qed.

(** Exceptions can only come from the comparison (never OutOfFuel). *)
Lemma bsearch_err pivot l e : forall fuel lo hi,
  hi - lo < fuel -> hi <= length l ->
  bsearch lt fuel pivot l lo hi = Err e -> exists b, In b l /\ lt pivot b = Err e.
Proof.
  induction fuel as [|f IH]; intros lo hi Hf Hhi H; [lia|]. cbn [bsearch] in H.
  destruct (Nat.ltb_spec lo hi) as [Hlt|Hge]; [|discriminate].
  assert (Hd : (hi - lo) / 2 < hi - lo) by (apply Nat.div_lt; lia).
  set (p := lo + (hi - lo) / 2) in *.
  destruct (nth_error l p) as [y|] eqn:E; [|apply nth_error_None in E; lia].
  apply nth_error_In in E.
  apply bind_err in H; destruct H as [H|[b [Hb H]]]; [eauto|].
  destruct b; eapply IH; try exact H; lia.
Qed.

Lemma bsearch_le pivot l : forall fuel lo hi i,
  lo <= hi -> bsearch lt fuel pivot l lo hi = Ok i -> lo <= i <= hi.
Proof.
  induction fuel as [|f IH]; intros lo hi i Hle H; [discriminate|]. cbn [bsearch] in H.
  destruct (Nat.ltb_spec lo hi) as [Hlt|Hge]; [|inv_ok H; subst; lia].
  assert (Hd : (hi - lo) / 2 < hi - lo) by (apply Nat.div_lt; lia).
  set (p := lo + (hi - lo) / 2) in *.
  destruct (nth_error l p) as [y|]; [|discriminate]. inv_ok H.
  destruct a; apply IH in Hb; lia.
Qed.

(** ** sortedness *)
Variable R : T -> T -> Prop.

(** [lt] decides R between different elements of [l]: one of the two directions holds,
    and a comparison answers true only for R, false only for the converse. *)
Definition decides (l : list T) : Prop :=
  (forall a b r, In a l -> In b l -> a <> b -> lt a b = Ok r -> if r then R a b else R b a) /\
  (forall a b c, In a l -> In b l -> In c l -> R a b -> R b c -> R a c).

Lemma SS_app l1 l2 :
  StronglySorted R l1 -> StronglySorted R l2 -> (forall a b, In a l1 -> In b l2 -> R a b) ->
  StronglySorted R (l1 ++ l2).
Proof.
  induction 1 as [|a t Ht IH Ha]; simpl; intros H2 H; auto.
  constructor; [apply IH; auto|]. apply Forall_app; split; auto.
  apply Forall_forall; auto.
Qed.

Lemma SS_app_inv l1 l2 : StronglySorted R (l1 ++ l2) ->
  StronglySorted R l1 /\ StronglySorted R l2 /\ forall a b, In a l1 -> In b l2 -> R a b.
Proof.
  induction l1 as [|a t IH]; simpl; intros H.
  - repeat split; auto; [constructor | intros; tauto].
  - inversion H as [|? ? Hs Hf]; subst. destruct (IH Hs) as (H1 & H2 & H3).
    apply Forall_app in Hf; destruct Hf as [Hf1 Hf2].
    repeat split; auto; [constructor; auto|].
    intros x y [->|Hx] Hy; auto. rewrite Forall_forall in Hf2; auto.
Qed.

Lemma SS_nth l i j a b : StronglySorted R l -> i < j ->
  nth_error l i = Some a -> nth_error l j = Some b -> R a b.
Proof.
  intros H; revert i j; induction H as [|x t Ht IH Hf]; intros i j Hij Ha Hb.
  - destruct i; discriminate.
  - destruct j as [|j]; [lia|]. destruct i as [|i]; simpl in *.
    + injection Ha; intros; subst. rewrite Forall_forall in Hf. apply Hf. eapply nth_error_In; eauto.
    + apply (IH i j); auto; lia.
Qed.

Lemma bsearch_sorted univ pivot l : decides univ -> In pivot univ -> incl l univ -> ~ In pivot l ->
  StronglySorted R l ->
  forall fuel lo hi i, lo <= hi -> hi <= length l ->
  (forall k b, k < lo -> nth_error l k = Some b -> R b pivot) ->
  (forall k b, hi <= k -> nth_error l k = Some b -> R pivot b) ->
  bsearch lt fuel pivot l lo hi = Ok i ->
  (forall k b, k < i -> nth_error l k = Some b -> R b pivot) /\
  (forall k b, i <= k -> nth_error l k = Some b -> R pivot b).
Proof.
  intros [Hdec Htr] Hpu Hlu Hnin HS.
  induction fuel as [|f IH]; intros lo hi i Hlo Hhi H1 H2 H; [discriminate|]. cbn [bsearch] in H.
  destruct (Nat.ltb_spec lo hi) as [Hlt|Hge].
  2:{ inv_ok H; subst. split; intros k b Hk Hn; [eapply H1; eauto | eapply (H2 k); eauto; lia]. }
  assert (Hd : (hi - lo) / 2 < hi - lo) by (apply Nat.div_lt; lia).
  set (p := lo + (hi - lo) / 2) in *.
  destruct (nth_error l p) as [y|] eqn:E; [|apply nth_error_None in E; lia].
  assert (Hy : In y l) by (eapply nth_error_In; eauto).
  assert (Hne : pivot <> y) by (intros ->; auto).
  inv_ok H. pose proof (Hdec _ _ _ Hpu (Hlu _ Hy) Hne Ha) as K. destruct a.
  - eapply (IH lo p); eauto; try lia.
    intros k b Hk Hb'. destruct (Nat.eq_dec k p) as [->|Hkp].
    + rewrite E in Hb'; injection Hb'; intros; subst; auto.
    + apply (Htr pivot y b); auto. { apply Hlu; eapply nth_error_In; eauto. }
      apply (@SS_nth l p k y b); auto; lia.
  - eapply (IH (S p) hi); eauto; try lia.
    intros k b Hk Hb'. destruct (Nat.eq_dec k p) as [->|Hkp].
    + rewrite E in Hb'; injection Hb'; intros; subst; auto.
    + apply (Htr b y pivot); auto. { apply Hlu; eapply nth_error_In; eauto. }
      apply (@SS_nth l k p b y); auto; lia.
Qed.

Lemma In_firstn_nth (l : list T) i x : In x (firstn i l) -> exists k, k < i /\ nth_error l k = Some x.
Proof.
  revert i; induction l as [|y t IH]; intros [|i]; simpl; try tauto.
  intros [->|H]; [exists 0; split; auto; lia|].
  destruct (IH _ H) as (k & Hk & E). exists (S k); split; auto; lia.
Qed.

Lemma In_skipn_nth (l : list T) i x : In x (skipn i l) -> exists k, i <= k /\ nth_error l k = Some x.
Proof.
  revert i; induction l as [|y t IH]; intros [|i] H; simpl in H; try tauto.
  - destruct H as [->|H]; [exists 0; split; auto|].
    destruct (IH 0 H) as (k & _ & E). exists (S k); split; auto; lia.
  - destruct (IH _ H) as (k & Hk & E). exists (S k); split; auto; lia.
Qed.

Lemma binarysort_sorted univ rest : decides univ -> forall pre out,
  incl (pre ++ rest) univ -> NoDup (pre ++ rest) -> StronglySorted R pre ->
  binarysort lt pre rest = Ok out -> StronglySorted R out.
Proof.
  intros Hdec. induction rest as [|p t IH]; intros pre out Hincl Hnd HS H.
  - simpl in H; inv_ok H; subst; auto.
  - cbn [binarysort] in H. inv_ok H.
    assert (Hnin : ~ In p pre).
    { intros Hin. apply NoDup_remove_2 in Hnd. apply Hnd, in_or_app; auto. }
    pose proof (bsearch_le _ _ _ (Nat.le_0_l _) Ha) as Hle.
    destruct (@bsearch_sorted univ p pre Hdec) with (fuel := S (length pre)) (lo := 0) (hi := length pre) (i := a)
      as [HA HB]; auto; try lia.
    { apply Hincl, in_or_app; simpl; auto. }
    { intros x Hx; apply Hincl, in_or_app; auto. }
    { intros k b Hk Hb'. assert (k < length pre) by (apply nth_error_Some; congruence). lia. }
    rewrite <- (firstn_skipn a pre) in HS. apply SS_app_inv in HS. destruct HS as (S1 & S2 & S12).
    assert (Hp : Permutation (pre ++ p :: t) ((firstn a pre ++ p :: skipn a pre) ++ t)).
    { rewrite <- (firstn_skipn a pre) at 1. rewrite <- !app_assoc. apply Permutation_app_head. simpl.
      symmetry; apply Permutation_middle. }
    eapply IH; [| | |exact Hb].
    + intros x Hx; apply Hincl. eapply Permutation_in; [symmetry; exact Hp|auto].
    + eapply Permutation_NoDup; eauto.
    + apply SS_app; auto.
      * constructor; auto. apply Forall_forall. intros x Hx.
        destruct (In_skipn_nth _ _ _ Hx) as (k & Hk & E). eauto.
      * intros x y Hx [<-|Hy]; auto.
        destruct (In_firstn_nth _ _ _ Hx) as (k & Hk & E). eauto.
Qed.

(** the initial run *)
Lemma run_len_sorted univ down : decides univ -> forall l prev n,
  incl (prev :: l) univ -> NoDup (prev :: l) ->
  run_len lt down prev l = Ok n ->
  StronglySorted (fun a b => if down then R b a else R a b) (prev :: firstn n l).
Proof.
  intros [Hdec Htr]. induction l as [|x t IH]; intros prev n Hincl Hnd H.
  - simpl in H; inv_ok H; subst. repeat constructor.
  - cbn [run_len] in H. inv_ok H.
    destruct (Bool.eqb a down) eqn:E; [|inv_ok Hb; subst; repeat constructor].
    inv_ok Hb. inv_ok Hb0. subst n. cbn [firstn].
    assert (HSS : StronglySorted (fun a b => if down then R b a else R a b) (x :: firstn a0 t)).
    { apply IH; auto; [intros z Hz; apply Hincl; simpl in *; tauto | inversion Hnd; auto]. }
    apply Bool.eqb_prop in E; subst a.
    assert (Hpx : if down then R x prev else R prev x).
    { pose proof (Hdec x prev down) as K. apply K; auto.
      - apply Hincl; simpl; auto.
      - apply Hincl; simpl; auto.
      - intros ->. inversion Hnd; subst; simpl in *; tauto. }
    constructor; auto. constructor; auto.
    inversion HSS as [|? ? Hs Hf]; subst.
    apply Forall_forall. intros z Hz. rewrite Forall_forall in Hf. pose proof (Hf _ Hz) as Hzx.
    assert (Hzt : In z t).
    { rewrite <- (firstn_skipn a0 t). apply in_or_app; auto. }
    destruct down; eapply Htr; eauto; apply Hincl; simpl; auto.
Qed.

Lemma SS_rev l : StronglySorted (fun a b => R b a) l -> StronglySorted R (rev l).
Proof.
  induction 1 as [|a t Ht IH Ha]; simpl; [constructor|].
  apply SS_app; auto; [repeat constructor|].
  intros x y Hx [<-|[]]. apply in_rev in Hx. rewrite Forall_forall in Ha; auto.
Qed.

Lemma py_sorted_sorted l out : decides l -> NoDup l ->
  py_sorted lt l = Ok out -> StronglySorted R out.
Proof.
  intros Hdec Hnd. destruct l as [|x [|y t]]; intros H; try (simpl in H; inv_ok H; subst; repeat constructor; fail).
  unfold py_sorted in H. inv_ok H. destruct a as [desc n]. unfold count_run in Ha.
  inv_ok Ha. inv_ok Hb0. inv_ok Hb1. injection Hb1; intros; subst desc n; clear Hb1.
  pose proof Hdec as [Hd Htr].
  assert (Hyx : y <> x) by (intros ->; inversion Hnd; simpl in *; tauto).
  pose proof (Hd y x a (or_intror (or_introl eq_refl)) (or_introl eq_refl) Hyx Ha0) as K.
  assert (HS : StronglySorted (fun a1 b => if a then R b a1 else R a1 b) (firstn (S (S a0)) (x :: y :: t))).
  { cbn [firstn].
    assert (HSS : StronglySorted (fun a1 b => if a then R b a1 else R a1 b) (y :: firstn a0 t)).
    { eapply (@run_len_sorted (x :: y :: t) a Hdec t y a0); auto;
        [intros z Hz; simpl in *; tauto | inversion Hnd; auto]. }
    constructor; auto. inversion HSS as [|? ? Hs Hf]; subst. constructor; [destruct a; auto|].
    apply Forall_forall; intros z Hz. rewrite Forall_forall in Hf. pose proof (Hf _ Hz) as Hzx.
    assert (Hzt : In z t).
    { rewrite <- (firstn_skipn a0 t). apply in_or_app; auto. }
    destruct a; eapply (Htr _ y); eauto; simpl; auto. }
  assert (Hp : Permutation (x :: y :: t)
           ((if a then rev (firstn (S (S a0)) (x :: y :: t)) else firstn (S (S a0)) (x :: y :: t)) ++
            skipn (S (S a0)) (x :: y :: t))).
  { rewrite <- (firstn_skipn (S (S a0)) (x :: y :: t)) at 1. apply Permutation_app_tail.
    destruct a; auto. apply Permutation_rev. }
  eapply (binarysort_sorted _ Hdec); [| | |exact Hb].
  - intros z Hz. eapply Permutation_in; [symmetry; exact Hp|auto].
  - eapply Permutation_NoDup; eauto.
  - destruct a; auto. apply SS_rev; auto.
Qed.

End SortProofs.
