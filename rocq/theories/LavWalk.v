(** * LavWalk: iterating a LAV (bpypolyskel.py:277-287) *)

From Coq Require Import Permutation.
From Verif Require Import Py PyFacts Arith Euclid Lav LavSpec.
Set Implicit Arguments.
Unset Strict Implicit.

(** ** rings *)
Section Rings.
Variables nxt prv : nat -> nat.

Lemma walks_app a l1 c l2 b : walks nxt a (l1 ++ c :: l2) b <-> walks nxt a l1 c /\ walks nxt c l2 b.
Proof.
  revert a. induction l1 as [|x l1 IH]; intros a; simpl.
  - split.
    + intros H. inversion H; subst. split; auto. constructor; auto.
    + intros [H1 H2]. inversion H1; subst. constructor; auto.
  - split.
    + intros H. inversion H as [|? ? ? ? He Hw]; subst. apply IH in Hw as [H1 H2]. split; auto. constructor; auto.
    + intros [H1 H2]. inversion H1; subst. constructor; auto. apply IH; auto.
Qed.

Lemma ring_rot l1 c l2 : ring nxt prv (l1 ++ c :: l2) -> ring nxt prv (c :: l2 ++ l1).
Proof.
  destruct l1 as [|a l1]; simpl.
  - rewrite app_nil_r. auto.
  - intros (Hn & Hw & Hp). split; [|split].
    + change (c :: l2 ++ a :: l1) with ((c :: l2) ++ (a :: l1)).
      apply (Permutation_NoDup (l := (a :: l1) ++ (c :: l2))); auto. apply Permutation_app_comm.
    + apply walks_app in Hw as [H1 H2]. apply walks_app; auto.
    + intros x Hx. apply Hp. change (In x ((a :: l1) ++ (c :: l2))). 
      change (In x ((c :: l2) ++ (a :: l1))) in Hx.
      apply in_app_iff. apply in_app_iff in Hx. tauto.
Qed.

Lemma ring_at ids c : ring nxt prv ids -> In c ids ->
  exists l, ring nxt prv (c :: l) /\ Permutation ids (c :: l).
Proof.
  intros H Hc. apply in_split in Hc as (l1 & l2 & ->). exists (l2 ++ l1). split.
  - apply ring_rot; auto.
  - change (c :: l2 ++ l1) with ((c :: l2) ++ l1). apply Permutation_app_comm.
Qed.

Lemma walks_next a l b : walks nxt a l b -> nxt a = hd b l.
Proof. intros H; inversion H; subst; auto. Qed.

Lemma walks_last a l b : walks nxt a l b -> nxt (last (a :: l) a) = b.
Proof.
  intros H. assert (G : forall d, nxt (last (a :: l) d) = b); [|apply G].
  induction H as [a b H|a c l b H Hw IH]; intros d; simpl; auto. apply IH.
Qed.

Lemma ring_prev a l : ring nxt prv (a :: l) -> prv a = last (a :: l) a.
Proof.
  intros (Hn & Hw & Hp). pose proof (walks_last Hw) as H.
  rewrite <- H at 1. apply Hp. 
  assert (G : forall d (l0 : list nat), l0 <> [] -> In (last l0 d) l0).
  { clear. intros d l0 H0. induction l0 as [|x l0 IH]; [congruence|]. destruct l0; simpl; auto.
    right. apply IH. discriminate. }
  apply G. discriminate.
Qed.

Lemma walks_closed a l b x : walks nxt a l b -> In x (a :: l) -> In (nxt x) (l ++ [b]).
Proof.
  intros H. revert x. induction H as [a b H|a c l b H Hw IH]; intros x Hx.
  - destruct Hx as [->|[]]. simpl. auto.
  - destruct Hx as [<-|Hx]; [left; auto|]. right. apply IH; auto.
Qed.

Lemma ring_next_in ids x : ring nxt prv ids -> In x ids -> In (nxt x) ids.
Proof.
  destruct ids as [|a l]; [intros []|]. intros (Hn & Hw & Hp) Hx.
  apply (walks_closed Hw) in Hx. apply in_app_iff in Hx as [Hx|[Hx|[]]]; [right|left]; auto.
Qed.

Lemma ring_prev_in ids x : ring nxt prv ids -> In x ids -> In (prv x) ids.
Proof.
  intros H Hx. destruct (ring_at H Hx) as (l & Hr & Hp).
  rewrite (ring_prev Hr). eapply Permutation_in; [apply Permutation_sym, Hp|].
  assert (G : forall d (l0 : list nat), l0 <> [] -> In (last l0 d) l0).
  { clear. intros d l0 H0. induction l0 as [|y l0 IH]; [congruence|]. destruct l0; simpl; auto.
    right. apply IH. discriminate. }
  apply G. discriminate.
Qed.

Lemma ring_prev_next ids x : ring nxt prv ids -> In x ids -> nxt (prv x) = x.
Proof.
  intros H Hx. destruct (ring_at H Hx) as (l & Hr & Hp).
  rewrite (ring_prev Hr). destruct Hr as (_ & Hw & _). apply (walks_last Hw).
Qed.

Lemma ring_next_prev ids x : ring nxt prv ids -> In x ids -> prv (nxt x) = x.
Proof. destruct ids; [intros []|]. intros (_ & _ & Hp). auto. Qed.

Lemma ring_NoDup ids : ring nxt prv ids -> NoDup ids.
Proof. destruct ids; [intros []|]. simpl. tauto. Qed.

Lemma ring_nonempty ids : ring nxt prv ids -> ids <> [].
Proof. destruct ids; [intros []|]. discriminate. Qed.

End Rings.

Lemma walks_ext n1 n2 a l b : (forall x, In x (a :: l) -> n1 x = n2 x) -> walks n1 a l b -> walks n2 a l b.
Proof.
  intros Hx H. induction H as [a b H|a c l b H Hw IH].
  - constructor. rewrite <- Hx; simpl; auto.
  - constructor; [rewrite <- Hx; simpl; auto|]. apply IH. intros x Hin. apply Hx. right; auto.
Qed.

Lemma ring_ext n1 p1 n2 p2 ids :
  (forall x, In x ids -> n1 x = n2 x) -> (forall x, In x ids -> p1 x = p2 x) ->
  ring n1 p1 ids -> ring n2 p2 ids.
Proof.
  intros Hn Hp H. pose proof H as H0. destruct ids as [|a l]; [destruct H|].
  destruct H as (Hd & Hw & Hpn). split; auto. split.
  - apply (walks_ext (n1 := n1)); auto.
  - intros x Hx. rewrite <- Hn by auto. rewrite <- Hp; auto. apply (ring_next_in H0); auto.
Qed.

(** ** walking *)
Section Walk.
Context {A : arith}.
Implicit Type vs : list (@lavertex A).

Definition nxt_of vs (i : nat) : nat := v_next (getv vs i).
Definition prv_of vs (i : nat) : nat := v_prev (getv vs i).

(** what a finished walk looks like *)
Lemma walk_shape f vs h cur visited l e : walk f vs h cur visited = (l, e) -> e <> Some OutOfFuel ->
  ~ In h visited -> NoDup visited -> (cur = h \/ In cur visited) ->
  exists l', l = cur :: l' /\ NoDup (visited ++ l') /\ ~ In h l' /\
    (e = None -> walks (nxt_of vs) cur l' h) /\
    (e <> None -> e = Some RuntimeError /\ exists z, walks (nxt_of vs) cur l' z /\ In z (visited ++ l')).
Proof.
  revert cur visited l e. induction f as [|f IH]; intros cur visited l e Hw He Hh Hn Hc; simpl in Hw.
  - injection Hw as <- <-. congruence.
  - fold (nxt_of vs cur) in Hw. destruct (Nat.eqb_spec (nxt_of vs cur) h) as [E|E].
    + injection Hw as <- <-. exists []. rewrite app_nil_r. repeat split; auto; try congruence. intros _. constructor; auto.
    + destruct (existsb (Nat.eqb (nxt_of vs cur)) visited) eqn:Ex.
      * injection Hw as <- <-. exists []. rewrite app_nil_r. repeat split; auto; try congruence.
        exists (nxt_of vs cur). split; [constructor; auto|].
        apply existsb_exists in Ex as (y & Hy & Ey). apply Nat.eqb_eq in Ey. subst; auto.
      * destruct (walk f vs h (nxt_of vs cur) (nxt_of vs cur :: visited)) as [l1 e1] eqn:Ew.
        injection Hw as <- <-.
        assert (Hnot : ~ In (nxt_of vs cur) visited).
        { intros Hin. rewrite <- not_true_iff_false in Ex. apply Ex. apply existsb_exists.
          eexists; split; eauto. apply Nat.eqb_refl. }
        destruct (IH _ _ _ _ Ew) as (l' & -> & Hn' & Hh' & H1 & H2); auto.
        { intros [H|H]; auto. } { constructor; auto. } { right; left; auto. }
        exists (nxt_of vs cur :: l'). split; auto. split; [|split; [|split]].
        -- eapply Permutation_NoDup; [|exact Hn']. simpl. apply Permutation_middle.
        -- intros [H|H]; auto.
        -- intros H. constructor; auto.
        -- intros H. destruct (H2 H) as (E1 & z & Hz & Hin). split; auto. exists z. split; [constructor; auto|].
           simpl in Hin. apply in_app_iff. simpl. apply in_app_iff in Hin || idtac.
           destruct Hin as [Hin|Hin]; auto. apply in_app_iff in Hin. tauto.
Qed.

Definition refs_in_range vs : Prop := forall v, In v vs -> v_next v < length vs.

Lemma nxt_in_range vs i : refs_in_range vs -> i < length vs -> nxt_of vs i < length vs.
Proof. intros H Hi. unfold nxt_of, getv. apply H. apply nth_In; auto. Qed.

Lemma bounded_NoDup (l : list nat) n : NoDup l -> (forall x, In x l -> x < n) -> length l <= n.
Proof.
  intros Hn Hb. rewrite <- (seq_length n 0). apply NoDup_incl_length; auto.
  intros x Hx. apply in_seq. specialize (Hb _ Hx). lia.
Qed.

(** enough fuel *)
Lemma walk_fuel f vs h cur visited : refs_in_range vs -> NoDup (h :: visited) ->
  (forall x, In x (h :: visited) -> x < length vs) -> In cur (h :: visited) ->
  length vs < length (h :: visited) + f ->
  snd (walk f vs h cur visited) <> Some OutOfFuel.
Proof.
  intros Hr. revert cur visited. induction f as [|f IH]; intros cur visited Hn Hb Hc Hf.
  - pose proof (bounded_NoDup Hn Hb). lia.
  - simpl. fold (nxt_of vs cur). destruct (Nat.eqb_spec (nxt_of vs cur) h) as [E|E]; [simpl; congruence|].
    destruct (existsb (Nat.eqb (nxt_of vs cur)) visited) eqn:Ex; [simpl; congruence|].
    assert (Hnot : ~ In (nxt_of vs cur) visited).
    { intros Hin. rewrite <- not_true_iff_false in Ex. apply Ex. apply existsb_exists.
      eexists; split; eauto. apply Nat.eqb_refl. }
    specialize (IH (nxt_of vs cur) (nxt_of vs cur :: visited)).
    destruct (walk f vs h (nxt_of vs cur) (nxt_of vs cur :: visited)) as [l1 e1]. apply IH.
    + inversion_clear Hn. constructor; [|constructor; auto]. intros [H1|H1]; auto.
    + intros x [<-|[<-|Hx]]; auto; [apply Hb; left; auto | apply nxt_in_range; auto | apply Hb; right; auto].
    + right; left; auto.
    + simpl in Hf |- *. lia.
Qed.

Lemma walks_det nxt a l1 b l2 : walks nxt a l1 b -> walks nxt a l2 b -> ~ In b l1 -> ~ In b l2 -> l1 = l2.
Proof.
  intros H. revert l2. induction H as [a b H|a c l b H Hw IH]; intros l2 H2 N1 N2.
  - inversion H2; subst; auto. destruct N2. left; auto.
  - inversion H2 as [|a' c' l' b' E' W']; subst.
    + destruct N1. left; auto.
    + f_equal. apply IH; auto; intros Hin; [apply N1 | apply N2]; right; auto.
Qed.

Lemma walks_iter nxt a l b : walks nxt a l b -> Nat.iter (S (length l)) nxt a = b /\
  forall i x, nth_error l i = Some x -> x = Nat.iter (S i) nxt a.
Proof.
  intros H. induction H as [a b H|a c l b H Hw IH].
  - simpl. split; auto. intros [|i] x; discriminate.
  - destruct IH as [I1 I2]. subst c.
    assert (Hs : forall k, Nat.iter k nxt (nxt a) = Nat.iter (S k) nxt a).
    { induction k as [|k IHk]; auto. simpl in IHk |- *. rewrite IHk. auto. }
    split.
    + simpl length. rewrite <- Hs. auto.
    + intros [|i] x; simpl nth_error.
      * intros [= <-]. auto.
      * intros Hx. rewrite <- Hs. apply I2; auto.
Qed.

(** C27 *)
Lemma lav_iter_spec (s : @slav A) lv :
  refs_in_range (s_vs s) -> l_head (getl (s_ls s) lv) < length (s_vs s) ->
  let nxt := fun i => v_next (getv (s_vs s) i) in
  let h := l_head (getl (s_ls s) lv) in
  let (ids, e) := lav_iter s lv in
  NoDup ids /\ 1 <= length ids <= length (s_vs s) /\
  (forall i x, nth_error ids i = Some x -> x = Nat.iter i nxt h) /\
  (on_cycle nxt h -> e = None /\ Nat.iter (length ids) nxt h = h) /\
  (~ on_cycle nxt h -> e = Some RuntimeError) /\
  lav_list s lv = (match e with None => Ok ids | Some x => Err x end).
Proof.
  intros Hr Hh nxt h. destruct (lav_iter s lv) as [ids e] eqn:E.
  assert (El : lav_list s lv = match e with None => Ok ids | Some x => Err x end).
  { unfold lav_list. rewrite E. destruct e; auto. }
  unfold lav_iter in E. fold h in E.
  assert (He : e <> Some OutOfFuel).
  { pose proof (@walk_fuel (S (length (s_vs s))) (s_vs s) h h []) as Hf. rewrite E in Hf. apply Hf; try (simpl; lia); auto; try (left; reflexivity).
    constructor; [intros []|constructor]. }
  destruct (walk_shape E He) as (l' & -> & Hn & Hnh & H1 & H2); simpl; auto. { constructor. }
  simpl in Hn.
  assert (Hcase : e = None \/ e = Some RuntimeError) by (destruct e; [right; apply H2; congruence | left; auto]).
  assert (Hb : forall b, walks (nxt_of (s_vs s)) h l' b -> forall x, In x l' -> x < length (s_vs s)).
  { intros b Hw. change (h < length (s_vs s)) in Hh. clearbody h. clear - Hr Hh Hw. revert Hh. induction Hw as [a b H|a c l b H Hw IH]; intros Ha x Hx; [destruct Hx|].
    assert (c < length (s_vs s)) by (subst c; apply nxt_in_range; auto).
    destruct Hx as [<-|Hx]; auto. }
  assert (Hw' : exists b, walks (nxt_of (s_vs s)) h l' b).
  { destruct Hcase as [-> | ->]; eauto. destruct H2 as (_ & z & Hz & _); [congruence|]. eauto. }
  destruct Hw' as [b Hw']. specialize (Hb b Hw').
  assert (Hnd : NoDup (h :: l')) by (constructor; auto).
  split; auto. split; [|split; [|split; [|split]]]; auto.
  - split; [lia|]. change (S (length l')) with (length (h :: l')). apply bounded_NoDup; auto.
    intros x [<-|Hx]; auto.
  - intros [|i] x; simpl nth_error; [intros [= <-]; auto|]. intros Hx.
    apply (proj2 (walks_iter Hw')); auto.
  - intros (k & Hk1 & Hk2).
    destruct Hcase as [-> | ->].
    + split; auto. pose proof (walks_iter (H1 eq_refl)) as [Hi _]. exact Hi.
    + exfalso. destruct H2 as (_ & z & Hz & Hin); [congruence|]. simpl in Hin.
      assert (Hcl : forall j, 1 <= j -> In (Nat.iter j nxt h) l').
      { intros j Hj. induction j as [|j IH]; [lia|]. destruct j as [|j].
        - simpl. pose proof (walks_closed Hz (x := h) (or_introl eq_refl)) as Hc.
          apply in_app_iff in Hc as [Hc|[Hc|[]]]; auto. unfold nxt_of in Hc. unfold nxt. rewrite <- Hc. auto.
        - specialize (IH ltac:(lia)). change (Nat.iter (S (S j)) nxt h) with (nxt (Nat.iter (S j) nxt h)).
          pose proof (walks_closed Hz (x := Nat.iter (S j) nxt h) (or_intror IH)) as Hc.
          apply in_app_iff in Hc as [Hc|[Hc|[]]]; auto. unfold nxt_of in Hc. unfold nxt at 1. rewrite <- Hc. auto. }
      apply Hnh. rewrite <- Hk2. apply Hcl; auto.
  - intros Hno. destruct Hcase as [-> | ->]; auto. exfalso. apply Hno.
    exists (S (length l')). split; [lia|]. apply (proj1 (walks_iter (H1 eq_refl))).
Qed.

(** on a ring the iteration yields the ring, from the head on *)
Lemma lav_iter_ring (s : @slav A) lv ids :
  ring (nxt_of (s_vs s)) (prv_of (s_vs s)) ids -> (forall i, In i ids -> i < length (s_vs s)) ->
  In (l_head (getl (s_ls s) lv)) ids ->
  exists l, let h := l_head (getl (s_ls s) lv) in
    lav_iter s lv = (h :: l, None) /\ ring (nxt_of (s_vs s)) (prv_of (s_vs s)) (h :: l) /\
    Permutation ids (h :: l).
Proof.
  intros Hring Hb Hin. set (h := l_head (getl (s_ls s) lv)) in *.
  destruct (ring_at Hring Hin) as (l & Hl & Hp). exists l. split; auto.
  assert (G : forall hd0 f cur post visited, walks (nxt_of (s_vs s)) cur post hd0 -> ~ In hd0 post ->
            NoDup (visited ++ post) -> length post < f -> walk f (s_vs s) hd0 cur visited = (cur :: post, None)).
  { clear. intros hd0. induction f as [|f IH]; intros cur post visited Hw Hh Hn Hf; [lia|].
    simpl. fold (nxt_of (s_vs s) cur). inversion Hw as [a b E|a c l0 b E W]; subst a b.
    - subst post. rewrite E, Nat.eqb_refl. auto.
    - subst post. rewrite <- E in *. destruct (Nat.eqb_spec (nxt_of (s_vs s) cur) hd0) as [E0|E0]; [destruct Hh; left; auto|].
      destruct (existsb (Nat.eqb (nxt_of (s_vs s) cur)) visited) eqn:Ex.
      + exfalso. apply existsb_exists in Ex as (y & Hy & Ey). apply Nat.eqb_eq in Ey. subst y.
        apply NoDup_remove_2 in Hn. apply Hn. apply in_app_iff; auto.
      + rewrite (IH (nxt_of (s_vs s) cur) l0 (nxt_of (s_vs s) cur :: visited)); auto.
        * intros Hin. apply Hh. right; auto.
        * eapply Permutation_NoDup; [|exact Hn]. simpl. apply Permutation_sym, Permutation_middle.
        * simpl in Hf. lia. }
  destruct Hl as (Hn & Hw & _). inversion_clear Hn as [|? ? Hnh Hnl].
  unfold lav_iter. fold h. apply G; auto.
  assert (length l <= length (s_vs s)); [|lia]. apply bounded_NoDup; auto.
  intros x Hx. apply Hb. eapply Permutation_in; [apply Permutation_sym, Hp | right; auto].
Qed.

End Walk.
