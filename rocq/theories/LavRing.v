(** * LavRing: cutting and joining doubly linked rings *)

From Coq Require Import Permutation.
From Verif Require Import Py PyFacts Arith Euclid Lav LavSpec LavWalk LavWf.
Set Implicit Arguments.
Unset Strict Implicit.

Section Links.
Variables nxt prv : nat -> nat.

(** consecutive elements of l are linked both ways *)
Fixpoint linked (l : list nat) : Prop :=
  match l with
  | a :: t => match t with b :: _ => nxt a = b /\ prv b = a | [] => True end /\ linked t
  | [] => True
  end.

Lemma linked_app l1 a l2 : linked (l1 ++ a :: l2) <-> linked (l1 ++ [a]) /\ linked (a :: l2).
Proof.
  induction l1 as [|x l1 IH]; simpl.
  - tauto.
  - rewrite IH. simpl. destruct l1; simpl; tauto.
Qed.

Lemma walks_linked a l b : walks nxt a l b -> (forall x, In x (a :: l) -> prv (nxt x) = x) ->
  linked (a :: l ++ [b]).
Proof.
  intros H. induction H as [a b H|a c l b H Hw IH]; intros Hp.
  - simpl. rewrite H. split; auto. split; auto. rewrite <- H. apply Hp. left; auto.
  - change (linked (a :: c :: l ++ [b])). split.
    + split; auto. subst c. apply Hp. left; auto.
    + apply IH. intros x Hx. apply Hp. right; auto.
Qed.

Lemma linked_walks a l b : linked (a :: l ++ [b]) -> walks nxt a l b /\ (forall x, In x (a :: l) -> prv (nxt x) = x).
Proof.
  revert a. induction l as [|c l IH]; intros a; simpl.
  - intros [[H1 H2] _]. split; [constructor; auto|]. intros x [<-|[]]. congruence.
  - intros [[H1 H2] H3]. destruct (IH c H3) as [I1 I2]. split; [constructor; auto|].
    intros x [<-|Hx]; [congruence|auto].
Qed.

Lemma ring_linked a l : ring nxt prv (a :: l) <-> NoDup (a :: l) /\ linked (a :: l ++ [a]).
Proof.
  split.
  - intros (H1 & H2 & H3). split; auto. apply walks_linked; auto.
  - intros (H1 & H2). apply linked_walks in H2 as [H2 H3]. split; auto.
Qed.

(** closing a linked list l = hd .. last *)
Lemma linked_close n l : l <> [] -> linked l -> nxt n = hd 0 l -> prv (hd 0 l) = n ->
  nxt (last l 0) = n -> prv n = last l 0 -> linked (n :: l ++ [n]).
Proof.
  intros Hne Hl H1 H2 H3 H4. destruct l as [|a l]; [congruence|]. clear Hne. simpl in H1, H2.
  change (linked (n :: a :: (l ++ [n]))). split; [auto|].
  destruct (exists_last (l := a :: l)) as (l' & z & E); [discriminate|].
  rewrite E in H3, H4. rewrite last_last in H3, H4.
  change (a :: l ++ [n]) with ((a :: l) ++ [n]). rewrite E in *. rewrite <- app_assoc. simpl.
  apply linked_app. split; auto. simpl. auto.
Qed.

Lemma linked_hd_prv x l : linked (x :: l) -> l <> [] -> nxt x = hd 0 l /\ prv (hd 0 l) = x.
Proof. destruct l as [|a l]; [congruence|]. simpl. tauto. Qed.

Lemma linked_last_nxt l z : linked (l ++ [z]) -> l <> [] -> nxt (last l 0) = z /\ prv z = last l 0.
Proof.
  intros H Hne. destruct (exists_last Hne) as (l' & y & ->). rewrite last_last.
  rewrite <- app_assoc in H. simpl in H. apply linked_app in H as [_ H]. simpl in H. tauto.
Qed.

Lemma linked_tail l1 l2 : linked (l1 ++ l2) -> linked l2.
Proof. induction l1 as [|a l1 IH]; auto. intros [_ H]. auto. Qed.

Lemma linked_init l1 l2 : linked (l1 ++ l2) -> linked l1.
Proof.
  induction l1 as [|a l1 IH]; [simpl; auto|]. intros [H1 H2]. split; auto.
  destruct l1; auto.
Qed.

End Links.

Lemma linked_ext n1 p1 n2 p2 l :
  (forall x, In x (removelast l) -> n2 x = n1 x) -> (forall x, In x (tl l) -> p2 x = p1 x) ->
  linked n1 p1 l -> linked n2 p2 l.
Proof.
  induction l as [|a l IH]; auto. intros Hn Hp [H1 H2]. split.
  - destruct l as [|b l]; auto. destruct H1 as [H3 H4]. split.
    + rewrite Hn; auto. simpl. left; auto.
    + rewrite Hp; auto. simpl. left; auto.
  - apply IH; auto.
    + intros x Hx. apply Hn. destruct l; [destruct Hx|]. simpl. right. exact Hx.
    + intros x Hx. apply Hp. simpl. destruct l; [destruct Hx|]. right; auto.
Qed.

(** with distinct elements it is enough to spare the last and the first one *)
Lemma linked_ext_ends n1 p1 n2 p2 l : NoDup l ->
  (forall x, In x l -> x <> last l 0 -> n2 x = n1 x) -> (forall x, In x l -> x <> hd 0 l -> p2 x = p1 x) ->
  linked n1 p1 l -> linked n2 p2 l.
Proof.
  intros Hd Hn Hp. apply linked_ext.
  - intros x Hx. destruct l as [|a l]; [destruct Hx|]. destruct (exists_last (l := a :: l)) as (l' & z & E); [discriminate|].
    rewrite E in *. rewrite removelast_last in Hx. rewrite last_last in Hn. apply Hn.
    + apply in_app_iff. auto.
    + intros ->. apply NoDup_remove_2 in Hd. rewrite app_nil_r in Hd. auto.
  - intros x Hx. destruct l as [|a l]; [destruct Hx|]. simpl in Hx, Hp. apply Hp; auto.
    intros ->. inversion Hd; auto.
Qed.

Lemma ring_split nxt prv a l1 l2 : ring nxt prv (a :: l1 ++ l2) -> l1 <> [] -> linked nxt prv l1.
Proof.
  intros H _. apply ring_linked in H as [_ H]. destruct H as [_ H]. rewrite <- app_assoc in H.
  eapply linked_init; eauto.
Qed.

Lemma last_in (l : list nat) d : l <> [] -> In (last l d) l.
Proof.
  intros H. destruct (exists_last H) as (l' & z & ->). rewrite last_last. apply in_app_iff. right; left; auto.
Qed.
Lemma hd_in (l : list nat) d : l <> [] -> In (hd d l) l.
Proof. destruct l; [congruence|]. simpl; auto. Qed.
Lemma last_cons (a : nat) l d : l <> [] -> last (a :: l) d = last l d.
Proof. destruct l; [congruence|auto]. Qed.
Lemma last_dflt (l : list nat) d d' : l <> [] -> last l d = last l d'.
Proof.
  intros H. destruct (exists_last H) as (l' & z & ->). rewrite !last_last. auto.
Qed.
