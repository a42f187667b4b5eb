(** * ConvexFaces: the faces traced around a tree over a ring (C49) *)

From Coq Require Import Permutation.
From Verif Require Import Py PyFacts Arith Graph GraphSpec GraphProofs TriRoof ConvexComb.
Set Implicit Arguments.
Unset Strict Implicit.
Local Open Scope nat_scope.

(** ** circular lists *)
Definition cyc (f : list nat) u v : Prop := exists h t, f = h :: t /\ follows (f ++ [h]) u v.

Lemma cyc_follows f u v : follows f u v -> cyc f u v.
Proof.
  intros (l1 & l2 & E). destruct f as [|h t]; [destruct l1; discriminate|]. exists h, t. split; auto. rewrite E.
  exists l1, (l2 ++ [h]). rewrite <- app_assoc. auto.
Qed.

Lemma cyc_wraps f u v : wraps f u v -> cyc f u v.
Proof. intros (l & ->). exists v, (l ++ [u]). split; auto. exists (v :: l), []. cbn [app]. rewrite <- !app_assoc. auto. Qed.

Lemma cyc_rot1 x t u v : cyc (x :: t) u v -> cyc (t ++ [x]) u v.
Proof.
  intros (h & t' & E & l1 & l2 & K). injection E as <- <-. destruct t as [|y t].
  - exists x, []. split; auto. exists l1, l2. auto.
  - exists y, (t ++ [x]). split; auto. destruct l1 as [|a l1].
    + injection K as <- <- K. exists (y :: t), []. cbn [app]. rewrite <- app_assoc. auto.
    + injection K as <- K. exists l1, (l2 ++ [y]). change (((y :: t) ++ [x]) ++ [y] = l1 ++ u :: v :: l2 ++ [y]). change ((y :: t) ++ [x] = l1 ++ u :: v :: l2) in K. rewrite K, <- app_assoc. auto.
Qed.

Lemma cyc_rot l1 : forall l2 u v, cyc (l1 ++ l2) u v -> cyc (l2 ++ l1) u v.
Proof.
  induction l1 as [|a l1 IH]; intros l2 u v H; [rewrite app_nil_r; auto|].
  cbn [app] in H. apply cyc_rot1 in H. rewrite <- app_assoc in H. apply IH in H. rewrite <- app_assoc in H. exact H.
Qed.

Lemma cyc_In f u v : cyc f u v -> In u f /\ In v f.
Proof.
  intros (h & t & -> & l1 & l2 & K). assert (G : forall x, In x ((h :: t) ++ [h]) -> In x (h :: t)).
  { intros x Hx. apply in_app_iff in Hx as [|[<-|[]]]; simpl; auto. }
  split; apply G; rewrite K; apply in_app_iff; right; simpl; auto.
Qed.

Definition ring (T : nat -> nat -> nat -> Prop) f : Prop := exists a b r, f = a :: b :: r /\ Path T (f ++ [a; b]).

Lemma ring_rot1 T x t : ring T (x :: t) -> ring T (t ++ [x]).
Proof.
  intros (a & b & r & E & Hp). injection E as -> ->. cbn [app] in Hp. destruct r as [|y r].
  - cbn [app] in *. exists b, a, []. split; auto. cbn [app Path] in *. tauto.
  - cbn [app] in Hp. rewrite Path_cons in Hp. destruct Hp as [T1 Hp]. exists b, y, (r ++ [a]). split; auto.
    replace (((b :: y :: r) ++ [a]) ++ [b; y]) with ((b :: y :: r) ++ [a; b; y]) by (rewrite <- app_assoc; auto).
    apply Path_snoc; auto.
Qed.

Lemma ring_rot T l1 : forall l2, ring T (l1 ++ l2) -> ring T (l2 ++ l1).
Proof.
  induction l1 as [|a l1 IH]; intros l2 H; [rewrite app_nil_r; auto|].
  cbn [app] in H. apply ring_rot1 in H. rewrite <- app_assoc in H. apply IH in H. rewrite <- app_assoc in H. exact H.
Qed.

Lemma Path_nth (T : nat -> nat -> nat -> Prop) : forall l i u v w, Path T l -> nth_error l i = Some u -> nth_error l (S i) = Some v -> nth_error l (S (S i)) = Some w -> T u v w.
Proof.
  induction l as [|a l IH]; intros i u v w Hp Hu Hv Hw; [destruct i; discriminate|].
  destruct l as [|b l]; [destruct i; discriminate|]. destruct l as [|d l]; [destruct i; [discriminate|destruct i; discriminate]|].
  rewrite Path_cons in Hp. destruct Hp as [T1 Hp]. destruct i as [|i]; [simpl in Hu, Hv, Hw; congruence|].
  apply (IH i); auto.
Qed.

Lemma nth_wrap (T : Type) (f : list T) a b r i : f = a :: b :: r -> i < length f + 2 -> nth_error (f ++ [a; b]) i = nth_error f (i mod length f).
Proof.
  intros E Hi. assert (L : 2 <= length f) by (rewrite E; simpl; lia).
  destruct (Nat.lt_ge_cases i (length f)) as [H|H]; [rewrite nth_error_app1, Nat.mod_small; auto|].
  rewrite nth_error_app2 by auto. replace i with ((i - length f) + 1 * length f) at 2 by lia. rewrite Nat.mod_add, Nat.mod_small by lia.
  destruct (Nat.eq_dec (i - length f) 0) as [H0|H0]; [rewrite H0, E; auto|].
  assert (H1 : i - length f = 1) by lia. rewrite H1, E. auto.
Qed.

Lemma ring_nth T f i u v w : ring T f -> i < length f -> nth_error f i = Some u -> nth_error f ((i + 1) mod length f) = Some v ->
  nth_error f ((i + 2) mod length f) = Some w -> T u v w.
Proof.
  intros (a & b & r & E & Hp) Hi Hu Hv Hw. apply (Path_nth (i := i) Hp).
  - rewrite nth_error_app1; auto.
  - rewrite (nth_wrap E) by lia. rewrite <- Nat.add_1_r. auto.
  - rewrite (nth_wrap E) by lia. replace (S (S i)) with (i + 2) by lia. auto.
Qed.

(** ** the directed edges of a circular list *)
Lemma dart_list_nth z : forall f i x, nth_error f i = Some x -> nth_error (dart_list z f) i = Some (x, match nth_error f (S i) with Some y => y | None => z end).
Proof.
  induction f as [|a f IH]; intros i x H; [destruct i; discriminate|]. destruct f as [|b f].
  - destruct i as [|i]; [simpl in H; injection H as <-; auto|destruct i; discriminate].
  - change (dart_list z (a :: b :: f)) with ((a, b) :: dart_list z (b :: f)). destruct i as [|i]; [simpl in H; injection H as <-; auto|].
    change (nth_error (dart_list z (b :: f)) i = Some (x, match nth_error (b :: f) (S i) with Some y => y | None => z end)). apply IH. auto.
Qed.

Lemma darts_length f : length (darts_of f) = length f.
Proof. rewrite <- (map_fst_darts f) at 2. rewrite map_length. auto. Qed.

Lemma darts_nth f i : i < length f -> exists x y, nth_error f i = Some x /\ nth_error f ((i + 1) mod length f) = Some y /\ nth_error (darts_of f) i = Some (x, y).
Proof.
  intros Hi. destruct (nth_error f i) as [x|] eqn:Ex; [|apply nth_error_None in Ex; lia].
  destruct f as [|h t]; [simpl in Hi; lia|]. set (f := h :: t) in *. exists x.
  assert (E : nth_error f ((i + 1) mod length f) = Some (match nth_error f (S i) with Some y => y | None => h end)).
  { destruct (Nat.eq_dec (S i) (length f)) as [E|E].
    - rewrite Nat.add_1_r, E, Nat.mod_same by lia. rewrite (proj2 (nth_error_None f (length f))) by lia. auto.
    - rewrite Nat.add_1_r, Nat.mod_small by lia. destruct (nth_error f (S i)) eqn:K; auto. apply nth_error_None in K. lia. }
  eexists. split; auto. split; [exact E|]. unfold darts_of. unfold f at 1. apply dart_list_nth. auto.
Qed.

Lemma follows_nth f u v : follows f u v <-> exists i, nth_error f i = Some u /\ nth_error f (S i) = Some v.
Proof.
  split.
  - intros (l1 & l2 & ->). exists (length l1). rewrite !nth_error_app2 by lia. rewrite Nat.sub_diag. replace (S (length l1) - length l1) with 1 by lia. auto.
  - intros (i & H1 & H2). apply nth_error_split in H1 as (l1 & l2 & -> & <-). rewrite nth_error_app2 in H2 by lia.
    replace (S (length l1) - length l1) with 1 in H2 by lia. destruct l2 as [|y l2]; [discriminate|]. injection H2 as <-. exists l1, l2. auto.
Qed.

Lemma cyc_nth f u v : cyc f u v <-> exists i, nth_error f i = Some u /\ nth_error f ((i + 1) mod length f) = Some v.
Proof.
  assert (G : forall (h : nat) t i, i < length (h :: t) -> nth_error ((h :: t) ++ [h]) (S i) = nth_error (h :: t) ((i + 1) mod length (h :: t))).
  { intros h t i Hi. rewrite Nat.add_1_r. destruct (Nat.eq_dec (S i) (length (h :: t))) as [E|E].
    - rewrite E, Nat.mod_same by (simpl; lia). rewrite nth_error_app2, Nat.sub_diag by lia. auto.
    - rewrite nth_error_app1, Nat.mod_small by lia. auto. }
  split.
  - intros (h & t & -> & K). apply follows_nth in K as (i & H1 & H2). exists i.
    assert (Hi : i < length (h :: t)).
    { assert (S i < length ((h :: t) ++ [h])) by (apply nth_error_Some; congruence). rewrite app_length in H. simpl in *. lia. }
    rewrite nth_error_app1 in H1 by auto. rewrite G in H2 by auto. auto.
  - intros (i & H1 & H2). assert (Hi : i < length f) by (apply nth_error_Some; congruence). destruct f as [|h t]; [simpl in Hi; lia|].
    exists h, t. split; auto. apply follows_nth. exists i. rewrite nth_error_app1 by auto. rewrite G by auto. auto.
Qed.

Section Ids.
Variable id : nat -> Z.

Lemma darts_cyc f u v : cyc f u v -> In (id u, id v) (darts_of (map id f)).
Proof.
  intros H. apply cyc_nth in H as (i & H1 & H2). assert (Hi : i < length f) by (apply nth_error_Some; congruence).
  destruct (@darts_nth (map id f) i) as (x & y & X & Y & D); [rewrite map_length; auto|]. rewrite map_length in Y.
  apply (map_nth_error id) in H1, H2. apply (nth_error_In _ i). congruence.
Qed.

Lemma darts_inv f a b : In (a, b) (darts_of (map id f)) -> exists u v, a = id u /\ b = id v /\ cyc f u v.
Proof.
  intros H. apply In_nth_error in H as (i & H). assert (Hi : i < length f).
  { assert (i < length (darts_of (map id f))) by (apply nth_error_Some; congruence). rewrite darts_length, map_length in H0. auto. }
  destruct (@darts_nth (map id f) i) as (x & y & X & Y & D); [rewrite map_length; auto|]. rewrite map_length in Y.
  rewrite nth_error_map in X, Y. destruct (nth_error f i) as [u|] eqn:Eu; [|discriminate]. 
  destruct (nth_error f ((i + 1) mod length f)) as [v|] eqn:Ev; [|discriminate]. exists u, v. simpl in X, Y.
  split; [congruence|]. split; [congruence|]. apply cyc_nth. eauto.
Qed.

Lemma ring_traced (nb : Z -> list Z) T f : ring T f -> (forall u v w, In v f -> T u v w -> rotation_succ (nb (id v)) (id u) (id w)) ->
  traced_face nb (darts_of (map id f)).
Proof.
  intros Hr HT. assert (L : 2 <= length f) by (destruct Hr as (a & b & r & -> & _); simpl; lia). split.
  - intros K. apply (f_equal (@length _)) in K. rewrite darts_length, map_length in K. simpl in K. lia.
  - intros i d Hd. assert (Hi : i < length f).
    { assert (i < length (darts_of (map id f))) by (apply nth_error_Some; congruence). rewrite darts_length, map_length in H. auto. }
    rewrite darts_length, map_length. set (m := length f) in *.
    assert (Hj : (i + 1) mod m < m) by (apply Nat.mod_upper_bound; lia).
    destruct (@darts_nth (map id f) i) as (x & y & X & Y & D); [rewrite map_length; auto|].
    destruct (@darts_nth (map id f) ((i + 1) mod m)) as (y' & z & Y' & Z & D'); [rewrite map_length; auto|].
    rewrite map_length in Y, Z. fold m in Y, Z. rewrite Nat.add_mod_idemp_l in Z by lia. replace (i + 1 + 1) with (i + 2) in Z by lia.
    rewrite nth_error_map in X, Y, Y', Z.
    destruct (nth_error f i) as [u|] eqn:Eu; [|discriminate]. destruct (nth_error f ((i + 1) mod m)) as [v|] eqn:Ev; [|discriminate].
    destruct (nth_error f ((i + 2) mod m)) as [w|] eqn:Ew; [|discriminate]. cbn [option_map] in X, Y, Y', Z.
    injection X as <-. injection Y as <-. injection Y' as <-. injection Z as <-.
    exists (id v, id w). split; auto. rewrite D in Hd. injection Hd as <-. cbn [fst snd]. split; auto.
    apply HT; [apply nth_error_In in Ev; auto|]. exact (ring_nth Hr Hi Eu Ev Ew).
Qed.
End Ids.

(** ** the face of a ring edge, starting with that edge *)
Fixpoint upto i (l : list nat) := match l with [] => [] | x :: t => if Nat.eqb x i then [] else x :: upto i t end.
Fixpoint onfrom i (l : list nat) := match l with [] => [] | x :: t => if Nat.eqb x i then l else onfrom i t end.
Definition face_of i (l : list nat) := onfrom i l ++ upto i l.

Lemma split_face l1 i l2 : ~ In i l1 -> upto i (l1 ++ i :: l2) = l1 /\ onfrom i (l1 ++ i :: l2) = i :: l2.
Proof.
  induction l1 as [|x l1 IH]; intros H; simpl.
  - rewrite Nat.eqb_refl. auto.
  - destruct (Nat.eqb_spec x i) as [->|Hx]; [exfalso; apply H; simpl; auto|]. destruct IH as [-> ->]; [intros K; apply H; simpl; auto|]. auto.
Qed.

Section Faces.
Variables (n M : nat) (wp wl A B U : nat -> nat) (F : nat -> list nat).
Hypothesis n3 : 3 <= n.
Hypothesis Ht : tree n M wp wl A B U F.
Variable id : nat -> Z.
Variable nr : Z.
Hypothesis id_inj : forall u v, u < M -> v < M -> id u = id v -> u = v.
Hypothesis id_low : forall v, v < n -> (id v < nr)%Z.
Hypothesis id_high : forall v, n <= v < M -> (nr <= id v)%Z.
Variable E : list dart.
Hypothesis HE : forall v b, v < M -> (has_edge_between E (id v) b <-> b = id (A v) \/ b = id (B v) \/ b = id (U v)).
Hypothesis HV : forall a b, has_edge_between E a b -> exists v, v < M /\ a = id v.
Hypothesis Hsimple : no_parallel_edges E.
Variable emb : gdict.
Hypothesis Hl : lists_neighbours E (neighbours emb).
Let nb := neighbours emb.
Hypothesis SA : forall v, v < M -> rotation_succ (nb (id v)) (id (A v)) (id (U v)).
Hypothesis SU : forall v, v < M -> rotation_succ (nb (id v)) (id (U v)) (id (B v)).
Hypothesis SB : forall v, v < M -> rotation_succ (nb (id v)) (id (B v)) (id (A v)).

Definition face i := face_of i (F i).

Lemma face_shape i : i < n -> exists l1 l2, F i = l1 ++ i :: S i mod n :: l2 /\ face i = i :: S i mod n :: l2 ++ l1 /\
  (forall x, In x (l2 ++ l1) -> n <= x < M) /\ l2 ++ l1 <> [] /\ NoDup (face i).
Proof.
  intros Hi. destruct (t_face Ht Hi) as (Hnd & Hlen & (l1 & l2 & E1 & Hx) & _). exists l1, l2. split; auto.
  assert (N : ~ In i l1). { intros K. assert (n <= i < M) by (apply Hx, in_app_iff; auto). lia. }
  destruct (@split_face l1 i (S i mod n :: l2) N) as [K1 K2]. unfold face, face_of. rewrite E1, K1, K2. split; auto. split; [|split].
  - intros x K. apply Hx. apply in_app_iff. apply in_app_iff in K. tauto.
  - intros K. apply app_eq_nil in K as [-> ->]. rewrite E1 in Hlen. simpl in Hlen. lia.
  - rewrite E1 in Hnd. eapply Permutation_NoDup; [|exact Hnd]. apply (Permutation_app_comm l1 (i :: S i mod n :: l2)).
Qed.

Lemma face_rot i : i < n -> exists a b, F i = a ++ b /\ face i = b ++ a.
Proof. intros Hi. destruct (face_shape Hi) as (l1 & l2 & -> & -> & _). exists l1, (i :: S i mod n :: l2). auto. Qed.

Lemma face_lt i x : i < n -> In x (face i) -> x < M.
Proof.
  intros Hi Hx. destruct (face_shape Hi) as (l1 & l2 & _ & E2 & Hn & _). rewrite E2 in Hx. pose proof (t_M Ht) as HM.
  pose proof (Nat.mod_upper_bound (S i) n). destruct Hx as [<-|[<-|Hx]]; [lia|lia|apply Hn in Hx; lia].
Qed.

Lemma face_ring i : i < n -> ring (turn3 n A B U) (face i).
Proof.
  intros Hi. destruct (t_face Ht Hi) as (_ & _ & _ & Hr). destruct (face_rot Hi) as (a & b & E1 & ->). apply ring_rot. rewrite <- E1. exact Hr.
Qed.

Lemma mod_neq i : i < n -> S i mod n <> i.
Proof. intros Hi K. destruct (Nat.eq_dec (S i) n) as [H|H]; [rewrite H, Nat.mod_same in K; lia|rewrite Nat.mod_small in K; lia]. Qed.

(** the only footprint edge of the face *)
Lemma face_foot i u v : i < n -> cyc (face i) u v -> u < n -> v < n -> u = i /\ v = S i mod n.
Proof.
  intros Hi (h & t & E1 & l1 & l2 & E2) Hu Hv. destruct (face_shape Hi) as (x1 & x2 & _ & E3 & Hn & Hne & Hnd).
  set (r := x2 ++ x1) in *. rewrite E3 in *. injection E1 as <- <-. set (j := S i mod n) in *. pose proof (mod_neq Hi) as Hij. fold j in Hij.
  assert (Hr : forall x, In x r -> x < n -> False) by (intros x Hx Hlt; apply Hn in Hx; lia).
  destruct l1 as [|y l1]; [injection E2 as <- <- _; auto|]. exfalso. injection E2 as <- E2. cbn [app] in E2. destruct l1 as [|y l1].
  - injection E2 as <- E2. destruct r as [|y r]; [congruence|]. injection E2 as <- _. apply (Hr y); simpl; auto.
  - injection E2 as <- E2. assert (Hu' : u = i \/ In u r).
    { assert (K : In u (r ++ [i])) by (rewrite E2; apply in_app_iff; simpl; auto). apply in_app_iff in K as [|[|[]]]; auto. }
    destruct Hu' as [->|K]; [|eapply Hr; eauto].
    assert (In i r \/ In v r \/ exists x, [i] = x :: v :: l2) as [K|[K|(x & K)]]; [| |eapply Hr; eauto|discriminate].
    { apply app_eq_app in E2 as (l & [[E4 E5]|[E4 E5]]).
      - destruct l as [|z l]; [simpl in E5; right; right; exists i; auto|]. left. rewrite E4. apply in_app_iff. simpl in E5. injection E5 as -> _. simpl; auto.
      - destruct l as [|z l]; [right; right; exists i; symmetry; auto|]. simpl in E5. injection E5 as _ E5. destruct l; discriminate. }
    eapply Hr; eauto.
Qed.

Lemma face_dart v i : i < n -> (follows (F i) v (U v) \/ wraps (F i) v (U v) -> cyc (face i) v (U v)) /\
  (follows (F i) (U v) v \/ wraps (F i) (U v) v -> cyc (face i) (U v) v).
Proof.
  intros Hi. destruct (face_rot Hi) as (a & b & E1 & ->). rewrite E1. split; intros [H|H]; apply cyc_rot; auto using cyc_follows, cyc_wraps.
Qed.

Lemma face_edges i a b : i < n -> In (a, b) (darts_of (map id (face i))) -> has_edge_between E a b.
Proof.
  intros Hi Hin. apply darts_inv in Hin as (u & v & -> & -> & Hc). pose proof (face_ring Hi) as Hr.
  apply cyc_nth in Hc as (k & K1 & K2). set (f := face i) in *. set (m := length f) in *.
  assert (Hk : k < m) by (apply nth_error_Some; congruence).
  destruct (nth_error f ((k + 2) mod m)) as [w|] eqn:Ew.
  2:{ apply nth_error_None in Ew. fold m in Ew. pose proof (Nat.mod_upper_bound (k + 2) m). lia. }
  pose proof (ring_nth Hr Hk K1 K2 Ew) as HT.
  assert (Hv : v < M) by (eapply face_lt; [exact Hi|]; eapply nth_error_In; exact K2).
  assert (G : has_edge_between E (id v) (id u)).
  { apply HE; auto. unfold turn3 in HT. destruct HT as [[-> _]|[[-> _]|(_ & -> & _)]]; auto. }
  destruct G as [G1 G2]. split; [auto|tauto].
Qed.

Lemma in_face_nodup i : i < n -> NoDup (map id (face i)).
Proof.
  intros Hi. destruct (face_shape Hi) as (l1 & l2 & _ & _ & _ & _ & Hnd).
  assert (G : forall l, (forall x, In x l -> x < M) -> NoDup l -> NoDup (map id l)).
  { induction l as [|x l IH]; intros Hx Hn; simpl; constructor; inversion Hn; subst.
    - intros K. apply in_map_iff in K as (y & E1 & Hy). apply id_inj in E1; [subst; auto|apply Hx; simpl; auto|apply Hx; simpl; auto].
    - apply IH; auto. intros y Hy. apply Hx. simpl; auto. }
  apply G; auto. intros x Hx. eapply face_lt; eauto.
Qed.

Lemma nodup_darts f : NoDup f -> NoDup (darts_of f).
Proof. intros H. apply (NoDup_map_inv fst). rewrite map_fst_darts. auto. Qed.

Lemma node_in_face i : i < n -> exists x, In x (face i) /\ n <= x < M.
Proof.
  intros Hi. destruct (face_shape Hi) as (l1 & l2 & _ & E2 & Hn & Hne & _). rewrite E2. destruct (l2 ++ l1) as [|x r]; [congruence|].
  exists x. split; [simpl; auto|]. apply Hn. simpl; auto.
Qed.

Definition roof_face i := map id (face i).

Theorem faces_result sw sch : exists r, graph_faces sch (build sw E) emb nr = Ok r /\ Permutation r (map roof_face (seq 0 n)).
Proof.
  destruct (@graph_faces_api sw E emb Hsimple Hl sch nr) as (r & Hr & Hf & Hnd & Hall). exists r. split; auto.
  assert (Hin : forall i, i < n -> In (roof_face i) r).
  { intros i Hi. unfold roof_face.
    destruct (Hall (darts_of (map id (face i)))) as (f & Hfin & Hrot).
    - apply ring_traced with (T := turn3 n A B U); [apply face_ring; auto|]. intros u v w Hv HT. assert (v < M) by (eapply face_lt; eauto).
      destruct HT as [[-> ->]|[[-> ->]|(_ & -> & ->)]]; [apply SA|apply SU|apply SB]; auto.
    - apply nodup_darts, in_face_nodup; auto.
    - intros a b. apply face_edges; auto.
    - rewrite map_fst_darts. destruct (node_in_face Hi) as (x & Hx & Hn). exists (id x). split; [apply in_map; auto|apply id_high; auto].
    - destruct (Hf f Hfin) as (_ & _ & _ & Hst).
      assert (D0 : exists t, darts_of (map id (face i)) = (id i, id (S i mod n)) :: t).
      { destruct (face_shape Hi) as (l1 & l2 & _ & E2 & _). rewrite E2. simpl. eauto. }
      destruct D0 as (t0 & D0). pose proof (Nat.mod_upper_bound (S i) n ltac:(lia)) as Hm.
      assert (S : starts_on_footprint nr f).
      { apply Hst. exists (id i, id (S i mod n)). split.
        - eapply Permutation_in; [apply rotation_of_perm; exact Hrot|]. rewrite D0. simpl; auto.
        - split; apply id_low; auto. }
      destruct S as ([a b] & t & Hd & F1 & F2). cbn [fst snd] in F1, F2.
      assert (Hab : In (a, b) (darts_of (map id (face i)))).
      { eapply Permutation_in; [apply Permutation_sym, rotation_of_perm; exact Hrot|]. rewrite Hd. simpl; auto. }
      destruct (darts_inv Hab) as (u & v & -> & -> & Hc). destruct (cyc_In Hc) as [Iu Iv].
      assert (Hlow : forall x, In x (face i) -> (id x < nr)%Z -> x < n).
      { intros x Hx Hlt. apply (face_lt Hi) in Hx. destruct (Nat.lt_ge_cases x n); auto. assert (nr <= id x)%Z by (apply id_high; auto). lia. }
      destruct (face_foot Hi Hc) as [-> ->]; auto.
      assert (Eq : darts_of f = darts_of (map id (face i))).
      { destruct Hrot as (l1 & l2 & R1 & R2). rewrite R2 in Hd.
        assert (ND : NoDup (l1 ++ l2)) by (rewrite <- R1; apply nodup_darts, in_face_nodup; auto).
        destruct l2 as [|d l2]; [rewrite R2, R1; simpl; rewrite app_nil_r; auto|]. injection Hd as -> _.
        destruct l1 as [|d1 l1]; [rewrite R2, R1, app_nil_r; auto|]. exfalso.
        rewrite D0 in R1. injection R1 as <- _. cbn [app] in ND. apply NoDup_cons_iff in ND as [K _]. apply K, in_app_iff. simpl; auto. }
      assert (f = map id (face i)) by (rewrite <- (map_fst_darts f), Eq, map_fst_darts; auto). subst f. auto. }
  assert (Hnn : forall f, In f r -> darts_of f <> []).
  { intros f Hfin. destruct (Hf f Hfin) as ((Hne & _) & _). exact Hne. }
  assert (Huniq : forall f g d, In f r -> In g r -> In d (darts_of f) -> In d (darts_of g) -> f = g).
  { clear - Hnd. induction r as [|h r IH]; intros f g d Hfr Hgr Hdf Hdg; [destruct Hfr|]. simpl in Hnd.
    assert (Hsep : forall k d, In k r -> In d (darts_of h) -> In d (darts_of k) -> False).
    { intros k d' Hk H1 H2. apply (NoDup_app_disj Hnd H1). apply in_concat. exists (darts_of k). split; auto. apply in_map; auto. }
    assert (Hnd' : NoDup (concat (map darts_of r))).
    { clear - Hnd. induction (darts_of h); simpl in *; auto. inversion Hnd; auto. }
    destruct Hfr as [<-|Hfr], Hgr as [<-|Hgr]; auto; [exfalso; eauto|exfalso; eauto|eapply IH; eauto]. }
  apply NoDup_Permutation.
  - clear - Hnd Hnn. induction r as [|h r IH]; [constructor|]. simpl in Hnd. constructor.
    + intros Hin. destruct (darts_of h) as [|d t] eqn:Ed; [apply (Hnn h (or_introl eq_refl)); auto|].
      apply (@NoDup_app_disj _ _ _ d Hnd); [simpl; auto|]. apply in_concat. exists (darts_of h). split; [apply in_map; auto|rewrite Ed; simpl; auto].
    + apply IH; [|intros f Hf; apply Hnn; right; auto]. clear - Hnd. induction (darts_of h); simpl in *; auto. inversion Hnd; auto.
  - assert (G : forall l, (forall x, In x l -> x < n) -> NoDup l -> NoDup (map roof_face l)).
    { induction l as [|x l IH]; intros Hx Hn; simpl; constructor; inversion Hn; subst.
      - intros K. apply in_map_iff in K as (y & E1 & Hy). assert (Lx : x < n) by (apply Hx; simpl; auto). assert (Ly : y < n) by (apply Hx; simpl; auto).
        unfold roof_face in E1. destruct (face_shape Lx) as (? & ? & _ & Ex & _). destruct (face_shape Ly) as (? & ? & _ & Ey & _).
        rewrite Ex, Ey in E1. simpl in E1. injection E1 as E1 _. pose proof (t_M Ht). apply id_inj in E1; [subst; auto|lia|lia].
      - apply IH; auto. intros y Hy. apply Hx. simpl; auto. }
    apply G; [|apply seq_NoDup]. intros x Hx. apply in_seq in Hx. lia.
  - intros f. split.
    + intros Hfin. destruct (Hf f Hfin) as (_ & (a & Ha & Han) & He & _).
      destruct (darts_of_from Ha) as (b & Hb). pose proof (He _ _ Hb) as Hab. destruct (HV Hab) as (v & Hv & ->).
      assert (Hvn : n <= v < M). { split; auto. destruct (Nat.lt_ge_cases v n) as [K|K]; auto. apply id_low in K. lia. }
      assert (G : exists i, i < n /\ In (id v, b) (darts_of (roof_face i))).
      { assert (Gd : forall w, w < M -> (exists i, i < n /\ In (id w, id (U w)) (darts_of (roof_face i))) /\
                                        exists i, i < n /\ In (id (U w), id w) (darts_of (roof_face i))).
        { intros w Hw. destruct (t_dart Ht Hw) as (i & j & Hi & Hj & D1 & D2). split; [exists i|exists j]; (split; [auto|]); apply darts_cyc.
          - apply (face_dart w Hi); auto.
          - apply (face_dart w Hj); auto. }
        destruct (t_node Ht Hvn) as (A1 & A2 & _ & U1 & U2 & _).
        apply HE in Hab; auto. destruct Hab as [->|[->| ->]].
        - destruct (Gd (A v)) as [_ K]; [lia|]. rewrite U1 in K. auto.
        - destruct (Gd (B v)) as [_ K]; [lia|]. rewrite U2 in K. auto.
        - destruct (Gd v Hv) as [K _]. auto. }
      destruct G as (i & Hi & Hd). assert (f = roof_face i) by (eapply Huniq; eauto). subst f. apply in_map. apply in_seq. lia.
    + intros K. apply in_map_iff in K as (i & <- & Hi). apply in_seq in Hi. apply Hin. lia.
Qed.
End Faces.
