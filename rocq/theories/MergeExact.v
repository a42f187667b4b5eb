(** * MergeExact: mergeNodeClusters when == on vectors and numbers is equality *)

From Coq Require Import Permutation.
From Verif Require Import Py PyFacts Arith Euclid Lav Cluster ClusterSpec GhostProofs MergeProofs.
Set Implicit Arguments.
Unset Strict Implicit.
Local Open Scope nat_scope.

Section Exact.
Context {A : arith}.
Notation num := (num A).
Notation vec := (vec A).
Notation subtree := (@subtree A).
Notation edge2 := (@edge2 A).
Implicit Types sk : list subtree.
Hypothesis EX : @exact_equality A.

Lemma in_veq (x : vec) l : py_in veq x l = true <-> In x l.
Proof. apply py_in_In. apply EX. Qed.

Lemma in_veq_false (x : vec) l : py_in veq x l = false <-> ~ In x l.
Proof. rewrite <- in_veq. destruct (py_in veq x l); split; congruence. Qed.

Lemma same_coords_eq (a b : vec) : same_coords a b = true <-> a = b.
Proof.
  unfold same_coords. rewrite andb_true_iff. destruct EX as [_ H]. rewrite !H.
  destruct a, b; simpl. split; [intros [-> ->]; auto|intros [= -> ->]; auto].
Qed.

Lemma same_coords_neq (a b : vec) : same_coords a b = false <-> a <> b.
Proof. rewrite <- same_coords_eq. destruct (same_coords a b); split; congruence. Qed.

Lemma vec_dec (a b : vec) : {a = b} + {a <> b}.
Proof. destruct (same_coords a b) eqn:E; [left; apply same_coords_eq|right; apply same_coords_neq]; auto. Qed.

(** ** nodes at identical positions *)
Lemma union_In (l q : list vec) x :
  In x (fold_left (fun l s => if py_in veq s l then l else l ++ [s]) q l) <-> In x l \/ In x q.
Proof.
  revert l. induction q as [|s q IH]; intros l; simpl; [tauto|]. rewrite IH.
  destruct (py_in veq s l) eqn:E.
  - apply in_veq in E. split; [tauto|]. intros [H|[<-|H]]; auto.
  - rewrite in_app_iff. simpl. tauto.
Qed.

(** the first node of sk at a position, and the nodes before it *)
Definition first_at sk (x : vec) (p : subtree) (before : list subtree) : Prop :=
  source p = x /\ (forall r, In r before -> source r <> x) /\ exists after, sk = before ++ p :: after.

Definition united_by sk acc : Prop :=
  (forall r, In r sk -> exists q, In q acc /\ source q = source r) /\
  (forall i q, nth_error acc i = Some q ->
     (exists p before, first_at sk (source q) p before /\ height p = height q /\
        (forall x, In x (map (@source A) (firstn i acc)) <-> In x (map (@source A) before))) /\
     (forall x, In x (sinks q) <-> exists r, In r sk /\ source r = source q /\ In x (sinks r))).

Lemma first_at_app sk sk2 x p b : first_at sk x p b -> first_at (sk ++ sk2) x p b.
Proof.
  intros (H1 & H2 & (af & ->)). split; auto. split; auto. exists (af ++ sk2). rewrite <- app_assoc. auto.
Qed.

Lemma nth_error_mid X (l1 l2 : list X) a b i : nth_error (l1 ++ a :: l2) i = Some b ->
  (i = length l1 /\ b = a) \/ (i <> length l1 /\ forall a', nth_error (l1 ++ a' :: l2) i = Some b).
Proof.
  intros H. destruct (Nat.lt_trichotomy i (length l1)) as [Hi|[Hi|Hi]].
  - right. split; [lia|]. intros a'. rewrite nth_error_app1 in * by lia. auto.
  - left. split; auto. subst. rewrite nth_error_app2, Nat.sub_diag in H by lia. simpl in H. congruence.
  - right. split; [lia|]. intros a'. rewrite nth_error_app2 in * by lia.
    destruct (i - length l1) eqn:E; [lia|]. auto.
Qed.

Lemma map_firstn X Y (f : X -> Y) i l : map f (firstn i l) = firstn i (map f l).
Proof. revert i. induction l as [|x l IH]; intros [|i]; simpl; auto. f_equal. auto. Qed.

Lemma united_add sk acc p : united_by sk acc -> ordered_apart acc -> united_by (sk ++ [p]) (add_node acc p).
Proof.
  intros (U1 & U2) Hap. destruct (add_node_shape acc p) as [(l1 & q & l2 & E & E1 & E2 & ->)|[E1 ->]].
  - apply same_coords_eq in E1. set (q' := with_sinks _ q). split.
    + intros r Hr. apply in_app_iff in Hr as [Hr|[<-|[]]].
      * destruct (U1 r Hr) as (x & Hx & K). rewrite E in Hx. apply in_app_iff in Hx as [Hx|[<-|Hx]].
        -- exists x. split; auto. apply in_app_iff; auto.
        -- exists q'. split; auto. apply in_app_iff; simpl; auto.
        -- exists x. split; auto. apply in_app_iff; simpl; auto.
      * exists q'. split; auto. apply in_app_iff; simpl; auto.
    + intros i x Hx.
      assert (Hsrc : forall i, map (@source A) (firstn i (l1 ++ q' :: l2)) = map (@source A) (firstn i acc)).
      { intros j. rewrite !map_firstn. f_equal. rewrite E, !map_app. reflexivity. }
      apply nth_error_mid in Hx as [[-> ->]|[Hi Hx]].
      * assert (Hq : nth_error acc (length l1) = Some q).
        { rewrite E, nth_error_app2, Nat.sub_diag by lia. auto. }
        destruct (U2 _ _ Hq) as ((p0 & b & F1 & F2 & F3) & F4). split.
        -- exists p0, b. split; [apply first_at_app; auto|]. split; auto. intros x. rewrite Hsrc. auto.
        -- intros x. simpl. rewrite union_In, F4. split.
           ++ intros [(r & Hr & K)|Hx]; [exists r; rewrite in_app_iff; auto|].
              exists p. rewrite in_app_iff. simpl. auto.
           ++ intros (r & Hr & K1 & K2). apply in_app_iff in Hr as [Hr|[<-|[]]]; auto. left. exists r; auto.
      * specialize (Hx q). rewrite <- E in Hx. destruct (U2 _ _ Hx) as ((p0 & b & F1 & F2 & F3) & F4). split.
        -- exists p0, b. split; [apply first_at_app; auto|]. split; auto. intros y. rewrite Hsrc. auto.
        -- assert (Hne : source x <> source p).
           { intros K. rewrite <- E1 in K.
             apply nth_error_split in Hx as (m1 & m2 & Em & Hm).
             assert (Hcmp : forall a, In a l2 -> source a <> source q).
             { intros a Ha Hs. apply in_split in Ha as (k1 & k2 & ->).
               assert (N : same_coords (source q) (source a) = false).
               { eapply Hap. rewrite E. reflexivity. }
               apply same_coords_neq in N. congruence. }
             assert (Hin : In x acc) by (rewrite Em; apply in_app_iff; simpl; auto).
             rewrite E in Hin. apply in_app_iff in Hin as [Hin|[Hin|Hin]].
             - specialize (E2 x Hin). apply same_coords_neq in E2. congruence.
             - subst x. (* q at another position *)
               assert (Hlt := Nat.lt_trichotomy i (length l1)). destruct Hlt as [Hlt|[Hlt|Hlt]]; try lia.
               + assert (In q l1). { eapply nth_error_In with (n := i). rewrite Em in E.
                   assert (Hn : nth_error (m1 ++ q :: m2) i = Some q) by (rewrite nth_error_app2, Hm, Nat.sub_diag by lia; auto).
                   rewrite E in Hn. rewrite nth_error_app1 in Hn by lia. exact Hn. }
                 specialize (E2 q H). apply same_coords_neq in E2. congruence.
               + assert (In q l2). { eapply nth_error_In with (n := i - S (length l1)). rewrite Em in E.
                   assert (Hn : nth_error (m1 ++ q :: m2) i = Some q) by (rewrite nth_error_app2, Hm, Nat.sub_diag by lia; auto).
                   rewrite E in Hn. rewrite nth_error_app2 in Hn by lia.
                   destruct (i - length l1) eqn:Ei; [lia|]. simpl in Hn. replace (i - S (length l1)) with n by lia. exact Hn. }
                 apply (Hcmp q H). auto.
             - apply (Hcmp x Hin). auto. }
           intros y. rewrite F4. split.
           ++ intros (r & Hr & K). exists r. rewrite in_app_iff; auto.
           ++ intros (r & Hr & K1 & K2). apply in_app_iff in Hr as [Hr|[<-|[]]]; [exists r; auto|]. congruence.
  - assert (Hn : forall q, In q acc -> source q <> source p) by (intros q Hq; apply same_coords_neq; auto).
    split.
    + intros r Hr. apply in_app_iff in Hr as [Hr|[<-|[]]].
      * destruct (U1 r Hr) as (x & Hx & K). exists x. rewrite in_app_iff. auto.
      * exists p. rewrite in_app_iff. simpl; auto.
    + intros i x Hx. destruct (Nat.lt_ge_cases i (length acc)) as [Hi|Hi].
      * rewrite nth_error_app1 in Hx by lia. destruct (U2 _ _ Hx) as ((p0 & b & F1 & F2 & F3) & F4). split.
        -- exists p0, b. split; [apply first_at_app; auto|]. split; auto. intros y.
           rewrite firstn_app. replace (i - length acc) with 0 by lia. simpl. rewrite app_nil_r. auto.
        -- intros y. rewrite F4. split.
           ++ intros (r & Hr & K). exists r. rewrite in_app_iff; auto.
           ++ intros (r & Hr & K1 & K2). apply in_app_iff in Hr as [Hr|[<-|[]]]; [exists r; auto|].
              exfalso. apply (Hn x); auto. eapply nth_error_In; eauto.
      * assert (Hi2 : i = length acc).
        { assert (i < length (acc ++ [p])) by (apply nth_error_Some; congruence). rewrite app_length in H. simpl in H. lia. }
        subst i. rewrite nth_error_app2, Nat.sub_diag in Hx by lia. injection Hx as <-.
        assert (Hsk : forall r, In r sk -> source r <> source p).
        { intros r Hr K. destruct (U1 r Hr) as (q & Hq & K2). apply (Hn q Hq). congruence. }
        split.
        -- exists p, sk. split; [split; auto; split; auto; exists []; auto|]. split; auto. intros y.
           rewrite firstn_app, Nat.sub_diag, firstn_all. simpl. rewrite app_nil_r. rewrite !in_map_iff. split.
           ++ intros (q & <- & Hq). apply In_nth_error in Hq as (j & Hj). destruct (U2 _ _ Hj) as ((p0 & b & (F1 & _ & (af & ->)) & _) & _).
              exists p0. split; auto. apply in_app_iff; simpl; auto.
           ++ intros (r & <- & Hr). destruct (U1 r Hr) as (q & Hq & K). exists q; auto.
        -- intros y. split.
           ++ intros Hy. exists p. rewrite in_app_iff. simpl; auto.
           ++ intros (r & Hr & K1 & K2). apply in_app_iff in Hr as [Hr|[<-|[]]]; auto. exfalso. apply (Hsk r); auto.
Qed.

Theorem merge_same_united sk : united_by sk (merge_same_sources sk).
Proof.
  induction sk as [|p sk IH] using rev_ind.
  - split; [intros r []|]. intros [|i] q H; discriminate.
  - replace (merge_same_sources (sk ++ [p])) with (add_node (merge_same_sources sk) p)
      by (unfold merge_same_sources; rewrite fold_left_app; reflexivity).
    apply united_add; auto. apply merge_same_apart.
Qed.

Lemma merge_same_distinct sk : NoDup (map (@source A) (merge_same_sources sk)).
Proof.
  pose proof (@merge_same_apart A sk) as H. induction (merge_same_sources sk) as [|q l IH]; simpl; constructor.
  - intros Hin. apply in_map_iff in Hin as (p & Hp & Hin). apply in_split in Hin as (l1 & l2 & ->).
    assert (N : same_coords (source q) (source p) = false) by (eapply (H []); reflexivity).
    apply same_coords_neq in N. congruence.
  - apply IH. intros l1 x l2 y l3 ->. eapply (H (q :: l1)). reflexivity.
Qed.

Lemma merge_same_closed pts sk : closed pts sk -> closed pts (merge_same_sources sk).
Proof.
  intros Hc q p Hq Hp. destruct (merge_same_united sk) as [U1 U2].
  apply In_nth_error in Hq as (i & Hi). destruct (U2 _ _ Hi) as (_ & H). apply H in Hp as (r & Hr & _ & Hp).
  destruct (Hc r p Hr Hp) as [K|(b & Hb & <-)]; auto.
Qed.

(** ** redirecting the sinks that lead into a cluster *)
Definition new_sinks_of (M : list vec) (n : vec) (l : list vec) : list vec :=
  map fst (filter snd (redirect M n [] l)).

Lemma redirect_has (M : list vec) n : ~ In n M -> forall post pre, In n (pre ++ post) ->
  map fst (filter snd (redirect M n pre post)) = filter (fun s => negb (py_in veq s M)) post.
Proof.
  intros HM. induction post as [|s t IH]; intros pre Hin; cbn [redirect]; auto. cbn [filter].
  destruct (py_in veq s M) eqn:Es; cbn [negb].
  - assert (Hn : py_in veq n (pre ++ s :: t) = true) by (apply in_veq; auto). rewrite Hn. cbn [filter snd].
    apply IH. rewrite <- app_assoc. auto.
  - cbn [filter snd map fst]. f_equal. apply IH. rewrite <- app_assoc. auto.
Qed.

Lemma filter_all X (p : X -> bool) l : (forall x, In x l -> p x = true) -> filter p l = l.
Proof. induction l as [|x t IH]; simpl; intros H; auto. rewrite H; auto. f_equal; auto. Qed.

Lemma redirect_not (M : list vec) n : ~ In n M -> forall post pre, ~ In n (pre ++ post) ->
  (forall s, In s post -> ~ In s M) /\ map fst (filter snd (redirect M n pre post)) = post \/
  exists a s b, post = a ++ s :: b /\ (forall x, In x a -> ~ In x M) /\ In s M /\
    map fst (filter snd (redirect M n pre post)) = a ++ n :: filter (fun s => negb (py_in veq s M)) b.
Proof.
  intros HM. induction post as [|s t IH]; intros pre Hn; cbn [redirect]; [left; split; auto; intros s []|].
  destruct (py_in veq s M) eqn:Es.
  - assert (Hf : py_in veq n (pre ++ s :: t) = false) by (apply in_veq_false; auto). rewrite Hf.
    right. exists [], s, t. split; auto. split; [intros x []|]. split; [apply in_veq; auto|].
    cbn [filter snd map fst]. simpl. f_equal. apply redirect_has; auto.
    rewrite <- app_assoc. apply in_app_iff. simpl; auto.
  - apply in_veq_false in Es. cbn [filter snd map fst]. destruct (IH (pre ++ [s])) as [[H1 H2]|(a & x & b & -> & H1 & H2 & H3)].
    + rewrite <- app_assoc. auto.
    + left. split; [intros x [<-|Hx]; auto|]. f_equal. auto.
    + right. exists (s :: a), x, b. split; auto. split; [intros y [<-|Hy]; auto|]. split; auto.
      simpl. f_equal. auto.
Qed.

Definition vcount (x : vec) (l : list vec) : nat := length (filter (fun y => if vec_dec y x then true else false) l).

Lemma vcount_0 x l : ~ In x l -> vcount x l = 0.
Proof.
  unfold vcount. induction l as [|y t IH]; simpl; intros H; auto.
  destruct (vec_dec y x) as [->|N]; [tauto|]. auto.
Qed.

Lemma vcount_app x a b : vcount x (a ++ b) = vcount x a + vcount x b.
Proof. unfold vcount. rewrite filter_app, app_length. auto. Qed.

Lemma vcount_keep x (M : list vec) l : ~ In x M -> vcount x (filter (fun s => negb (py_in veq s M)) l) = vcount x l.
Proof.
  intros H. unfold vcount. induction l as [|y t IH]; simpl; auto.
  destruct (py_in veq y M) eqn:E; simpl.
  - destruct (vec_dec y x) as [->|N]; auto. apply in_veq in E. tauto.
  - destruct (vec_dec y x); simpl; auto.
Qed.

(** sinks that lead elsewhere are kept in order, those leading into M become one link to n *)
Definition redirected_by (M : list vec) n (l l' : list vec) : Prop :=
  (forall s, In s l' -> ~ In s M) /\
  ((forall s, In s l -> ~ In s M) -> l' = l) /\
  ((exists s, In s l /\ In s M) -> In n l' /\ (vcount n l = 0 -> vcount n l' = 1) /\ (In n l -> vcount n l' = vcount n l)) /\
  filter (fun s => if vec_dec s n then false else true) l' =
  filter (fun s => (if vec_dec s n then false else true) && negb (py_in veq s M)) l.

Lemma filter_filter X (p q : X -> bool) l : filter p (filter q l) = filter (fun x => p x && q x) l.
Proof.
  induction l as [|x t IH]; simpl; auto. destruct (q x); simpl.
  - rewrite andb_true_r. destruct (p x); rewrite IH; auto.
  - rewrite andb_false_r. auto.
Qed.

Lemma redirect_spec M n l : ~ In n M -> redirected_by M n l (new_sinks_of M n l).
Proof.
  intros HM. unfold new_sinks_of. destruct (in_dec vec_dec n l) as [Hin|Hin].
  - rewrite (redirect_has HM) by auto. split; [|split; [|split]].
    + intros s Hs. apply filter_In in Hs as [_ Hs]. apply in_veq_false. destruct (py_in veq s M); auto; discriminate.
    + intros H. apply filter_all. intros x Hx. apply H in Hx. apply in_veq_false in Hx. rewrite Hx. auto.
    + intros _. split; [apply filter_In; split; auto; apply in_veq_false in HM; rewrite HM; auto|]. split.
      * intros H0. rewrite vcount_keep by auto. apply in_split in Hin as (a & b & ->). rewrite vcount_app in H0.
        unfold vcount at 2 in H0. simpl in H0. destruct (vec_dec n n); [|congruence]. simpl in H0. lia.
      * intros _. apply vcount_keep; auto.
    + rewrite filter_filter. auto.
  - destruct (redirect_not HM (post := l) (pre := []) Hin) as [[H1 H2]|(a & s & b & -> & H1 & H2 & H3)].
    + rewrite H2. split; auto. split; auto. split.
      * intros (s & Hs & Hs2). exfalso. eapply H1; eauto.
      * apply filter_ext_in. intros x Hx. apply H1 in Hx. apply in_veq_false in Hx. rewrite Hx. simpl. rewrite andb_true_r. auto.
    + rewrite H3. rewrite in_app_iff in Hin. simpl in Hin. split; [|split; [|split]].
      * intros x Hx. apply in_app_iff in Hx as [Hx|[<-|Hx]]; auto. apply filter_In in Hx as [_ Hx].
        apply in_veq_false. destruct (py_in veq x M); auto; discriminate.
      * intros H. exfalso. apply (H s); auto. apply in_app_iff; simpl; auto.
      * intros _. split; [apply in_app_iff; simpl; auto|]. split.
        -- intros _. rewrite vcount_app. rewrite (vcount_0 (l := a)) by tauto. simpl. unfold vcount. simpl.
           destruct (vec_dec n n); [|congruence]. simpl. f_equal. apply (vcount_0 (x := n)).
           rewrite filter_In. tauto.
        -- rewrite in_app_iff. simpl. tauto.
      * rewrite !filter_app. simpl. destruct (vec_dec n n); [|congruence].
        apply in_veq in H2. rewrite H2. rewrite andb_false_r. rewrite filter_filter. f_equal.
        apply filter_ext_in. intros x Hx. apply H1 in Hx. apply in_veq_false in Hx. rewrite Hx. simpl. rewrite andb_true_r. auto.
Qed.

(** in general (also if n is one of M): nothing new but n *)
Lemma redirect_In (M : list vec) n post : forall pre x, In x (map fst (filter snd (redirect M n pre post))) ->
  x = n \/ (In x post /\ ~ In x M).
Proof.
  induction post as [|s t IH]; intros pre x; cbn [redirect]; [intros []|].
  destruct (py_in veq s M) eqn:Es.
  - destruct (py_in veq n (pre ++ s :: t)); cbn [filter snd map fst].
    + intros H. apply IH in H as [H|[H1 H2]]; simpl; auto.
    + intros [<-|H]; auto. apply IH in H as [H|[H1 H2]]; simpl; auto.
  - apply in_veq_false in Es. cbn [filter snd map fst]. intros [<-|H]; simpl; auto.
    apply IH in H as [H|[H1 H2]]; auto.
Qed.

(** ** the sinks of the new node *)
Lemma collect_In (M acc l : list vec) : NoDup acc -> NoDup (collect_sinks M acc l) /\
  forall x, In x (collect_sinks M acc l) <-> In x acc \/ (In x l /\ ~ In x M).
Proof.
  unfold collect_sinks. revert acc. induction l as [|s t IH]; intros acc Hnd; cbn [fold_left]; [split; auto; simpl; tauto|].
  destruct (py_in veq s M || py_in veq s acc) eqn:E.
  - destruct (IH acc Hnd) as [I1 I2]. split; auto. intros x. rewrite I2. simpl. split; [tauto|].
    intros [H|[[<-|H] H2]]; auto. apply orb_true_iff in E as [E|E]; apply in_veq in E; auto. tauto.
  - apply orb_false_iff in E as [E1 E2]. apply in_veq_false in E1, E2. destruct (IH (acc ++ [s])) as [I1 I2].
    + apply NoDup_app_iff. split; auto. split; [repeat constructor; auto|]. intros x Hx [<-|[]]. auto.
    + split; auto. intros x. rewrite I2, in_app_iff. simpl. split; [|tauto].
      intros [[H|[<-|[]]]|[H1 H2]]; auto.
Qed.

Lemma collect_all_In M (nodes : list subtree) : forall acc, NoDup acc ->
  let r := fold_left (fun acc a => collect_sinks M acc (sinks a)) nodes acc in
  NoDup r /\ forall x, In x r <-> In x acc \/ (exists a, In a nodes /\ In x (sinks a)) /\ ~ In x M.
Proof.
  induction nodes as [|a t IH]; intros acc Hnd; cbn [fold_left]; cbv zeta.
  - split; auto. intros x. split; auto. intros [H|[(a & [] & _) _]]. auto.
  - destruct (collect_In M (sinks a) Hnd) as [C1 C2]. destruct (IH _ C1) as [I1 I2]. split; auto.
    intros x. rewrite I2, C2. split.
    + intros [[H|[H1 H2]]|[(b & Hb & Hx) H2]]; auto; right; split; auto; [exists a|exists b]; simpl; auto.
    + intros [H|[(b & [<-|Hb] & Hx) H2]]; auto. right. split; auto. exists b; auto.
Qed.

(** ** the structure of a merge *)
Definition members sk (cluster : list nat) : list subtree := map (get_arc sk) cluster.

Lemma get_arc_nth sk i : i < length sk -> nth_error sk i = Some (get_arc sk i).
Proof. intros H. unfold get_arc. apply nth_error_nth'. auto. Qed.

(** sources of a cluster are not shared with nodes outside *)
Definition separate sk (cluster : list nat) : Prop :=
  forall a b, In a (outside sk cluster) -> In b (members sk cluster) -> source a <> source b.

Lemma mergeCluster_closed pts sk cluster sk' : mergeCluster sk cluster = Ok sk' ->
  (forall i, In i cluster -> i < length sk) -> separate sk cluster ->
  closed pts sk -> closed pts sk'.
Proof.
  intros H Hr Hsep Hc. apply mergeCluster_shape in H as (cx & cy & ch & _ & _ & _ & ->). fold (members sk cluster).
  set (M := map (@source A) (members sk cluster)). set (n := mkvec cx cy).
  destruct (@collect_all_In M (members sk cluster) [] (NoDup_nil _)) as [_ Hs].
  set (new := Subtree n ch _).
  assert (Hnode : forall p, (In p pts \/ exists b, In b sk /\ source b = p) -> ~ In p M ->
     In p pts \/ exists b, In b (map (redirect_arc M n) (outside sk cluster) ++ [new]) /\ source b = p).
  { intros p [Hp|(b & Hb & <-)] HM; auto. right. exists (redirect_arc M n b). split.
    - apply in_app_iff. left. apply in_map. apply outside_In. apply In_nth_error in Hb as (i & Hi). exists i. split; auto.
      intros Hin. apply HM. unfold M, members. rewrite map_map. apply in_map_iff. exists i. split; auto.
      rewrite (get_arc_nth (Hr i Hin)) in Hi. congruence.
    - unfold redirect_arc. destruct (py_in _ _ _); auto. }
  intros a p Ha Hp. apply in_app_iff in Ha as [Ha|[<-|[]]].
  - apply in_map_iff in Ha as (b & <- & Hb). unfold redirect_arc in Hp.
    assert (HbM : py_in veq (source b) M = false).
    { apply in_veq_false. intros K. apply in_map_iff in K as (c & K1 & K2). apply (Hsep b c Hb K2). auto. }
    rewrite HbM in Hp. cbn [sinks with_sinks] in Hp. apply redirect_In in Hp as [->|[H1 H2]].
    + right. exists new. split; [apply in_app_iff; simpl; auto|auto].
    + apply Hnode; auto. apply outside_In in Hb as (i & Hi & _). apply nth_error_In in Hi. eapply Hc; eauto.
  - unfold new in Hp. cbn [sinks] in Hp. apply Hs in Hp as [[]|[(b & Hb & Hx) H2]]. apply Hnode; auto.
    unfold members in Hb. apply in_map_iff in Hb as (i & <- & Hi). eapply Hc; eauto.
    eapply nth_error_In. apply get_arc_nth. auto.
Qed.

Lemma mergeCluster_spec sk cluster sk' : mergeCluster sk cluster = Ok sk' -> separate sk cluster ->
  exists cx cy ch rest new,
    sk' = rest ++ [new] /\
    pdiv (fold_left (fun a n => nadd a (vx (source n))) (members sk cluster) zeroN) (nofZ (Z.of_nat (length cluster))) = Ok cx /\
    pdiv (fold_left (fun a n => nadd a (vy (source n))) (members sk cluster) zeroN) (nofZ (Z.of_nat (length cluster))) = Ok cy /\
    pdiv (fold_left (fun a n => nadd a (height n)) (members sk cluster) zeroN) (nofZ (Z.of_nat (length cluster))) = Ok ch /\
    source new = mkvec cx cy /\ height new = ch /\ NoDup (sinks new) /\
    (forall x, In x (sinks new) <-> (exists a, In a (members sk cluster) /\ In x (sinks a)) /\
                                  ~ In x (map (@source A) (members sk cluster))) /\
    Forall2 (fun a a' => source a' = source a /\ height a' = height a /\
               (~ In (source new) (map (@source A) (members sk cluster)) ->
                redirected_by (map (@source A) (members sk cluster)) (source new) (sinks a) (sinks a')))
            (outside sk cluster) rest.
Proof.
  intros H Hsep. apply mergeCluster_shape in H as (cx & cy & ch & H1 & H2 & H3 & ->). fold (members sk cluster).
  set (M := map (@source A) (members sk cluster)).
  destruct (@collect_all_In M (members sk cluster) [] (NoDup_nil _)) as [Hnd Hs].
  eexists cx, cy, ch, _, _. split; [reflexivity|]. split; auto. split; auto. split; auto.
  split; [reflexivity|]. split; [reflexivity|]. split; [exact Hnd|]. split.
  - intros x. cbn [sinks]. rewrite Hs. simpl. tauto.
  - cbn [source]. assert (G : forall l, incl l (outside sk cluster) ->
      Forall2 (fun a a' => source a' = source a /\ height a' = height a /\
               (~ In (mkvec cx cy) M -> redirected_by M (mkvec cx cy) (sinks a) (sinks a'))) l
              (map (redirect_arc M (mkvec cx cy)) l)).
    { induction l as [|a l IH]; intros Hl; simpl; constructor.
      - unfold redirect_arc.
        assert (HbM : py_in veq (source a) M = false).
        { apply in_veq_false. intros K. apply in_map_iff in K as (c & K1 & K2). apply (Hsep a c); auto. apply Hl; simpl; auto. }
        rewrite HbM. split; auto. split; auto. intros Hn. apply redirect_spec. auto.
      - apply IH. intros x Hx. apply Hl. simpl; auto. }
    apply G. apply incl_refl.
Qed.

(** ** in the words of ClusterSpec *)
Lemma occurs_vcount x l : occurs x l (vcount x l).
Proof.
  unfold vcount. induction l as [|y t IH]; simpl; [constructor|].
  destruct (vec_dec y x) as [->|N]; simpl; constructor; auto.
Qed.

Lemma without_filter (P : vec -> Prop) (b : vec -> bool) l : (forall x, b x = true <-> ~ P x) ->
  (forall x, b x = false <-> P x) -> without P l (filter b l).
Proof.
  intros H1 H2. induction l as [|x t IH]; simpl; [constructor|].
  destruct (b x) eqn:E; constructor; auto; [apply H1|apply H2]; auto.
Qed.

Lemma redirected_ok M n l l' : redirected_by M n l l' -> redirected M n l l'.
Proof.
  intros (H1 & H2 & H3 & H4). split; auto. split; auto. split.
  - intros H. destruct (H3 H) as (K1 & K2 & K3). split; auto. intros K. rewrite <- K2 by (apply vcount_0; auto).
    apply occurs_vcount.
  - eexists. split.
    + apply (without_filter (b := fun s => if vec_dec s n then false else true)); intros x; destruct (vec_dec x n); intuition congruence.
    + rewrite H4. apply without_filter; intros x; destruct (vec_dec x n); simpl.
      * split; [discriminate|tauto].
      * rewrite negb_true_iff, in_veq_false. tauto.
      * tauto.
      * rewrite negb_false_iff, in_veq. tauto.
Qed.

Lemma united_ok sk : united sk (merge_same_sources sk).
Proof.
  destruct (merge_same_united sk) as [U1 U2]. split; [apply merge_same_distinct|]. split; auto.
  intros i q Hq. destruct (U2 i q Hq) as ((p & b & (F1 & F2 & (af & F3)) & F4 & F5) & F6).
  exists b, p, af. repeat split; auto; try apply F5; try apply F6.
Qed.

Lemma sorted_filter_seq (p : nat -> bool) n : forall k, Sorted.StronglySorted lt (filter p (seq k n)).
Proof.
  induction n as [|n IH]; intros k; simpl; [constructor|]. destruct (p k); auto. constructor; auto.
  apply Forall_forall. intros x Hx. apply filter_In in Hx as [Hx _]. apply in_seq in Hx. lia.
Qed.

Lemma outside_rest sk cluster : rest_of sk cluster (outside sk cluster).
Proof.
  exists (filter (fun i => negb (existsb (Nat.eqb i) cluster)) (seq 0 (length sk))). split; [apply sorted_filter_seq|]. split.
  - intros i. rewrite filter_In, in_seq, negb_true_iff. split.
    + intros [H1 H2]. split; [lia|]. intros K. apply existsb_eqb_In in K. congruence.
    + intros [H1 H2]. split; [lia|]. destruct (existsb (Nat.eqb i) cluster) eqn:E; auto. apply existsb_eqb_In in E. tauto.
  - unfold outside. rewrite <- (map_fst_enumerate sk).
    assert (G : forall l, incl l (enumerate sk) -> Forall2 (fun i a => nth_error sk i = Some a)
      (filter (fun i => negb (existsb (Nat.eqb i) cluster)) (map fst l))
      (map snd (filter (fun ia => negb (existsb (Nat.eqb (fst ia)) cluster)) l))).
    { induction l as [|[i a] l IH]; intros Hl; simpl; [constructor|].
      assert (IH' := IH (fun x Hx => Hl x (or_intror Hx))).
      destruct (existsb (Nat.eqb i) cluster); simpl; auto. constructor; auto.
      apply In_enumerate. apply Hl. simpl; auto. }
    apply G. apply incl_refl.
Qed.

Lemma members_Forall2 sk cluster nodes : Forall2 (fun i a => nth_error sk i = Some a) cluster nodes ->
  members sk cluster = nodes.
Proof.
  induction 1 as [|i a c n H1 H2 IH]; simpl; auto. f_equal; auto. unfold get_arc. apply nth_error_nth. auto.
Qed.

(** ** clusters are separate if near is reflexive *)
Hypothesis near_refl : forall a : vec, nltb (manhattan a a) smallThresh = true.

Lemma cluster_loop_separate n fuel : forall sk cv ap cands, NoDup cands ->
  (forall i, In i cands -> i < n) ->
  (forall i j, In i cands -> j < n -> source (get_arc sk i) = source (get_arc sk j) -> In j cands) ->
  forall c, In c (cluster_loop fuel sk cv ap smallThresh cands) ->
  forall i j, In i c -> j < n -> source (get_arc sk i) = source (get_arc sk j) -> In j c.
Proof.
  induction fuel as [|f IH]; intros sk cv ap [|c0 rest] Hnd Hr Hcl c Hc; cbn [cluster_loop] in Hc; try destruct Hc.
  cbv zeta in Hc.
  set (cl := c0 :: filter (fun c => nltb (manhattan (source (get_arc sk c0)) (source (get_arc sk c))) smallThresh) rest) in *.
  set (cands' := filter (fun c => negb (existsb (Nat.eqb c) cl)) (c0 :: rest)) in *.
  assert (Hcl' : forall i j, In i cl -> j < n -> source (get_arc sk i) = source (get_arc sk j) -> In j cl).
  { intros i j Hi Hj Hs.
    assert (Hic : In i (c0 :: rest)). { destruct Hi as [<-|Hi]; simpl; auto. apply filter_In in Hi. tauto. }
    destruct (Hcl i j Hic Hj Hs) as [<-|Hjr]; [simpl; auto|]. right. apply filter_In. split; auto.
    rewrite <- Hs. destruct Hi as [<-|Hi]; [apply near_refl|]. apply filter_In in Hi. tauto. }
  assert (G : In c (cluster_loop f sk cv ap smallThresh cands') ->
              forall i j, In i c -> j < n -> source (get_arc sk i) = source (get_arc sk j) -> In j c).
  { intros H. eapply IH; [| | |exact H].
    - apply NoDup_filter. auto.
    - intros i Hi. apply filter_In in Hi as [Hi _]. auto.
    - intros i j Hi Hj Hs. apply filter_In in Hi as [Hi1 Hi2]. apply filter_In. split; [apply (Hcl i j); auto|].
      apply negb_true_iff. destruct (existsb (Nat.eqb j) cl) eqn:E; auto. apply existsb_eqb_In in E.
      apply negb_true_iff in Hi2. exfalso. assert (K : In i cl) by (apply (Hcl' j i); auto; apply Hr; auto).
      apply existsb_eqb_In in K. congruence. }
  destruct (accept_cluster _ _ _ _ cl); [|exact (G Hc)]. destruct Hc as [<-|Hc]; [exact Hcl'|exact (G Hc)].
Qed.

Lemma findClusters_separate sk cv ec cs c : findClusters sk (seq 0 (length sk)) cv ec smallThresh = Ok cs -> In c cs ->
  separate sk c.
Proof.
  intros H Hc. pose proof (findClusters_good H Hc) as (_ & _ & Hr). unfold findClusters in H.
  destruct (py_get ec 0) as [o|]; [|discriminate]. cbn [bind] in H.
  destruct (detectApses o) as [ap|]; [|discriminate]. cbn [bind] in H. apply Ok_inj in H. subst cs.
  intros a b Ha Hb Hs. apply outside_In in Ha as (j & Hj & Hn). apply Hn.
  unfold members in Hb. apply in_map_iff in Hb as (i & <- & Hi).
  assert (Hjl : j < length sk) by (apply nth_error_Some; congruence).
  eapply (cluster_loop_separate (n := length sk)); [| | |exact Hc|exact Hi|exact Hjl|].
  - apply seq_NoDup.
  - intros k Hk. apply in_seq in Hk. lia.
  - intros k l _ Hl _. apply in_seq. lia.
  - rewrite (get_arc_nth Hjl) in Hj. congruence.
Qed.

Lemma mergeNodeClusters_closed pts sk ec sk' : mergeNodeClusters sk ec = Ok sk' -> closed pts sk -> closed pts sk'.
Proof.
  unfold mergeNodeClusters. intros H Hc. set (sk1 := merge_same_sources sk) in *.
  pose proof (@merge_loop_facts A (S (length sk1)) sk1 (map (@ep1 A) (concat ec)) ec (Nat.lt_succ_diag_r _)) as F.
  rewrite H in F. destruct F as ((n & Hm & _) & _). eapply (merges_invariant (P := closed pts)); [|exact Hm|].
  - intros s c cs s1 HP Hf Hin He. eapply mergeCluster_closed; eauto.
    + apply (findClusters_good Hf Hin).
    + eapply findClusters_separate; eauto.
  - apply merge_same_closed; auto.
Qed.

Theorem skeletonize_closed (raw : list subtree) contours pts sk1 sk' :
  mergeNodeClusters raw contours = Ok sk1 -> removeGhosts sk1 = Ok sk' -> closed pts raw -> closed pts sk'.
Proof.
  intros H1 H2 Hc. apply (mergeNodeClusters_closed H1) in Hc. pose proof (removeGhosts_facts sk1) as F. rewrite H2 in F.
  destruct F as (F1 & _ & F3). intros a p Ha Hp. destruct (F3 p) as (b & Hb & Hpb); [exists a; auto|].
  destruct (Hc b p Hb Hpb) as [K|(c & K1 & <-)]; auto. right.
  assert (Hin : In (source c) (map (@source A) sk')) by (rewrite F1; apply in_map; auto).
  apply in_map_iff in Hin as (d & Hd & Hd2). exists d; auto.
Qed.

End Exact.
