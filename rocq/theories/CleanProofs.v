(** * CleanProofs: the clean-up of faces takes away exactly the flat nodes, and leaves no gap *)

From Coq Require Import ZArith List Lia Permutation Bool.
From Verif Require Import Py PyFacts Arith Euclid Lav Graph GraphSpec GraphProofs Poly PolySpec PolyProofs BorderSpec BorderProofs CleanSpec EdgeIds SpikeEnd.
Set Implicit Arguments.
Unset Strict Implicit.
Local Open Scope nat_scope.

(** ** which corners a face loses *)
Section Exact.
Context {A : arith}.
Variable verts : list (vec3 A).
Variable nr : Z.
Variable counts : Z -> nat.

Definition to_drop (p t n : Z) : Prop := (nr <= t)%Z /\ counts t < 3 /\ flat verts p t n.

Lemma parallel_at_exact acc p t n acc' : parallel_at verts counts nr acc (p, t, n) = Ok acc' -> ~ In t acc ->
  to_drop p t n /\ acc' = acc ++ [t] \/ ~ to_drop p t n /\ acc' = acc.
Proof.
  unfold parallel_at, to_drop. intros H Hn. destruct (Nat.ltb_spec (counts t) 3) as [L|L]; cbn [andb] in H; [|right; apply Ok_inj in H; split; [lia|auto]].
  destruct (Z.leb_spec nr t) as [Lz|Lz]; [|right; apply Ok_inj in H; split; [lia|auto]].
  apply bind_ok in H as (vt & Ht & H). apply bind_ok in H as (vp & Hp & H). apply bind_ok in H as (vn & Hv & H). cbv zeta in H.
  destruct (ntruth _ && ntruth _) eqn:E.
  - apply bind_ok in H as (c & Hc & H). apply Ok_inj in H. apply andb_prop in E as [E1 E2]. unfold oneN, PARALLEL in H.
    destruct (nltb _ _) eqn:K; [left|right]; split; auto.
    + split; auto. split; auto. exists vp, vt, vn. split; auto. split; auto. split; auto. cbv zeta. intros _ _. exists c. auto.
    + intros (_ & _ & vp' & vt' & vn' & Hp' & Ht' & Hv' & F). rewrite Hp in Hp'. rewrite Ht in Ht'. rewrite Hv in Hv'.
      apply Ok_inj in Hp', Ht', Hv'. subst vp' vt' vn'. destruct (F E1 E2) as (c' & Hc' & K'). rewrite Hc in Hc'. apply Ok_inj in Hc'. subst c'. congruence.
  - left. apply Ok_inj in H. assert (N : py_in Z.eqb t acc = false).
    { destruct (py_in Z.eqb t acc) eqn:I; auto. exfalso. apply Hn. unfold py_in in I. apply existsb_exists in I as (y & Hy & E'). apply Z.eqb_eq in E'. subst. auto. }
    rewrite N in H. subst acc'. split; auto. split; auto. split; auto. exists vp, vt, vn. split; auto. split; auto. split; auto.
    cbv zeta. intros E1 E2. rewrite E1, E2 in E. discriminate.
Qed.

Lemma parallel_scan_exact : forall l acc rm, parallel_scan verts counts nr acc l = Ok rm ->
  NoDup (acc ++ map (fun p => snd (fst p)) l) ->
  forall t, In t rm <-> In t acc \/ exists p n, In (p, t, n) l /\ to_drop p t n.
Proof.
  induction l as [|[[p t] n] l IH]; intros acc rm H Hd s; cbn [parallel_scan map fst snd] in *.
  - apply Ok_inj in H. subst. split; auto. intros [K|(p & n & [] & _)]; auto.
  - apply bind_ok in H as (acc' & Ha & H). apply parallel_at_exact in Ha; [|intros K; apply NoDup_remove_2 in Hd; apply Hd; apply in_app_iff; auto].
    destruct Ha as [[D ->]|[D ->]].
    + rewrite (IH _ _ H) by (rewrite <- app_assoc; auto). rewrite in_app_iff. cbn [In]. split.
      * intros [[K|[<-|[]]]|(p' & n' & K1 & K2)]; eauto; right; [exists p, n|exists p', n']; auto.
      * intros [K|(p' & n' & [K|K] & K2)]; auto; [injection K as <- <- <-; auto|right; eauto].
    + rewrite (IH _ _ H) by (apply NoDup_remove_1 in Hd; auto). cbn [In]. split.
      * intros [K|(p' & n' & K1 & K2)]; auto. right. exists p', n'. auto.
      * intros [K|(p' & n' & [K|K] & K2)]; auto; [injection K as <- <- <-; tauto|right; eauto].
Qed.

Lemma parallel_scan_nodup l rm : parallel_scan verts counts nr [] l = Ok rm -> NoDup (map (fun p => snd (fst p)) l) -> NoDup rm.
Proof.
  intros H Hd. apply parallel_scan_ok in H as (ext & -> & Hs & _). cbn [app]. eapply NoDup_subsequence; eauto.
Qed.

Lemma remove_all_in xs : forall l l', py_remove_all Z.eqb xs l = Ok l' -> NoDup l -> forall v, In v l' <-> In v l /\ ~ In v xs.
Proof.
  intros l l' H Hd v. pose proof (py_remove_all_perm _ _ H) as P. pose proof (Permutation_NoDup P Hd) as N. rewrite (Permutation_in' (eq_refl v) P), in_app_iff. split.
  - intros K. split; auto. intros K'. apply in_split in K' as (a & b & ->). rewrite <- app_assoc in N. cbn [app] in N. apply NoDup_remove_2 in N. apply N. rewrite !in_app_iff. auto.
  - tauto.
Qed.

Lemma fix_parallel_exact f f' : fix_parallel verts counts nr f = Ok f' -> NoDup f ->
  subsequence f' f /\ forall t, In t f -> In t f' /\ ~ (3 < length f /\ exists p n, consecutive f p t n /\ to_drop p t n) \/
                                       ~ In t f' /\ 3 < length f /\ exists p n, consecutive f p t n /\ to_drop p t n.
Proof.
  intros H Hd. split; [eapply fix_parallel_ok; eauto|]. intros t Ht. unfold fix_parallel in H. destruct (Nat.ltb_spec 3 (length f)) as [L|L].
  - apply bind_ok in H as (ptn & Hptn & H). apply bind_ok in H as (rm & Hrm & H). pose proof (remove_all_in H Hd t) as R.
    pose proof (parallel_scan_exact Hrm) as S. rewrite (circ_ptn_this _ Hptn) in S. specialize (S Hd t). cbn [In] in S.
    destruct (in_dec Z.eq_dec t rm) as [K|K].
    + right. split; [tauto|]. split; auto. apply S in K as [[]|(p & n & Hi & D)]. exists p, n. split; auto. eapply corner_consecutive; eauto. lia.
    + left. split; [tauto|]. intros (_ & p & n & Hc & D). apply K, S. right. exists p, n. split; auto. eapply consecutive_corner; eauto.
  - apply Ok_inj in H. subst. left. split; auto. lia.
Qed.

Lemma fix_identical_exact g g' : fix_identical g = Ok g' -> NoDup g -> g' = g /\ length g <> 1 \/ g' = [] /\ length g = 1.
Proof.
  intros H Hd. destruct g as [|x [|y g]]; [discriminate| |].
  - right. split; auto. unfold fix_identical, circ_prev_next in H. cbn [last removelast combine bind filter fst snd map] in H. rewrite Z.eqb_refl in H.
    cbn [map fst py_remove_all bind py_remove] in H. rewrite Z.eqb_refl in H. cbn [bind] in H. apply Ok_inj in H. auto.
  - left. split; [|discriminate]. apply fix_identical_ok in H as (_ & H & _). apply H; auto. simpl. lia.
Qed.
End Exact.

Theorem clean_exact (A : arith) (verts : list (vec3 A)) nr F F' : (forall f, In f F -> NoDup f) -> clean_faces verts nr F = Ok F' ->
  Forall2 (cleaned verts nr F) F F'.
Proof.
  unfold clean_faces. cbv zeta. intros Hd H. apply mapM_ok in H. eapply Forall2_impl_in; [|exact H].
  intros f f' Hf _ Hff. apply bind_ok in Hff as (g & Hg & Hff). apply fix_parallel_exact in Hg as [S K]; [|auto].
  exists g. split; auto. split.
  - intros t Ht. unfold dropped, corners.
    assert (E : (3 < length f /\ exists p n, consecutive f p t n /\ to_drop verts nr (fun v => count_b (Z.eqb v) (concat F)) p t n) <->
                3 < length f /\ (nr <= t)%Z /\ count_occ Z.eq_dec (concat F) t < 3 /\ exists p n, consecutive f p t n /\ flat verts p t n).
    { unfold to_drop. rewrite count_b_occ. split.
      - intros (L & p & n & Hc & Lz & C & Fl). split; auto. split; auto. split; auto. exists p, n. auto.
      - intros (L & Lz & C & p & n & Hc & Fl). split; auto. exists p, n. auto. }
    rewrite <- E. auto.
  - eapply fix_identical_exact; eauto. eapply NoDup_subsequence; eauto.
Qed.

(** ** taking a vertex out of all faces *)
Definition without (x : Z) (f : list Z) : list Z := filter (fun v => negb (v =? x)%Z) f.

Lemma without_not_in x f : ~ In x f -> without x f = f.
Proof.
  induction f as [|y f IH]; intros H; auto. cbn [without filter]. destruct (Z.eqb_spec y x) as [->|]; [exfalso; apply H; left; auto|].
  cbn [negb]. f_equal. apply IH. intros K. apply H. right. auto.
Qed.

Lemma without_split x a b : ~ In x a -> ~ In x b -> without x (a ++ x :: b) = a ++ b.
Proof.
  intros Ha Hb. unfold without. rewrite filter_app. cbn [filter]. rewrite Z.eqb_refl. cbn [negb]. fold (without x a) (without x b). rewrite !without_not_in; auto.
Qed.

Lemma face_without x f : NoDup f -> In x f ->
  f = [x] \/ exists p n, p <> x /\ n <> x /\ Permutation ((x, n) :: (p, x) :: darts_of (without x f)) ((p, n) :: darts_of f).
Proof.
  intros Hd Hx. apply in_split in Hx as (a & b & ->).
  assert (Na : ~ In x a) by (apply NoDup_remove_2 in Hd; intros K; apply Hd, in_app_iff; auto).
  assert (Nb : ~ In x b) by (apply NoDup_remove_2 in Hd; intros K; apply Hd, in_app_iff; auto).
  rewrite (without_split Na Nb).
  assert (R1 : rotation_of (a ++ x :: b) (x :: b ++ a)) by (exists a, (x :: b); auto).
  assert (R2 : rotation_of (a ++ b) (b ++ a)) by (exists a, b; auto).
  apply darts_rotation in R1, R2.
  assert (Nu : ~ In x (b ++ a)) by (rewrite in_app_iff; tauto).
  destruct (b ++ a) as [|n u] eqn:E.
  - left. apply app_eq_nil in E as [-> ->]. auto.
  - right. rewrite !darts_walk in *. cbn [walk] in R1. destruct (@exists_last _ (n :: u) ltac:(discriminate)) as (w & p & Ew).
    exists p, n. split; [intros ->; apply Nu; rewrite Ew, in_app_iff; simpl; auto|]. split; [intros ->; apply Nu; left; auto|].
    apply (Permutation_count_occ dart_dec). intros d.
    change ((x, n) :: (p, x) :: darts_of (a ++ b)) with ([(x, n)] ++ [(p, x)] ++ darts_of (a ++ b)).
    change ((p, n) :: darts_of (a ++ x :: b)) with ([(p, n)] ++ darts_of (a ++ x :: b)).
    rewrite !count_occ_app, (proj1 (Permutation_count_occ dart_dec _ _) R1), (proj1 (Permutation_count_occ dart_dec _ _) R2).
    destruct w as [|m w]; cbn [app] in Ew; injection Ew as -> ->.
    + cbn [walk]. rewrite !count_occ_app. lia.
    + rewrite !walk_end, !count_occ_app. lia.
Qed.

Definition ins (x : Z) (L : list (Z * Z)) := map (fun d => (fst d, x)) L.
Definition outs (x : Z) (L : list (Z * Z)) := map (fun d => (x, snd d)) L.

Lemma faces_without x F : (forall f, In f F -> NoDup f) ->
  exists L k, length L + k = corners F x /\ (forall d, In d L -> fst d <> x /\ snd d <> x) /\
    Permutation (outs x L ++ ins x L ++ repeat (x, x) k ++ darts (map (without x) F)) (L ++ darts F).
Proof.
  induction F as [|f F IH]; intros Hd.
  - exists [], 0. split; [auto|]. split; [intros d []|reflexivity].
  - destruct IH as (L & k & HL & HN & P); [intros g Hg; apply Hd; right; auto|]. unfold corners in *. cbn [concat map]. rewrite count_occ_app, !darts_cons.
    assert (Hf : NoDup f) by (apply Hd; left; auto). destruct (in_dec Z.eq_dec x f) as [Hx|Hx].
    + assert (C : count_occ Z.eq_dec f x = 1) by (apply NoDup_count_occ'; auto).
      destruct (face_without Hf Hx) as [->|(p & n & Hp & Hn & Q)].
      * exists L, (S k). split; [lia|]. split; auto. unfold without at 1. cbn [filter]. rewrite Z.eqb_refl. cbn [negb].
        change (darts_of []) with (@nil (Z * Z)). change (darts_of [x]) with [(x, x)]. cbn [app].
        apply (Permutation_count_occ dart_dec). intros d. pose proof (proj1 (Permutation_count_occ dart_dec _ _) P d) as Pd.
        change (repeat (x, x) (S k)) with ([(x, x)] ++ repeat (x, x) k). change ((x, x) :: darts F) with ([(x, x)] ++ darts F).
        rewrite !count_occ_app in *. lia.
      * exists ((p, n) :: L), k. split; [simpl; lia|]. split; [intros d [<-|K]; auto|].
        change (outs x ((p, n) :: L)) with ([(x, n)] ++ outs x L). change (ins x ((p, n) :: L)) with ([(p, x)] ++ ins x L). change ((p, n) :: L) with ([(p, n)] ++ L).
        change ((x, n) :: (p, x) :: darts_of (without x f)) with ([(x, n)] ++ [(p, x)] ++ darts_of (without x f)) in Q.
        change ((p, n) :: darts_of f) with ([(p, n)] ++ darts_of f) in Q.
        apply (Permutation_count_occ dart_dec). intros d. pose proof (proj1 (Permutation_count_occ dart_dec _ _) P d) as Pd.
        pose proof (proj1 (Permutation_count_occ dart_dec _ _) Q d) as Qd. rewrite !count_occ_app in *. lia.
    + exists L, k. split; [apply (count_occ_not_In Z.eq_dec) in Hx; lia|]. split; auto. rewrite (without_not_in Hx).
      apply (Permutation_count_occ dart_dec). intros d. pose proof (proj1 (Permutation_count_occ dart_dec _ _) P d) as Pd. rewrite !count_occ_app in *. lia.
Qed.

Lemma darts_corner F a b : In (a, b) (darts F) -> exists f, In f F /\ In a f /\ In b f.
Proof.
  intros H. apply in_concat in H as (d & Hd & H). apply in_map_iff in Hd as (f & <- & Hf). exists f. split; auto.
  destruct f as [|h t]; [destruct H|]. apply dart_walk in H as (i & H1 & H2). split; [eapply nth_error_In; eauto|].
  destruct H2 as [H2|[_ ->]]; [eapply nth_error_In; eauto|left; auto].
Qed.

Lemma without_in x f v : In v (without x f) <-> In v f /\ v <> x.
Proof. unfold without. rewrite filter_In. destruct (Z.eqb_spec v x); cbn [negb]; intuition congruence. Qed.

Lemma no_dart_without x F a b : In (a, b) (darts (map (without x) F)) -> a <> x /\ b <> x.
Proof.
  intros H. apply darts_corner in H as (f & Hf & Ha & Hb). apply in_map_iff in Hf as (g & <- & _). apply without_in in Ha, Hb. tauto.
Qed.

Lemma count_ins x L b : count_occ dart_dec (ins x L) (b, x) = count_occ Z.eq_dec (map fst L) b.
Proof.
  unfold ins. induction L as [|[p n] L IH]; auto. cbn [map fst count_occ]. rewrite IH.
  destruct (dart_dec (p, x) (b, x)) as [E|E], (Z.eq_dec p b) as [E'|E']; auto; exfalso; congruence.
Qed.

Lemma count_outs x L b : count_occ dart_dec (outs x L) (x, b) = count_occ Z.eq_dec (map snd L) b.
Proof.
  unfold outs. induction L as [|[p n] L IH]; auto. cbn [map snd count_occ]. rewrite IH.
  destruct (dart_dec (x, n) (x, b)) as [E|E], (Z.eq_dec n b) as [E'|E']; auto; exfalso; congruence.
Qed.

Lemma count_no (D : list (Z * Z)) d : ~ In d D -> count_occ dart_dec D d = 0.
Proof. apply (count_occ_not_In dart_dec). Qed.

(** at most two ways through x, as many in as out of every neighbour: they are the same or opposite *)
Lemma ways_symmetric L : length L <= 2 -> (forall b, count_occ Z.eq_dec (map fst L) b = count_occ Z.eq_dec (map snd L) b) ->
  forall a b, count_occ dart_dec L (a, b) = count_occ dart_dec L (b, a).
Proof.
  intros H2 H a b. assert (C : forall p n, count_occ dart_dec [(p, n)] (a, b) = count_occ dart_dec [(n, p)] (b, a)) by (intros; apply count_one).
  destruct L as [|[p n] [|[p' n'] [|? ?]]]; [reflexivity| | |simpl in H2; lia].
  - specialize (H p). cbn [map fst snd count_occ] in H. destruct (Z.eq_dec p p) as [_|]; [|congruence]. destruct (Z.eq_dec n p) as [->|]; [|lia]. apply count_one.
  - change [(p, n); (p', n')] with ([(p, n)] ++ [(p', n')]). rewrite !count_occ_app.
    pose proof (H p) as Hp. pose proof (H p') as Hp'. pose proof (H n) as Hn. pose proof (H n') as Hn'. cbn [map fst snd count_occ] in Hp, Hp', Hn, Hn'.
    rewrite (count_one p n a b), (count_one p' n' a b).
    destruct (Z.eq_dec p n) as [->|Npn].
    + assert (n' = p'); [|subst; auto]. destruct (Z.eq_dec n' p') as [|N]; auto. exfalso.
      repeat match goal with K : context [if ?e then _ else _] |- _ => destruct e end; try congruence; try lia.
    + assert (n' = p /\ n = p') as [-> ->]; [|lia].
      repeat match goal with K : context [if ?e then _ else _] |- _ => destruct e end; try congruence; try lia; auto.
Qed.

Lemma border_without x F : (forall f, In f F -> NoDup f) -> corners F x <= 2 -> (forall b, border F x b = 0%Z) ->
  forall a b, border (map (without x) F) a b = border F a b.
Proof.
  intros Hd H2 Hb. destruct (faces_without x Hd) as (L & k & HL & HN & P).
  set (D := darts (map (without x) F)) in *.
  assert (C : forall d, count_occ dart_dec (outs x L) d + (count_occ dart_dec (ins x L) d + (count_occ dart_dec (repeat (x, x) k) d + count_occ dart_dec D d))
                        = count_occ dart_dec L d + count_occ dart_dec (darts F) d).
  { intros d. pose proof (proj1 (Permutation_count_occ dart_dec _ _) P d) as K. rewrite !count_occ_app in K. auto. }
  assert (Zo : forall a b, a <> x -> count_occ dart_dec (outs x L) (a, b) = 0).
  { intros a b K. apply count_no. unfold outs. rewrite in_map_iff. intros (d & E & _). congruence. }
  assert (Zi : forall a b, b <> x -> count_occ dart_dec (ins x L) (a, b) = 0).
  { intros a b K. apply count_no. unfold ins. rewrite in_map_iff. intros (d & E & _). congruence. }
  assert (Zr : forall a b, (a <> x \/ b <> x) -> count_occ dart_dec (repeat (x, x) k) (a, b) = 0).
  { intros a b K. apply count_no. intros R. apply repeat_spec in R. destruct K; congruence. }
  assert (ZD : forall a b, (a = x \/ b = x) -> count_occ dart_dec D (a, b) = 0).
  { intros a b K. apply count_no. intros R. apply no_dart_without in R. tauto. }
  assert (ZL : forall a b, (a = x \/ b = x) -> count_occ dart_dec L (a, b) = 0).
  { intros a b K. apply count_no. intros R. apply HN in R. cbn [fst snd] in R. tauto. }
  assert (S : forall b, count_occ Z.eq_dec (map fst L) b = count_occ Z.eq_dec (map snd L) b).
  { intros b. destruct (Z.eq_dec b x) as [->|Nb].
    - rewrite (proj1 (count_occ_not_In Z.eq_dec _ _)), (proj1 (count_occ_not_In Z.eq_dec _ _)); auto;
        rewrite in_map_iff; intros (d & E & K); apply HN in K; tauto.
    - specialize (Hb b). unfold border in Hb. pose proof (C (x, b)) as C1. pose proof (C (b, x)) as C2.
      rewrite Zi, Zr, ZD, ZL, count_outs in C1 by auto. rewrite Zo, Zr, ZD, ZL, count_ins in C2 by auto. lia. }
  assert (HL2 : length L <= 2) by (clear - HL H2; lia). pose proof (ways_symmetric HL2 S) as W. intros a b.
  assert (B0 : forall c, border (map (without x) F) x c = 0%Z /\ border (map (without x) F) c x = 0%Z).
  { intros c. unfold border. fold D. rewrite !ZD by auto. auto. }
  destruct (Z.eq_dec a x) as [->|Na]; [rewrite (proj1 (B0 b)), Hb; auto|].
  destruct (Z.eq_dec b x) as [->|Nb]; [rewrite (proj2 (B0 a)); specialize (Hb a); unfold border in *; lia|].
  unfold border. fold D. pose proof (C (a, b)) as C1. pose proof (C (b, a)) as C2.
  rewrite Zo, Zi, Zr in C1 by auto. rewrite Zo, Zi, Zr in C2 by auto. specialize (W a b). lia.
Qed.

(** taking out many vertices *)
Definition without_all (X : list Z) (f : list Z) : list Z := filter (fun v => negb (existsb (Z.eqb v) X)) f.

Lemma without_all_cons x X f : without_all (x :: X) f = without_all X (without x f).
Proof.
  unfold without_all, without. induction f as [|v f IH]; auto. cbn [filter existsb]. destruct (Z.eqb_spec v x) as [->|]; cbn [negb orb filter]; [auto|].
  destruct (negb (existsb (Z.eqb v) X)); [f_equal|]; exact IH.
Qed.

Lemma without_all_in X f v : In v (without_all X f) <-> In v f /\ ~ In v X.
Proof.
  unfold without_all. rewrite filter_In, negb_true_iff, <- not_true_iff_false, existsb_exists. split; intros [H K]; split; auto; intros E; apply K.
  - exists v. rewrite Z.eqb_refl. auto.
  - destruct E as (y & Hy & E). apply Z.eqb_eq in E. subst. auto.
Qed.

Lemma corners_without x F y : y <> x -> corners (map (without x) F) y = corners F y.
Proof.
  intros H. unfold corners. induction F as [|f F IH]; auto. cbn [map concat]. rewrite !count_occ_app, IH. f_equal.
  unfold without. induction f as [|v f IHf]; auto. cbn [filter]. destruct (Z.eqb_spec v x) as [->|]; cbn [negb count_occ]; [|rewrite IHf; auto].
  destruct (Z.eq_dec x y); [congruence|auto].
Qed.

Lemma corners_gone x F : corners (map (without x) F) x = 0.
Proof.
  unfold corners. apply (count_occ_not_In Z.eq_dec). intros K. apply in_concat in K as (f & Hf & K). apply in_map_iff in Hf as (g & <- & _). apply without_in in K. tauto.
Qed.

Lemma border_without_all X : forall F, (forall f, In f F -> NoDup f) -> (forall x, In x X -> corners F x <= 2) -> (forall x b, In x X -> border F x b = 0%Z) ->
  forall a b, border (map (without_all X) F) a b = border F a b.
Proof.
  induction X as [|x X IH]; intros F Hd H2 Hb a b.
  - replace (map (without_all []) F) with F; auto. rewrite <- (map_id F) at 1. apply map_ext. intros f. unfold without_all. cbn [existsb negb].
    induction f as [|v f IHf]; cbn [filter]; congruence.
  - assert (E : map (without_all (x :: X)) F = map (without_all X) (map (without x) F)).
    { rewrite map_map. apply map_ext. intros f. apply without_all_cons. }
    assert (B : forall a b, border (map (without x) F) a b = border F a b) by (apply border_without; auto; [apply H2; left; auto|intros; apply Hb; left; auto]).
    rewrite E, IH, B; auto.
    + intros f Hf. apply in_map_iff in Hf as (g & <- & Hg). apply NoDup_filter. auto.
    + intros y Hy. destruct (Z.eq_dec y x) as [->|N]; [rewrite corners_gone; lia|]. rewrite corners_without by auto. apply H2. right. auto.
    + intros y c Hy. rewrite B. apply Hb. right. auto.
Qed.

(** ** both faces at a flat node lose it *)
Lemma three_faces F (f g h : list Z) t : In f F -> In g F -> In h F -> f <> g -> f <> h -> g <> h -> In t f -> In t g -> In t h -> 3 <= corners F t.
Proof.
  intros Hf Hg Hh N1 N2 N3 Tf Tg Th. unfold corners.
  assert (C : forall l, In t l -> 1 <= count_occ Z.eq_dec l t) by (intros l; apply (count_occ_In Z.eq_dec)).
  apply in_split in Hf as (a & b & ->). assert (Hg' : In g (a ++ b)) by (apply in_app_iff; apply in_app_iff in Hg as [K|[K|K]]; auto; congruence).
  assert (Hh' : In h (a ++ b)) by (apply in_app_iff; apply in_app_iff in Hh as [K|[K|K]]; auto; congruence).
  rewrite concat_app. cbn [concat]. rewrite !count_occ_app.
  assert (E : count_occ Z.eq_dec (concat (a ++ b)) t = count_occ Z.eq_dec (concat a) t + count_occ Z.eq_dec (concat b) t) by (rewrite concat_app, count_occ_app; auto).
  apply in_split in Hg' as (c & d & Ec). rewrite Ec in Hh', E. assert (Hh2 : In h (c ++ d)) by (apply in_app_iff; apply in_app_iff in Hh' as [K|[K|K]]; auto; congruence).
  rewrite concat_app in E. cbn [concat] in E. rewrite !count_occ_app in E.
  assert (E2 : count_occ Z.eq_dec (concat (c ++ d)) t = count_occ Z.eq_dec (concat c) t + count_occ Z.eq_dec (concat d) t) by (rewrite concat_app, count_occ_app; auto).
  assert (1 <= count_occ Z.eq_dec (concat (c ++ d)) t) by (apply (count_occ_In Z.eq_dec), in_concat; eauto).
  pose proof (C f Tf). pose proof (C g Tg). lia.
Qed.

Lemma nodup_out f t a b : NoDup f -> In (t, a) (darts_of f) -> In (t, b) (darts_of f) -> a = b.
Proof.
  intros Hd Ha Hb. destruct f as [|h l]; [destruct Ha|]. set (f := h :: l) in *. change (In (t, a) (dart_list h f)) in Ha. change (In (t, b) (dart_list h f)) in Hb.
  apply dart_walk in Ha as (i & Hi & Ha). apply dart_walk in Hb as (j & Hj & Hb).
  assert (i = j) by (apply (proj1 (NoDup_nth_error f) Hd); [apply nth_error_Some; congruence|congruence]). subst j.
  destruct Ha as [Ha|[Ha ->]], Hb as [Hb|[Hb ->]]; congruence.
Qed.

Lemma dart_both f a t b : NoDup f -> In (a, t) (darts_of f) -> In (t, b) (darts_of f) -> a <> b -> a <> t -> b <> t -> consecutive f a t b.
Proof.
  intros Hd Ha Hb Nab Nat_ Nbt. destruct (@dart_rotation f a t Ha Nat_) as (v & R).
  pose proof (Permutation_in _ (darts_rotation R) Hb) as K. rewrite darts_walk, walk_end in K.
  assert (Nd : NoDup (t :: v ++ [a])) by (eapply Permutation_NoDup; [apply rotation_of_perm; exact R|auto]).
  destruct v as [|x v].
  - exfalso. cbn [walk app In] in K. destruct K as [K|[K|[]]]; congruence.
  - assert (x = b).
    { apply (@nodup_out (t :: (x :: v) ++ [a]) t); auto; [cbn [app]; rewrite darts_walk; cbn [walk app]; left; auto|cbn [app]; rewrite darts_walk; change (x :: v ++ [a]) with ((x :: v) ++ [a]); rewrite walk_end; auto]. }
    subst x. exists v. eapply rotation_of_trans; [exact R|]. cbn [app]. exists (t :: b :: v), [a]. auto.
Qed.

Lemma consecutive_darts f p t n : consecutive f p t n -> In (p, t) (darts_of f) /\ In (t, n) (darts_of f).
Proof.
  intros (u & R). split; apply (Permutation_in _ (Permutation_sym (darts_rotation R))); rewrite darts_walk; simpl; auto.
Qed.

Lemma consecutive_nodup f p t n : NoDup f -> 3 <= length f -> consecutive f p t n -> p <> t /\ t <> n /\ p <> n.
Proof.
  intros Hd _ (u & R). apply rotation_of_perm in R. apply (Permutation_NoDup R) in Hd.
  inversion Hd as [|? ? N1 D1]; subst. inversion D1 as [|? ? N2 D2]; subst. cbn [In] in *. repeat split; intros ->; tauto.
Qed.

Section Gap.
Context {A : arith}.
Variable verts : list (vec3 A).
Variable nr : Z.
Variable F : list (list Z).
Hypothesis simple : forall f, In f F -> NoDup f.
Hypothesis no_gap : forall a b, (nr <= a \/ nr <= b)%Z -> border F a b = 0%Z.
Hypothesis no_triangle : no_flat_triangle verts nr F.
Hypothesis mirror : flat_both_ways verts F.

Lemma dart_back f a b : In f F -> In (a, b) (darts_of f) -> (nr <= a \/ nr <= b)%Z -> exists g, In g F /\ In (b, a) (darts_of g).
Proof.
  intros Hf Hd Hab. specialize (no_gap Hab). unfold border in no_gap.
  assert (K : In (a, b) (darts F)) by (apply in_concat; exists (darts_of f); split; auto; apply in_map; auto).
  apply (count_occ_In dart_dec) in K. assert (K' : In (b, a) (darts F)) by (apply (count_occ_In dart_dec); lia).
  apply in_concat in K' as (d & Hd' & K'). apply in_map_iff in Hd' as (g & <- & Hg). eauto.
Qed.

Lemma dart_corner f a b : In (a, b) (darts_of f) -> In a f /\ In b f.
Proof.
  intros H. destruct f as [|h l]; [destruct H|]. apply dart_walk in H as (i & H1 & H2). split; [eapply nth_error_In; eauto|].
  destruct H2 as [H2|[_ ->]]; [eapply nth_error_In; eauto|left; auto].
Qed.

Lemma dropped_both f g t : In f F -> In g F -> In t g -> dropped verts nr F f t -> dropped verts nr F g t.
Proof.
  intros Hf Hg Ht D. destruct (list_eq_dec Z.eq_dec f g) as [->|Nfg]; auto. destruct D as (L & Lz & C & p & n & Hc & Fl).
  destruct (consecutive_nodup (simple Hf) ltac:(lia) Hc) as (N1 & N2 & N3). destruct (consecutive_darts Hc) as [D1 D2].
  destruct (dart_corner D1) as [_ Tf].
  assert (G : forall h, In h F -> In t h -> h = f \/ h = g).
  { intros h Hh Th. destruct (list_eq_dec Z.eq_dec h f) as [|Nf]; auto. destruct (list_eq_dec Z.eq_dec h g) as [|Ng]; auto. exfalso.
    pose proof (@three_faces F f g h t Hf Hg Hh Nfg (fun E => Nf (eq_sym E)) (fun E => Ng (eq_sym E)) Tf Ht Th). lia. }
  destruct (dart_back Hf D1 (or_intror Lz)) as (h1 & Hh1 & B1). destruct (dart_back Hf D2 (or_introl Lz)) as (h2 & Hh2 & B2).
  assert (h1 = g).
  { destruct (G h1 Hh1 (proj1 (dart_corner B1))) as [->|]; auto. exfalso. apply N3. eapply nodup_out; [apply (simple Hf)|exact B1|exact D2]. }
  assert (h2 = g).
  { destruct (G h2 Hh2 (proj2 (dart_corner B2))) as [->|]; auto. exfalso.
    destruct Hc as (u & R). pose proof (Permutation_in _ (darts_rotation R) B2) as K.
    assert (Nd : NoDup (p :: t :: n :: u)) by (eapply Permutation_NoDup; [apply rotation_of_perm; exact R|apply (simple Hf)]).
    assert (Lu : length f = length (p :: t :: n :: u)) by (apply Permutation_length, rotation_of_perm; auto).
    destruct u as [|x u]; [simpl in Lu; lia|].
    assert (t = x); [|subst; inversion Nd as [|? ? M1 M2]; subst; inversion M2 as [|? ? M3 M4]; subst; apply M3; simpl; auto].
    eapply nodup_out; [exact Nd|exact K|]. rewrite darts_walk. simpl. auto. }
  subst h1 h2. pose proof (dart_both (simple Hg) B2 B1 (fun E => N3 (eq_sym E)) (fun E => N2 (eq_sym E)) N1) as Hc'.
  apply (mirror Hf Hc) in Fl. destruct (le_lt_dec (length g) 3) as [Lg|Lg]; [exfalso; eapply no_triangle; eauto|].
  split; auto. split; auto. split; auto. exists n, p. auto.
Qed.

Lemma subsequence_filter_eq (g f : list Z) (q : Z -> bool) : subsequence g f -> NoDup f -> (forall t, In t f -> In t g <-> q t = true) -> g = filter q f.
Proof.
  induction 1 as [|x l1 l2 S IH|x l1 l2 S IH]; intros Hd H; auto; inversion Hd as [|? ? N1 D1]; subst; cbn [filter].
  - rewrite (proj1 (H x (or_introl eq_refl)) (or_introl eq_refl)). f_equal. apply IH; auto. intros t Ht. rewrite <- (H t (or_intror Ht)). split; [right; auto|].
    intros [->|]; tauto.
  - destruct (q x) eqn:E.
    + exfalso. apply N1. eapply subsequence_In; [exact S|]. apply (proj2 (H x (or_introl eq_refl)) E).
    + apply IH; auto. intros t Ht. apply H. right. auto.
Qed.

Lemma border_app a b G H : border (G ++ H) a b = (border G a b + border H a b)%Z.
Proof. unfold border, darts. rewrite map_app, concat_app, !count_occ_app. lia. Qed.

Lemma border_one a b x : border [[x]] a b = 0%Z.
Proof.
  unfold border, darts. cbn [map concat app]. change (darts_of [x]) with [(x, x)]. cbn [app]. rewrite (count_one x x a b). lia.
Qed.

Theorem clean_border F' : clean_faces verts nr F = Ok F' -> forall a b, border F' a b = border F a b.
Proof.
  intros H. apply clean_exact in H; auto.
  assert (HG : exists G, Forall2 (fun f g => subsequence g f /\ forall t, In t f -> In t g /\ ~ dropped verts nr F f t \/ ~ In t g /\ dropped verts nr F f t) F G /\
                         forall a b, border F' a b = border G a b).
  { assert (G : forall F1 F2, Forall2 (cleaned verts nr F) F1 F2 -> exists G, Forall2 (fun f g => subsequence g f /\ forall t, In t f -> In t g /\ ~ dropped verts nr F f t \/ ~ In t g /\ dropped verts nr F f t) F1 G /\
                         forall a b, border F2 a b = border G a b); [|apply G; auto].
    induction 1 as [|f f' F1 F2 (g & S & K & E) R (G & HG & HB)]; [exists []; auto|]. exists (g :: G). split; [constructor; auto|].
    intros a b. change (f' :: F2) with ([f'] ++ F2). change (g :: G) with ([g] ++ G). rewrite !border_app, HB. f_equal.
    destruct E as [[-> _]|[-> L]]; auto. destruct g as [|x [|]]; try discriminate. rewrite border_one. reflexivity. }
  destruct HG as (G & HG & HB).
  set (X := filter (fun t => existsb (fun fg => existsb (Z.eqb t) (fst fg) && negb (existsb (Z.eqb t) (snd fg))) (combine F G)) (concat F)).
  assert (InB : forall t l, existsb (Z.eqb t) l = true <-> In t l).
  { intros t l. rewrite existsb_exists. split; [intros (y & Hy & E); apply Z.eqb_eq in E; subst; auto|intros K; exists t; rewrite Z.eqb_refl; auto]. }
  assert (HX : forall t, In t X -> exists f, In f F /\ dropped verts nr F f t).
  { intros t K. apply filter_In in K as [_ K]. apply existsb_exists in K as ([f g] & Hfg & K). cbn [fst snd] in K. apply andb_prop in K as [K1 K2]. apply InB in K1.
    apply negb_true_iff in K2. exists f. split; [eapply in_combine_l; eauto|].
    assert (R : forall F1 G1, Forall2 (fun f g => subsequence g f /\ forall t, In t f -> In t g /\ ~ dropped verts nr F f t \/ ~ In t g /\ dropped verts nr F f t) F1 G1 ->
                In (f, g) (combine F1 G1) -> dropped verts nr F f t).
    { induction 1 as [|f1 g1 F1 G1 [_ Q] R IH]; cbn [combine In]; [tauto|]. intros [E|E]; auto. injection E as -> ->.
      destruct (Q t K1) as [[Q1 _]|[_ Q2]]; auto. apply InB in Q1. congruence. }
    eapply R; eauto. }
  assert (E : G = map (without_all X) F).
  { assert (R : forall F1 G1, Forall2 (fun f g => subsequence g f /\ forall t, In t f -> In t g /\ ~ dropped verts nr F f t \/ ~ In t g /\ dropped verts nr F f t) F1 G1 ->
                incl F1 F -> incl (combine F1 G1) (combine F G) -> G1 = map (without_all X) F1).
    { induction 1 as [|f g F1 G1 [S Q] R IH]; intros I1 I2; auto. cbn [map combine] in *. f_equal; [|apply IH; intros y Hy; [apply I1|apply I2]; right; auto].
      assert (Hf : In f F) by (apply I1; left; auto). apply subsequence_filter_eq; auto. intros t Ht. rewrite negb_true_iff. rewrite <- not_true_iff_false, InB.
      destruct (Q t Ht) as [[Q1 Q2]|[Q1 Q2]]; split; try tauto.
      - intros _ K. apply HX in K as (f2 & Hf2 & D). apply Q2. eapply dropped_both; eauto.
      - intros K. exfalso. apply K. apply filter_In. split; [apply in_concat; eauto|]. apply existsb_exists. exists (f, g). split; [apply I2; left; auto|].
        cbn [fst snd]. rewrite (proj2 (InB t f) Ht). cbn [andb]. apply negb_true_iff, not_true_iff_false. rewrite InB. auto. }
    apply R; auto; apply incl_refl. }
  intros a b. rewrite HB, E. apply border_without_all; auto.
  - intros x Hx. apply HX in Hx as (f & _ & (_ & _ & C & _)). lia.
  - intros x c Hx. apply HX in Hx as (f & _ & (_ & Lz & _)). apply no_gap. auto.
Qed.
End Gap.
