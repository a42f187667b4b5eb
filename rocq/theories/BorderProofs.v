(** * BorderProofs: spike removal keeps the border of the faces *)

From Coq Require Import Permutation Reals Lra Arith.Wf_nat.
From Verif Require Import Py PyFacts Arith Euclid Lav Graph GraphSpec GraphProofs Poly PolySpec PolyProofs BorderSpec.
Set Implicit Arguments.
Unset Strict Implicit.
Local Open Scope nat_scope.

(** ** walks *)
Fixpoint walk (a : Z) (l : list Z) (z : Z) : list (Z * Z) :=
  match l with
  | [] => [(a, z)]
  | b :: t => [(a, b)] ++ walk b t z
  end.

Lemma dart_list_walk z l : forall a, dart_list z (a :: l) = walk a l z.
Proof.
  induction l as [|b t IH]; intros a; [reflexivity|]. cbn [walk]. rewrite <- IH. reflexivity.
Qed.

Lemma darts_walk a l : darts_of (a :: l) = walk a l a.
Proof. unfold darts_of. apply dart_list_walk. Qed.

Lemma walk_app l b m : forall a z, walk a (l ++ b :: m) z = walk a l b ++ walk b m z.
Proof. induction l as [|c l IH]; intros a z; simpl; [reflexivity|]. rewrite IH. reflexivity. Qed.

Lemma walk_end l m : forall a z, walk a (l ++ [m]) z = walk a l m ++ [(m, z)].
Proof. intros. rewrite walk_app. reflexivity. Qed.

Lemma darts_rotation f f' : rotation_of f f' -> Permutation (darts_of f) (darts_of f').
Proof.
  intros (l1 & l2 & -> & ->). destruct l1 as [|a l1]; [rewrite app_nil_r; reflexivity|].
  destruct l2 as [|b l2]; [rewrite app_nil_r; reflexivity|].
  rewrite <- !app_comm_cons, !darts_walk, !walk_app. apply Permutation_app_comm.
Qed.

Lemma darts_same F G : same_faces F G -> Permutation (darts F) (darts G).
Proof.
  intros (F' & P & R). unfold darts. rewrite (concat_perm (Permutation_map darts_of P)).
  clear P. induction R as [|f g F' G H R IH]; simpl; [reflexivity|]. apply Permutation_app; auto. apply darts_rotation; auto.
Qed.

Lemma border_same F G a b : same_faces F G -> border F a b = border G a b.
Proof.
  intros H. apply darts_same in H. unfold border. rewrite !(proj1 (Permutation_count_occ dart_dec _ _) H). reflexivity.
Qed.

(** ** a spike and the border *)
Lemma darts_cons f F : darts (f :: F) = darts_of f ++ darts F.
Proof. reflexivity. Qed.

Lemma count_one p t a b : count_occ dart_dec [(p, t)] (a, b) = count_occ dart_dec [(t, p)] (b, a).
Proof. cbn [count_occ]. destruct (dart_dec (p, t) (a, b)) as [E|E], (dart_dec (t, p) (b, a)) as [E'|E']; try reflexivity; exfalso; congruence. Qed.

Lemma border_perm D D' : (forall a b, count_occ dart_dec D (a, b) + count_occ dart_dec D' (b, a) = count_occ dart_dec D (b, a) + count_occ dart_dec D' (a, b)) ->
  forall F F', Permutation (darts F) D -> Permutation (darts F') D' -> forall a b, border F' a b = border F a b.
Proof.
  intros H F F' P P' a b. unfold border. rewrite !(proj1 (Permutation_count_occ dart_dec _ _) P), !(proj1 (Permutation_count_occ dart_dec _ _) P').
  specialize (H a b). lia.
Qed.

Lemma unspiked_border p t n F F' : unspiked p t n F F' -> forall a b, border F' a b = border F a b.
Proof.
  intros [(Hn & f & r & l & rest & S1 & S2)|(-> & f & rest & S1 & S2)].
  - apply darts_same in S1, S2. eapply border_perm; [|exact S1|exact S2].
    intros a b. rewrite !darts_cons, !darts_walk. cbn [walk]. rewrite !walk_app. cbn [walk].
    rewrite !count_occ_app.
    rewrite (count_one p t b a), (count_one t n b a), (count_one p n b a), (count_one t p b a), (count_one n t b a), (count_one n p b a). lia.
  - apply darts_same in S1, S2. eapply border_perm; [|exact S1|exact S2].
    intros a b. rewrite !darts_cons, !darts_walk. cbn [walk].
    rewrite !count_occ_app, (count_one n t b a), (count_one t n b a). lia.
Qed.

(** ** sums over the border *)
Section Sums.
Variable g : Z -> Z -> R.
Hypothesis anti : forall a b, g b a = (- g a b)%R.

Definition total (D : list (Z * Z)) : R := fold_right Rplus 0%R (map (fun d => g (fst d) (snd d)) D).

Lemma total_app D E : total (D ++ E) = (total D + total E)%R.
Proof. unfold total. induction D as [|d D IH]; simpl; [ring|]. rewrite IH. ring. Qed.

Lemma total_perm D E : Permutation D E -> total D = total E.
Proof. unfold total. induction 1; simpl; lra. Qed.

Definition flip (d : Z * Z) : Z * Z := (snd d, fst d).

Lemma total_flip D : total (map flip D) = (- total D)%R.
Proof. unfold total. induction D as [|[a b] D IH]; simpl; [ring|]. rewrite IH, anti. ring. Qed.

Lemma count_flip D a b : count_occ dart_dec (map flip D) (a, b) = count_occ dart_dec D (b, a).
Proof.
  induction D as [|[c d] D IH]; cbn [map count_occ]; auto. unfold flip at 1. cbn [fst snd]. rewrite IH.
  destruct (dart_dec (d, c) (a, b)) as [E|E], (dart_dec (c, d) (b, a)) as [E'|E']; try reflexivity; exfalso; congruence.
Qed.

Lemma total_zero : forall D, (forall a b, count_occ dart_dec D (a, b) = count_occ dart_dec D (b, a)) -> total D = 0%R.
Proof.
  intros D. induction D as [D IH] using (induction_ltof1 _ (@length (Z * Z))). unfold ltof in IH. intros H.
  destruct D as [|[a b] T]; [reflexivity|].
  destruct (Z.eq_dec a b) as [->|Hab].
  - assert (T0 : total T = 0%R).
    { apply IH; [simpl; lia|]. intros c d. specialize (H c d). cbn [count_occ] in H.
      destruct (dart_dec (b, b) (c, d)) as [E|E], (dart_dec (b, b) (d, c)) as [E'|E']; try lia; exfalso; congruence. }
    unfold total in *. simpl. rewrite T0. pose proof (anti b b). lra.
  - assert (Hin : In (b, a) T).
    { specialize (H a b). cbn [count_occ] in H. destruct (dart_dec (a, b) (a, b)) as [_|E]; [|congruence].
      destruct (dart_dec (a, b) (b, a)) as [E|_]; [congruence|]. apply (count_occ_In dart_dec). lia. }
    apply in_split in Hin as (l1 & l2 & ->).
    assert (P : Permutation ((a, b) :: l1 ++ (b, a) :: l2) ([(a, b)] ++ [(b, a)] ++ l1 ++ l2)).
    { simpl. constructor. symmetry. apply Permutation_middle. }
    rewrite (total_perm P), !total_app.
    assert (T0 : total (l1 ++ l2) = 0%R).
    { apply IH; [simpl; rewrite !app_length; simpl; lia|]. intros c d. specialize (H c d).
      rewrite !(proj1 (Permutation_count_occ dart_dec _ _) P), !count_occ_app in H.
      rewrite (count_one a b c d), (count_one b a c d) in H. rewrite !count_occ_app. lia. }
    rewrite total_app in T0. unfold total at 1 2. simpl. rewrite (anti a b). lra.
Qed.

Lemma around_border F F' : (forall a b, border F' a b = border F a b) -> around g F' = around g F.
Proof.
  intros H. change (total (darts F') = total (darts F)).
  assert (Z0 : total (darts F' ++ map flip (darts F)) = 0%R).
  { apply total_zero. intros a b. specialize (H a b). unfold border in H. rewrite !count_occ_app, !count_flip. lia. }
  rewrite total_app, total_flip in Z0. lra.
Qed.
End Sums.

(** ** rotations *)
Lemma rotation_unique (f x y : list Z) t : rotation_of f (t :: x) -> rotation_of f (t :: y) -> ~ In t x -> x = y.
Proof.
  intros R1 R2 Hn. apply rotation_of_sym in R1. destruct (rotation_of_trans R1 R2) as (l1 & l2 & E1 & E2).
  destruct l1 as [|a l1]; [rewrite app_nil_r in E2; simpl in E1; congruence|].
  destruct l2 as [|b l2]; [rewrite app_nil_r in E1; simpl in E2; congruence|].
  simpl in E1, E2. injection E1 as -> ->. injection E2 as -> _. exfalso. apply Hn. apply in_app_iff. simpl. auto.
Qed.

Lemma rotation_count (f f' : list Z) v : rotation_of f f' -> count_occ Z.eq_dec f v = count_occ Z.eq_dec f' v.
Proof. intros R. apply rotation_of_perm in R. apply (proj1 (Permutation_count_occ Z.eq_dec _ _) R). Qed.

Lemma rotation_step (x : Z) (l : list Z) : rotation_of (x :: l) (l ++ [x]).
Proof. exists [x], l. auto. Qed.

Lemma dart_rotation f a b : In (a, b) (darts_of f) -> a <> b -> exists v, rotation_of f (b :: v ++ [a]).
Proof.
  intros H Hab. destruct f as [|x l]; [destruct H|]. rewrite darts_walk in H.
  assert (G : forall l x z, In (a, b) (walk x l z) -> (exists l1 l2, x :: l = l1 ++ a :: b :: l2) \/ ((exists l1, x :: l = l1 ++ [a]) /\ b = z)).
  { clear. induction l as [|y l IH]; intros x z H; cbn [walk] in H.
    - destruct H as [H|[]]. injection H as -> ->. right. split; auto. exists []. auto.
    - simpl in H. destruct H as [H|H].
      + injection H as -> ->. left. exists [], l. auto.
      + destruct (IH _ _ H) as [(l1 & l2 & E)|[(l1 & E) E']].
        * left. exists (x :: l1), l2. rewrite E. auto.
        * right. split; auto. exists (x :: l1). rewrite E. auto. }
  destruct (G _ _ _ H) as [(l1 & l2 & E)|[(l1 & E) ->]].
  - exists (l2 ++ l1). rewrite E. exists (l1 ++ [a]), (b :: l2). split; [rewrite <- app_assoc; auto|]. simpl. rewrite app_assoc. auto.
  - destruct l1 as [|y l1]; [simpl in E; congruence|]. simpl in E. injection E as -> ->. exists l1. apply rotation_of_refl.
Qed.

Lemma dart_list_nth z : forall f i x, nth_error f i = Some x -> nth_error (dart_list z f) i = Some (x, match nth_error f (S i) with Some y => y | None => z end).
Proof.
  induction f as [|a f IH]; intros i x H; [destruct i; discriminate|]. destruct f as [|b f].
  - destruct i as [|i]; [simpl in H; injection H as <-; auto|destruct i; discriminate].
  - change (dart_list z (a :: b :: f)) with ((a, b) :: dart_list z (b :: f)). destruct i as [|i]; [simpl in H; injection H as <-; auto|].
    change (nth_error (dart_list z (b :: f)) i = Some (x, match nth_error (b :: f) (S i) with Some y => y | None => z end)). apply IH. auto.
Qed.

Lemma dart_at f i x y : nth_error f i = Some x -> nth_error f ((i + 1) mod length f) = Some y -> In (x, y) (darts_of f).
Proof.
  intros Hx Hy. assert (Hi : i < length f) by (apply nth_error_Some; congruence).
  destruct f as [|h t]; [simpl in Hi; lia|]. set (f := h :: t) in *.
  assert (E : nth_error f ((i + 1) mod length f) = Some (match nth_error f (S i) with Some y => y | None => h end)).
  { destruct (Nat.eq_dec (S i) (length f)) as [E|E].
    - rewrite Nat.add_1_r, E, Nat.mod_same by lia. rewrite (proj2 (nth_error_None f (length f))) by lia. auto.
    - rewrite Nat.add_1_r, Nat.mod_small by lia. destruct (nth_error f (S i)) eqn:K; auto. apply nth_error_None in K. lia. }
  rewrite Hy in E. injection E as ->. apply nth_error_In with i. unfold darts_of. unfold f at 1. rewrite (dart_list_nth h Hx). auto.
Qed.

Lemma before_after n i : i < n -> ((i + n - 1) mod n + 1) mod n = i.
Proof.
  intros H. destruct i as [|i].
  - rewrite (Nat.mod_small (0 + n - 1)) by lia. replace (0 + n - 1 + 1) with n by lia. apply Nat.mod_same. lia.
  - replace (S i + n - 1) with (i + 1 * n) by lia. rewrite Nat.mod_add, (Nat.mod_small i) by lia. rewrite Nat.mod_small by lia. lia.
Qed.

Lemma has_edge_dart a b f : has_edge a b f = Ok true -> In (a, b) (darts_of f).
Proof.
  unfold has_edge. intros H. apply bind_ok in H. destruct H as (pn & Hpn & H). apply Ok_inj in H.
  apply existsb_exists in H as ([x y] & Hin & H). apply andb_prop in H as [H1 H2]. simpl in H1, H2.
  apply Z.eqb_eq in H1, H2. subst x y. apply In_nth_error in Hin as [i Hi].
  assert (Hl : i < length f) by (rewrite <- (circ_prev_next_length _ Hpn); apply nth_error_Some; congruence).
  destruct (circ_prev_next_nth _ Hpn Hl) as (p & n & Hp & Hn & E). rewrite Hi in E. injection E as -> ->.
  eapply dart_at; [exact Hp|]. rewrite before_after; auto.
Qed.

Lemma corner_consecutive f ptn p t n : circ_prev_this_next f = Ok ptn -> In (p, t, n) ptn -> 3 <= length f -> consecutive f p t n.
Proof.
  intros H Hin H3. apply In_nth_error in Hin as [i Hi].
  assert (Hl : i < length f) by (rewrite <- (circ_prev_this_next_length _ H); apply nth_error_Some; congruence).
  destruct (circ_prev_this_next_nth _ H Hl) as (p' & c & n' & Hp & Hc & Hn & E). rewrite Hi in E. injection E as <- <- <-.
  set (j := (i + length f - 1) mod length f) in *. assert (Hj : j < length f) by (apply Nat.mod_upper_bound; lia).
  assert (N0 : nth_error (rot j f) 0 = Some p) by (rewrite nth_error_rot, Nat.add_0_r, Nat.mod_small by lia; auto).
  assert (N1 : nth_error (rot j f) 1 = Some t) by (rewrite nth_error_rot by lia; unfold j; rewrite before_after; auto).
  assert (N2 : nth_error (rot j f) 2 = Some n).
  { rewrite nth_error_rot by lia. replace (j + 2) with (j + 1 + 1) by lia. rewrite Nat.add_mod by lia. unfold j. rewrite before_after by auto.
    rewrite (Nat.mod_small 1) by lia. auto. }
  destruct (rot j f) as [|x0 [|x1 [|x2 u]]] eqn:Er; try discriminate. simpl in N0, N1, N2. injection N0 as ->. injection N1 as ->. injection N2 as ->.
  exists u. rewrite <- Er. apply rotation_of_sym, rotation_of_rot.
Qed.

(** ** taking out a corner *)
Lemma count_not_in (l : list Z) v : count_occ Z.eq_dec l v = 0 -> ~ In v l.
Proof. intros H. apply (count_occ_not_In Z.eq_dec). auto. Qed.

Lemma remove_rotation t : forall f f', py_remove Z.eqb t f = Ok f' -> exists a b, f = a ++ t :: b /\ f' = a ++ b /\ ~ In t a.
Proof.
  induction f as [|x f IH]; intros f' H; [discriminate|]. cbn [py_remove] in H. destruct (Z.eqb_spec x t) as [->|Hx].
  - apply Ok_inj in H. subst f'. exists [], f. auto.
  - apply bind_ok in H. destruct H as (g & Hg & H). apply Ok_inj in H. subst f'.
    destruct (IH _ Hg) as (a & b & -> & -> & Ha). exists (x :: a), b. repeat split; auto. intros [->|]; auto.
Qed.

Lemma remove_once t f f' u : rotation_of f (t :: u) -> ~ In t u -> py_remove Z.eqb t f = Ok f' -> rotation_of f' u.
Proof.
  intros R Hu H. destruct (remove_rotation H) as (a & b & -> & -> & _).
  assert (R' : rotation_of (a ++ t :: b) (t :: b ++ a)) by (exists a, (t :: b); auto).
  rewrite (rotation_unique R R' Hu). exists a, b. auto.
Qed.

Lemma same_refl F : same_faces F F.
Proof. exists F. split; [reflexivity|]. induction F; constructor; auto. apply rotation_of_refl. Qed.

Lemma forall2_refl (F : list (list Z)) : Forall2 (@rotation_of Z) F F.
Proof. induction F; constructor; auto. apply rotation_of_refl. Qed.

Lemma pick3 (F : list (list Z)) i j k x y z : i <> j -> i <> k -> j <> k ->
  nth_error F i = Some x -> nth_error F j = Some y -> nth_error F k = Some z -> exists rest, Permutation F (x :: y :: z :: rest).
Proof.
  intros Hij Hik Hjk Hx Hy Hz. set (G := del_at i F).
  assert (Gy : nth_error G (if Nat.ltb j i then j else j - 1) = Some y).
  { unfold G. rewrite nth_error_del_at. destruct (Nat.ltb_spec j i) as [L|L].
    - destruct (Nat.ltb_spec j i); [auto|lia].
    - destruct (Nat.ltb_spec (j - 1) i); [lia|]. replace (S (j - 1)) with j by lia. auto. }
  assert (Gz : nth_error G (if Nat.ltb k i then k else k - 1) = Some z).
  { unfold G. rewrite nth_error_del_at. destruct (Nat.ltb_spec k i) as [L|L].
    - destruct (Nat.ltb_spec k i); [auto|lia].
    - destruct (Nat.ltb_spec (k - 1) i); [lia|]. replace (S (k - 1)) with k by lia. auto. }
  eexists. rewrite (Permutation_del_at _ _ Hx) at 1. constructor. fold G.
  eapply del_two_perm; [|exact Gy|exact Gz]. destruct (Nat.ltb_spec j i), (Nat.ltb_spec k i); lia.
Qed.

Lemma twice_in (T : Type) (x : T) (f g : list T) F : In x f -> In x g -> ~ NoDup (f ++ g ++ F).
Proof.
  intros Hf Hg H. apply in_split in Hf as (f1 & f2 & ->). rewrite <- app_assoc in H. simpl in H. apply NoDup_remove_2 in H.
  apply H. rewrite !in_app_iff. auto.
Qed.

Lemma one_face (F : list (list Z)) i j f g d : NoDup (darts F) -> nth_error F i = Some f -> nth_error F j = Some g ->
  In d (darts_of f) -> In d (darts_of g) -> i = j.
Proof.
  intros Hn Hi Hj Hf Hg. destruct (Nat.eq_dec i j) as [|Hij]; auto. exfalso.
  pose proof (@del_two_perm _ _ _ _ _ Hij Hi Hj) as P. unfold darts in Hn.
  pose proof (Permutation_NoDup (concat_perm (Permutation_map darts_of P)) Hn) as Hn'. simpl in Hn'. exact (twice_in Hf Hg Hn').
Qed.

Lemma next_orig_rot firstSkel l i : next_orig firstSkel l = Ok i -> rotation_of (rot i l) l.
Proof. intros _. apply rotation_of_rot. Qed.

Lemma rotate_to_rotation x f g : rotate_to x f = Ok g -> exists t, g = x :: t /\ rotation_of f (x :: t).
Proof.
  intros H. destruct (@rotate_to_perm _ _ _ H) as (_ & t & ->). exists t. split; auto.
  unfold rotate_to in H. apply bind_ok in H. destruct H as (i & _ & H). apply Ok_inj in H. rewrite <- H. apply rotation_of_sym, rotation_of_rot.
Qed.

Section Spikes.
Context {A : arith}.
Variable verts : list (vec3 A).

Lemma is_spike_spiky p t n : is_spike verts (p, t, n) = Ok true -> spiky verts p t n.
Proof.
  unfold is_spike. intros H. apply bind_ok in H. destruct H as (vt & Ht & H). apply bind_ok in H. destruct H as (vp & Hp & H).
  apply bind_ok in H. destruct H as (vn & Hn & H). destruct (ntruth _ && ntruth _) eqn:E; [|discriminate H].
  apply andb_prop in E as [E1 E2]. apply bind_ok in H. destruct H as (c & Hc & H). apply Ok_inj in H. apply andb_prop in H as [H1 H2].
  exists vp, vt, vn. repeat (split; auto). exists c. auto.
Qed.

Variable firstSkel : Z.

Lemma pass_unspiked F F' : tidy verts F -> spike_pass verts firstSkel F (seq 0 (length F)) = Ok (Some F') ->
  exists p t n, (exists f, In f F /\ 3 < length f /\ consecutive f p t n) /\ spiky verts p t n /\ unspiked p t n F F'.
Proof.
  intros [Hone Htidy] H. apply spike_pass_some in H; [|intros i Hi; apply in_seq in Hi; lia].
  destruct H as (fi & face & p & t & n & r & l & fr & fl & Hf & H3 & (ptn & Hptn & Hin) & Hsp & Hr & Hhr & Hl & Hhl & H).
  pose proof (corner_consecutive Hptn Hin ltac:(lia)) as Hc. apply is_spike_spiky in Hsp. apply has_edge_dart in Hhr, Hhl.
  exists p, t, n. split; [exists face; split; [eapply nth_error_In; eauto|auto]|]. split; auto.
  specialize (Htidy face p t n (nth_error_In _ _ Hf) Hc Hsp). destruct Hc as (u & Hu).
  assert (Du : Permutation (darts_of face) (darts_of (p :: t :: n :: u))) by (apply darts_rotation; auto).
  assert (D1 : In (p, t) (darts_of face)) by (eapply Permutation_in; [symmetry; exact Du|rewrite darts_walk; simpl; auto]).
  assert (D2 : In (t, n) (darts_of face)) by (eapply Permutation_in; [symmetry; exact Du|rewrite darts_walk; simpl; auto]).
  unfold remove_spike in H. destruct (Z.eqb_spec p n) as [->|Hpn].
  - right. split; auto. destruct Htidy as [C1 C2].
    pose proof (one_face Hone Hf Hr D2 Hhr). pose proof (one_face Hone Hf Hl D1 Hhl). subst r l. rewrite Nat.eqb_refl in H.
    apply bind_ok in H. destruct H as (c1 & Hc1 & H). apply bind_ok in H. destruct H as (c2 & Hc2 & H).
    rewrite (nth_nth_error _ _ _ Hf) in Hc1.
    rewrite (rotation_count _ Hu) in C1. rewrite (rotation_count _ Hu) in C2. cbn [count_occ] in C1, C2.
    destruct (Z.eq_dec t t) as [_|]; [|congruence]. destruct (Z.eq_dec n n) as [_|]; [|congruence].
    destruct (Z.eq_dec n t) as [->|Hnt]; [lia|]. destruct (Z.eq_dec t n) as [->|_]; [congruence|].
    assert (Nt : ~ In t u) by (apply count_not_in; lia). assert (Nn : ~ In n u) by (apply count_not_in; lia).
    assert (R1 : rotation_of face (t :: n :: u ++ [n])).
    { eapply rotation_of_trans; [exact Hu|]. apply (rotation_step n (t :: n :: u)). }
    assert (R2 : rotation_of c1 (n :: u ++ [n])).
    { eapply remove_once; [exact R1| |exact Hc1]. simpl. rewrite in_app_iff. simpl. intuition. }
    assert (R3 : rotation_of c2 (n :: u)).
    { destruct (remove_rotation Hc2) as (a & b & -> & -> & Ha).
      assert (Rb : rotation_of (a ++ n :: b) (n :: b ++ a)) by (exists a, (n :: b); auto).
      destruct (rotation_of_trans (rotation_of_sym R2) Rb) as (l1 & l2 & E1 & E2).
      destruct l1 as [|x l1].
      { rewrite app_nil_r in E2. simpl in E1. subst l2. injection E2 as E2. 
        assert (Q : rotation_of (a ++ b) (b ++ a)) by (exists a, b; auto). rewrite E2 in Q.
        eapply rotation_of_trans; [exact Q|]. exists u, [n]. auto. }
      simpl in E1. injection E1 as <- E1. destruct l2 as [|y l2].
      { rewrite app_nil_r in E1. simpl in E2. injection E2 as E2.
        assert (Q : rotation_of (a ++ b) (b ++ a)) by (exists a, b; auto). rewrite E2, <- E1 in Q.
        eapply rotation_of_trans; [exact Q|]. exists u, [n]. auto. }
      simpl in E2. injection E2 as <- E2.
      (* u ++ [n] = l1 ++ n :: l2 with n not in u: l2 is empty *)
      assert (l2 = []).
      { destruct (exists_last (l := n :: l2) ltac:(discriminate)) as (w & z & Ew).
        rewrite Ew, app_assoc in E1. apply app_inj_tail in E1 as [E1 _].
        destruct w as [|w0 w]; [simpl in Ew; congruence|]. simpl in Ew. injection Ew as <- _. exfalso. apply Nn. rewrite E1. apply in_app_iff. simpl. auto. }
      subst l2. apply app_inj_tail in E1 as [E1 _]. subst l1. simpl in E2. 
      assert (Q : rotation_of (a ++ b) (b ++ a)) by (exists a, b; auto). rewrite E2 in Q. exact Q. }
    assert (Hlt : fi < length F) by (apply nth_error_Some; congruence).
    rewrite nth_set_at_eq in H by auto.
    assert (Hnot : py_in Z.eqb t c2 = false).
    { destruct (py_in Z.eqb t c2) eqn:E; auto. exfalso. unfold py_in in E. apply existsb_exists in E as (x & Hx & E). apply Z.eqb_eq in E. subst x.
      apply rotation_of_perm in R3. eapply Permutation_in in Hx; [|exact R3]. destruct Hx; auto. }
    rewrite Hnot in H. apply Ok_inj in H. subst F'.
    exists u, (del_at fi F). split.
    + exists (face :: del_at fi F). split; [apply Permutation_del_at; auto|]. constructor; auto. apply forall2_refl.
    + exists (c2 :: del_at fi F). split; [|constructor; auto; apply forall2_refl].
      apply Permutation_cons_inv with face. rewrite (Permutation_set_at _ _ c2 Hf). rewrite (Permutation_del_at _ _ Hf) at 1. apply perm_swap.
  - left. split; auto.
    destruct (Htidy fr (nth_error_In _ _ Hr)) as (Cr1 & Cr2 & Cr3). destruct (Htidy fl (nth_error_In _ _ Hl)) as (Cl1 & Cl2 & Cl3).
    destruct (Htidy face (nth_error_In _ _ Hf)) as (Cf1 & Cf2 & _).
    assert (Hrl : r <> l). { intros ->. rewrite Hr in Hl. injection Hl as ->. auto. }
    rewrite (rotation_count _ Hu) in Cf1. rewrite (rotation_count _ Hu) in Cf2. cbn [count_occ] in Cf1, Cf2.
    destruct (Z.eq_dec t t) as [_|]; [|congruence]. destruct (Z.eq_dec p p) as [_|]; [|congruence].
    destruct (Z.eq_dec p t) as [->|Hpt]; [lia|]. destruct (Z.eq_dec n t) as [->|Hnt]; [lia|]. destruct (Z.eq_dec t p) as [->|_]; [congruence|].
    destruct (Z.eq_dec n p) as [->|_]; [congruence|].
    assert (Nt : ~ In t u) by (apply count_not_in; lia).
    assert (R1 : rotation_of face (t :: n :: u ++ [p])).
    { eapply rotation_of_trans; [exact Hu|]. apply (rotation_step p (t :: n :: u)). }
    assert (Nt' : ~ In t (n :: u ++ [p])) by (simpl; rewrite in_app_iff; simpl; intuition).
    assert (Hfr : fi <> r).
    { intros ->. rewrite Hf in Hr. injection Hr as <-. destruct (dart_rotation Hhr ltac:(congruence)) as (v & Hv).
      assert (Hv' : rotation_of face (t :: p :: v)).
      { eapply rotation_of_trans; [exact Hv|]. exists (p :: v), [t]. auto. }
      pose proof (rotation_unique R1 Hv' Nt') as E. injection E as E _. congruence. }
    assert (Hfl : fi <> l).
    { intros ->. rewrite Hf in Hl. injection Hl as <-. destruct (dart_rotation Hhl ltac:(congruence)) as (v & Hv).
      pose proof (rotation_unique R1 Hv Nt') as E. rewrite app_comm_cons in E. apply app_inj_tail in E as [_ E]. congruence. }
    destruct (Nat.eqb_spec r l) as [|_]; [contradiction|].
    apply bind_ok in H. destruct H as (m & Hm & H). destruct (zlist_eqb m _); [discriminate H|].
    apply bind_ok in H. destruct H as (f' & Hf' & H). apply Ok_inj in H. subst F'.
    rewrite (nth_nth_error _ _ _ Hf) in Hf'. rewrite (nth_nth_error _ _ _ Hr), (nth_nth_error _ _ _ Hl) in Hm.
    unfold merge_faces in Hm. apply bind_ok in Hm. destruct Hm as (r1 & Hr1 & Hm). apply bind_ok in Hm. destruct Hm as (l1 & Hl1 & Hm).
    apply bind_ok in Hm. destruct Hm as (i & Hi & Hm). apply Ok_inj in Hm. subst m.
    apply rotate_to_rotation in Hr1 as (w & -> & Hw). apply rotate_to_rotation in Hl1 as (w' & -> & Hw'). cbn [tl] in Hi |- *.
    destruct (dart_rotation Hhr ltac:(congruence)) as (v & Hv). destruct (dart_rotation Hhl ltac:(congruence)) as (v' & Hv').
    assert (Nw : ~ In p w). { rewrite (rotation_count _ Hw) in Cr2. cbn [count_occ] in Cr2. destruct (Z.eq_dec p p); [|congruence]. apply count_not_in. lia. }
    assert (Nw' : ~ In t w'). { rewrite (rotation_count _ Hw') in Cl1. cbn [count_occ] in Cl1. destruct (Z.eq_dec t t); [|congruence]. apply count_not_in. lia. }
    rewrite (rotation_unique Hw Hv Nw) in *. rewrite (rotation_unique Hw' Hv' Nw') in *. clear w w' Hw Hw' Nw Nw'.
    pose proof (remove_once R1 Nt' Hf') as Rf.
    destruct (pick3 Hfr Hfl Hrl Hf Hr Hl) as (rest & P).
    exists u, v, v', rest. split.
    + exists (face :: fr :: fl :: rest). split; auto. repeat (constructor; auto). apply forall2_refl.
    + set (m := (p :: v ++ [t]) ++ v' ++ [n]) in *. exists (f' :: rot i m :: rest). split.
      * assert (Q : Permutation (del_two r l (set_at fi f' F)) (f' :: rest)).
        { apply Permutation_app_inv_l with [face; fr; fl].
          assert (Hlt : fi < length F) by (apply nth_error_Some; congruence).
          pose proof (@del_two_perm r l (set_at fi f' F) fr fl Hrl) as Q.
          rewrite !nth_error_set_at_neq in Q by auto. specialize (Q Hr Hl).
          change ([face; fr; fl] ++ del_two r l (set_at fi f' F)) with (face :: fr :: fl :: del_two r l (set_at fi f' F)). rewrite <- Q.
          rewrite (Permutation_set_at _ _ f' Hf), P. simpl.
          transitivity (face :: f' :: fr :: fl :: rest); [apply perm_swap|]. constructor.
          transitivity (fr :: f' :: fl :: rest); [apply perm_swap|]. constructor. apply perm_swap. }
        rewrite Q. simpl. constructor. symmetry. apply Permutation_cons_append.
      * constructor; [|constructor; [|apply forall2_refl]].
        -- eapply rotation_of_trans; [exact Rf|]. exists (n :: u), [p]. auto.
        -- replace (p :: v ++ t :: v' ++ [n]) with m; [apply rotation_of_rot|]. unfold m. simpl. rewrite <- app_assoc. auto.
Qed.

(** ** the loop *)
Lemma run_border F steps : spike_run verts firstSkel F steps -> Forall (tidy verts) (F :: steps) ->
  forall a b, border (last steps F) a b = border F a b.
Proof.
  intros H. induction H as [F H|F F' t H Hr IH]; intros HT a b; [reflexivity|].
  apply Forall_cons_iff in HT as [T1 T2]. destruct (pass_unspiked T1 H) as (p & q & n & _ & _ & U).
  replace (last (F' :: t) F) with (last t F').
  - rewrite IH by auto. eapply unspiked_border; eauto.
  - destruct t as [|x t]; [reflexivity|]. clear. revert x. induction t as [|y t IH]; intros x; [reflexivity|]. apply (IH y).
Qed.

Lemma run_despiked F steps : spike_run verts firstSkel F steps -> despiked verts F steps.
Proof. intros H. induction H as [F H|F F' t H Hr IH]; constructor; auto. intros T. eapply pass_unspiked; eauto. Qed.

Lemma spikes_border F F' : remove_spikes verts firstSkel F = Ok F' ->
  exists steps, despiked verts F steps /\ F' = last steps F /\ (Forall (tidy verts) (F :: steps) -> forall a b, border F' a b = border F a b).
Proof.
  intros H. unfold remove_spikes in H. apply spike_loop_steps in H as (steps & H1 & -> & _). exists steps.
  split; [apply run_despiked; auto|]. split; auto. apply run_border; auto.
Qed.

End Spikes.

(** ** the border of the traced faces *)
Lemma plan_area_border pos F F' : (forall a b, border F' a b = border F a b) -> plan_area2 pos F' = plan_area2 pos F.
Proof. apply around_border. intros a b. unfold shoelace. ring. Qed.

Lemma count_dec D d : count_occ Z_pair_dec D d = count_occ dart_dec D d.
Proof. induction D as [|e D IH]; [reflexivity|]. simpl. rewrite IH. destruct (Z_pair_dec e d), (dart_dec e d); congruence. Qed.

Section Traced.
Variables (sw : Z -> Z -> bool) (es : list (Z * Z)) (emb : gdict) (sch : schedule) (nr : Z) (F : list (list Z)).
Hypothesis simple : no_parallel_edges es.
Hypothesis nbs : lists_neighbours es (neighbours emb).
Hypothesis traced : graph_faces sch (build sw es) emb nr = Ok F.

Lemma traced_edges a b : In (a, b) (darts F) -> has_edge_between es a b.
Proof.
  destruct (graph_faces_api sw simple nbs sch nr) as (r & Hr & H1 & _). rewrite traced in Hr. apply Ok_inj in Hr. subst r.
  intros H. apply in_concat in H as (ds & Hds & H). apply in_map_iff in Hds as (f & <- & Hf). destruct (H1 f Hf) as (_ & _ & H2 & _). auto.
Qed.

Lemma traced_once : NoDup (darts F).
Proof. destruct (graph_faces_api sw simple nbs sch nr) as (r & Hr & _ & H & _). rewrite traced in Hr. apply Ok_inj in Hr. subst r. exact H. Qed.

Lemma count_none a b : ~ has_edge_between es a b -> count_occ dart_dec (darts F) (a, b) = 0.
Proof. intros H. apply count_occ_not_In. intros Hi. apply H, traced_edges. auto. Qed.

Lemma edge_sym a b : has_edge_between es a b -> has_edge_between es b a.
Proof. intros [H1 H2]. split; auto. tauto. Qed.

(** an edge with a node is inside the surface *)
Lemma traced_inside a b : (nr <= a \/ nr <= b)%Z -> border F a b = 0%Z.
Proof.
  intros Hn. unfold border. destruct (in_dec dart_dec (a, b) (darts F)) as [Hi|Hi].
  - apply traced_edges in Hi. pose proof (@graph_faces_node_darts sw es emb simple nbs sch nr F traced) as K.
    pose proof (K a b Hi Hn) as K1. pose proof (K b a (edge_sym Hi) ltac:(tauto)) as K2. rewrite count_dec in K1, K2. unfold darts. lia.
  - destruct (in_dec dart_dec (b, a) (darts F)) as [Hj|Hj].
    + apply traced_edges in Hj. pose proof (@graph_faces_node_darts sw es emb simple nbs sch nr F traced) as K.
      pose proof (K b a Hj ltac:(tauto)) as K1. pose proof (K a b (edge_sym Hj) Hn) as K2. rewrite count_dec in K1, K2. unfold darts. lia.
    + apply (count_occ_not_In dart_dec) in Hi, Hj. lia.
Qed.

Variables (walls : list (list Z)) (arcs : list (Z * Z)).
Hypothesis split : Permutation es (darts walls ++ arcs).
Hypothesis wall_low : forall a b, In (a, b) (darts walls) -> (a < nr)%Z /\ (b < nr)%Z.
Hypothesis arc_node : forall a b, In (a, b) arcs -> (nr <= a \/ nr <= b)%Z.
Hypothesis inside : forall a b, In (a, b) (darts walls) -> In (a, b) (darts F) /\ ~ In (b, a) (darts F).

Lemma joins_count (l : list (Z * Z)) a b : a <> b -> length (filter (joins a b) l) = count_occ dart_dec l (a, b) + count_occ dart_dec l (b, a).
Proof.
  intros Hab. induction l as [|[x y] l IH]; [reflexivity|]. cbn [filter count_occ]. unfold joins at 1. cbn [fst snd].
  destruct (dart_dec (x, y) (a, b)) as [E|E], (dart_dec (x, y) (b, a)) as [E'|E'].
  - congruence.
  - injection E as -> ->. rewrite !Z.eqb_refl. simpl. lia.
  - injection E' as -> ->. rewrite !Z.eqb_refl, Bool.orb_true_r. simpl. lia.
  - replace (((x =? a) && (y =? b)) || ((x =? b) && (y =? a)))%Z with false; auto. symmetry. apply Bool.orb_false_iff.
    split; apply Bool.andb_false_iff.
    + destruct (Z.eqb_spec x a), (Z.eqb_spec y b); auto. congruence.
    + destruct (Z.eqb_spec x b), (Z.eqb_spec y a); auto. congruence.
Qed.

Lemma traced_border a b : border F a b = border walls a b.
Proof.
  destruct (Z.eq_dec a b) as [->|Hab]; [unfold border; lia|].
  assert (Hc : count_occ dart_dec (darts walls) (a, b) + count_occ dart_dec (darts walls) (b, a) <= 1).
  { specialize (simple a b). unfold multiplicity in simple. destruct (Z.eqb_spec a b); [contradiction|].
    rewrite (joins_count es Hab) in simple. rewrite !(proj1 (Permutation_count_occ dart_dec _ _) split), !count_occ_app in simple. lia. }
  assert (W : forall x y, In (x, y) (darts walls) -> count_occ dart_dec (darts F) (x, y) = 1 /\ count_occ dart_dec (darts F) (y, x) = 0).
  { intros x y H. destruct (inside H) as [I1 I2]. split; [|apply count_occ_not_In; auto]. apply NoDup_count_occ'; auto. apply traced_once. }
  destruct (Z_le_gt_dec nr a) as [Ha|Ha]; [|destruct (Z_le_gt_dec nr b) as [Hb|Hb]].
  1, 2: rewrite traced_inside by auto; unfold border; rewrite (proj1 (count_occ_not_In dart_dec _ (a, b))), (proj1 (count_occ_not_In dart_dec _ (b, a)));
    [reflexivity| |]; intros H; apply wall_low in H; lia.
  unfold border. destruct (in_dec dart_dec (a, b) (darts walls)) as [Hi|Hi].
  - destruct (W _ _ Hi) as [-> ->]. apply (count_occ_In dart_dec) in Hi. replace (count_occ dart_dec (darts walls) (a, b)) with 1 by lia.
    replace (count_occ dart_dec (darts walls) (b, a)) with 0 by lia. reflexivity.
  - destruct (in_dec dart_dec (b, a) (darts walls)) as [Hj|Hj].
    + destruct (W _ _ Hj) as [-> ->]. apply (count_occ_In dart_dec) in Hj. replace (count_occ dart_dec (darts walls) (b, a)) with 1 by lia.
      replace (count_occ dart_dec (darts walls) (a, b)) with 0 by lia. reflexivity.
    + assert (N : forall x y, (x < nr)%Z -> (y < nr)%Z -> ~ In (x, y) (darts walls) -> ~ In (y, x) (darts walls) -> ~ has_edge_between es x y).
      { intros x y Hx Hy N1 N2 [_ [K|K]]; (eapply Permutation_in in K; [|exact split]); apply in_app_iff in K as [K|K]; auto; apply arc_node in K; lia. }
      rewrite !count_none by (apply N; auto; lia). apply (count_occ_not_In dart_dec) in Hi, Hj. lia.
Qed.
End Traced.

(** ** as used *)
Lemma spikes_border_area (A : arith) (verts : list (vec3 A)) nr F F' : remove_spikes verts nr F = Ok F' ->
  exists steps, despiked verts F steps /\ F' = last steps F /\
    (Forall (tidy verts) (F :: steps) ->
     (forall a b, border F' a b = border F a b) /\ (forall pos, plan_area2 pos F' = plan_area2 pos F)).
Proof.
  intros H. destruct (spikes_border H) as (steps & H1 & H2 & H3). exists steps. split; auto. split; auto. intros T.
  split; [auto|]. intros pos. apply plan_area_border. auto.
Qed.

Lemma traced_border_area sw es emb sch nr F : no_parallel_edges es -> lists_neighbours es (neighbours emb) ->
  graph_faces sch (build sw es) emb nr = Ok F ->
  (forall a b, (nr <= a \/ nr <= b)%Z -> border F a b = 0%Z) /\
  forall walls arcs, Permutation es (darts walls ++ arcs) ->
    (forall a b, In (a, b) (darts walls) -> (a < nr)%Z /\ (b < nr)%Z) ->
    (forall a b, In (a, b) arcs -> (nr <= a \/ nr <= b)%Z) ->
    (forall a b, In (a, b) (darts walls) -> In (a, b) (darts F) /\ ~ In (b, a) (darts F)) ->
    (forall a b, border F a b = border walls a b) /\ (forall pos, plan_area2 pos F = plan_area2 pos walls).
Proof.
  intros H1 H2 H3. split; [eapply traced_inside; eauto|]. intros walls arcs P W AR I.
  assert (B : forall a b, border F a b = border walls a b) by (eapply traced_border; eauto).
  split; auto. intros pos. apply plan_area_border. auto.
Qed.
