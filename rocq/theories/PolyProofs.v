(** * PolyProofs: lemmas about Poly.v for every arithmetic *)

From Coq Require Import Permutation.
From Verif Require Import Py PyFacts Arith Euclid PySort SortProofs Graph GraphSpec GraphProofs Lav Cluster Poly PolySpec.
Set Implicit Arguments.

(** ** subsequences *)
Lemma subsequence_refl T (l : list T) : subsequence l l.
Proof. induction l; constructor; auto. Qed.

Lemma subsequence_trans T (l1 l2 l3 : list T) : subsequence l1 l2 -> subsequence l2 l3 -> subsequence l1 l3.
Proof.
  intros H1 H2; revert l1 H1. induction H2 as [|x l2 l3 H IH|x l2 l3 H IH]; intros l1 H1; auto.
  - inversion H1; subst; [apply sub_keep | apply sub_drop]; auto.
  - apply sub_drop; auto.
Qed.

Lemma subsequence_In T (l1 l2 : list T) x : subsequence l1 l2 -> In x l1 -> In x l2.
Proof. induction 1; simpl; auto. intros [->|H1]; auto. Qed.

Lemma subsequence_app T (a b c d : list T) : subsequence a b -> subsequence c d -> subsequence (a ++ c) (b ++ d).
Proof. induction 1; simpl; intros; auto; [apply sub_keep | apply sub_drop]; auto. Qed.

Lemma subsequence_length T (l1 l2 : list T) : subsequence l1 l2 -> length l1 <= length l2.
Proof. induction 1; simpl; lia. Qed.

Lemma py_remove_subsequence T (eqb : T -> T -> bool) x l l' : py_remove eqb x l = Ok l' -> subsequence l' l.
Proof.
  intros H. apply py_remove_ok in H. destruct H as (l1 & y & l2 & -> & -> & _).
  apply subsequence_app; [apply subsequence_refl | apply sub_drop, subsequence_refl].
Qed.

Lemma py_remove_all_subsequence T (eqb : T -> T -> bool) xs : forall l l',
  py_remove_all eqb xs l = Ok l' -> subsequence l' l.
Proof.
  induction xs as [|x t IH]; simpl; intros l l' H.
  - apply Ok_inj in H; subst; apply subsequence_refl.
  - apply bind_ok in H. destruct H as (l1 & H1 & H2).
    eapply subsequence_trans; [apply IH; eauto | eapply py_remove_subsequence; eauto].
Qed.

Lemma Zeqb_eq a b : Z.eqb a b = true <-> a = b.
Proof. apply Z.eqb_eq. Qed.

Lemma py_remove_perm x l l' : py_remove Z.eqb x l = Ok l' -> Permutation l (x :: l').
Proof.
  intros H. apply py_remove_ok in H. destruct H as (l1 & y & l2 & -> & -> & E & _).
  apply Z.eqb_eq in E; subst. symmetry; apply Permutation_middle.
Qed.

Lemma py_remove_all_perm xs : forall l l', py_remove_all Z.eqb xs l = Ok l' -> Permutation l (xs ++ l').
Proof.
  induction xs as [|x t IH]; simpl; intros l l' H.
  - apply Ok_inj in H; subst; auto.
  - apply bind_ok in H. destruct H as (l1 & H1 & H2).
    rewrite (py_remove_perm _ _ H1). constructor. apply IH; auto.
Qed.

Lemma py_remove_Z_total x l : In x l -> exists l', py_remove Z.eqb x l = Ok l'.
Proof. intros H. apply py_remove_total, py_in_In; auto. apply Zeqb_eq. Qed.

Lemma py_remove_all_total xs : forall l,
  (forall v, count_occ Z.eq_dec xs v <= count_occ Z.eq_dec l v) -> exists l', py_remove_all Z.eqb xs l = Ok l'.
Proof.
  induction xs as [|x t IH]; simpl; intros l H; [eauto|].
  destruct (@py_remove_Z_total x l) as [l1 H1].
  { apply (count_occ_In Z.eq_dec). specialize (H x). destruct (Z.eq_dec x x); [lia|congruence]. }
  rewrite H1; cbn [bind]. apply IH. intros v. specialize (H v).
  apply py_remove_perm in H1.
  rewrite (proj1 (Permutation_count_occ Z.eq_dec _ _) H1 v) in H. simpl in H.
  destruct (Z.eq_dec x v); lia.
Qed.

Lemma subsequence_filter T (p : T -> bool) l1 l2 : subsequence l1 l2 ->
  length (filter p l1) = length (filter p l2) -> filter p l1 = filter p l2.
Proof.
  assert (Hle : forall l1 l2, subsequence l1 l2 -> length (filter p l1) <= length (filter p l2)).
  { induction 1; simpl; auto; destruct (p x); simpl; lia. }
  induction 1 as [|x l1 l2 H IH|x l1 l2 H IH]; simpl; auto.
  - destruct (p x); simpl; intros E; [f_equal; apply IH; lia | auto].
  - destruct (p x); simpl; intros E; [|auto]. specialize (Hle _ _ H). lia.
Qed.

Lemma filter_none T (p : T -> bool) l : (forall x, In x l -> p x = false) -> filter p l = [].
Proof.
  induction l as [|x t IH]; simpl; intros H; auto. rewrite (H x) by auto. apply IH; auto.
Qed.

(** ** exits of polygonize *)
Section Exits.
Context {A : arith}.

Lemma polygonize_exits fuel sw sch dbg (verts : list (vec3 A)) first cnt holes hgt tan faces us :
  let o := polygonize fuel sw sch dbg verts first cnt holes hgt tan faces us in
  (exists e, o = Outcome verts faces None (Err e)) \/
  (exists zBase center contours sk,
     prepare verts first cnt holes us = Ok (zBase, center, contours) /\
     skeletonize fuel contours = Ok sk /\
     ((exists e, slope sk hgt tan = Err e /\
         o = Outcome verts faces (if dbg then Some sk else None) (Err e)) \/
      (exists ta, slope sk hgt tan = Ok ta /\
         let verts' := verts ++ map (skeleton_node3D center ta zBase) sk in
         let rf := roof_faces sw sch verts' first cnt (match holes with Some h => h | None => [] end)
                     (concat contours) sk (Z.of_nat (length verts)) in
         (exists e, rf = Err e /\ o = Outcome verts' faces (if dbg then Some sk else None) (Err e)) \/
         (exists fs, rf = Ok fs /\
            o = Outcome verts' (match faces with None => None | Some old => Some (old ++ fs) end)
                  (if dbg then Some sk else None)
                  (Ok (match faces with None => fs | Some old => old ++ fs end)))))).
Proof.
  intros o. subst o. unfold polygonize.
  destruct (prepare verts first cnt holes us) as [[[zBase center] contours]|e] eqn:Hp; cbn [bind].
  - destruct (skeletonize fuel contours) as [sk|e] eqn:Hs; cbn [bind].
    + right. exists zBase, center, contours, sk. split; auto. split; auto.
      destruct (slope sk hgt tan) as [ta|e] eqn:Ht.
      * right. exists ta; split; auto. cbv zeta.
        destruct (roof_faces _ _ _ _ _ _ _ _ _) as [fs|e] eqn:Hf.
        -- right. exists fs; split; auto. destruct faces; auto.
        -- left. eauto.
      * left. exists e; auto.
    + left; eauto.
  - left; eauto.
Qed.
End Exits.

(** ** spike removal *)
Lemma has_edge_no_fuel a b f e : has_edge a b f = Err e -> e = ValueError /\ f = [].
Proof.
  unfold has_edge. destruct f as [|x t]; simpl; [intros H; injection H; auto|discriminate].
Qed.

Lemma has_edge_In a b f : has_edge a b f = Ok true -> In a f /\ In b f.
Proof.
  unfold has_edge. intros H. apply bind_ok in H. destruct H as (pn & Hpn & H).
  apply Ok_inj in H. apply existsb_exists in H. destruct H as ([p n] & Hin & E).
  simpl in E. apply andb_true_iff in E. rewrite !Z.eqb_eq in E. destruct E; subst.
  apply In_nth_error in Hin. destruct Hin as [i Hi].
  assert (Hl : i < length f). { rewrite <- (circ_prev_next_length _ Hpn). apply nth_error_Some; congruence. }
  destruct (circ_prev_next_nth _ Hpn Hl) as (p & n & Hp & Hn & E).
  rewrite Hi in E. injection E; intros; subst. split; eapply nth_error_In; eauto.
Qed.

Lemma adjacent_faces_spec prev this nxt : forall faces i r l r' l',
  adjacent_faces prev this nxt i faces r l = Ok (r', l') ->
  (forall k, r' = Some k -> r = Some k \/
     (i <= k /\ exists f, nth_error faces (k - i) = Some f /\ has_edge this prev f = Ok true)) /\
  (forall k, l' = Some k -> l = Some k \/
     (i <= k /\ exists f, nth_error faces (k - i) = Some f /\ has_edge nxt this f = Ok true)).
Proof.
  induction faces as [|f t IH]; simpl; intros i r l r' l' H.
  - apply Ok_inj in H. injection H; intros; subst; auto.
  - apply bind_ok in H. destruct H as (br & Hbr & H). apply bind_ok in H. destruct H as (bl & Hbl & H).
    apply IH in H. destruct H as [H1 H2]. split.
    + intros k Hk. destruct (H1 k Hk) as [E|(Hle & g & Hg & Hh)].
      * destruct br; [|auto]. injection E; intros; subst. right. split; [lia|].
        exists f. rewrite Nat.sub_diag; auto.
      * right; split; [lia|]. exists g; split; auto. replace (k - i) with (S (k - S i)) by lia. auto.
    + intros k Hk. destruct (H2 k Hk) as [E|(Hle & g & Hg & Hh)].
      * destruct bl; [|auto]. injection E; intros; subst. right. split; [lia|].
        exists f. rewrite Nat.sub_diag; auto.
      * right; split; [lia|]. exists g; split; auto. replace (k - i) with (S (k - S i)) by lia. auto.
Qed.

Lemma total_length_app l1 l2 : total_length (l1 ++ l2) = total_length l1 + total_length l2.
Proof. unfold total_length. rewrite concat_app, app_length; auto. Qed.

Lemma total_length_cons f l : total_length (f :: l) = length f + total_length l.
Proof. unfold total_length. simpl. rewrite app_length; auto. Qed.

Lemma total_length_perm l1 l2 : Permutation l1 l2 -> total_length l1 = total_length l2.
Proof. induction 1; rewrite ?total_length_cons in *; try lia; auto. Qed.

Lemma total_length_set_at i f' l f : nth_error l i = Some f ->
  total_length (set_at i f' l) + length f = total_length l + length f'.
Proof.
  intros H. pose proof (total_length_perm (Permutation_set_at _ _ f' H)) as E.
  rewrite !total_length_cons in E. lia.
Qed.

Lemma total_length_del_at i l f : nth_error l i = Some f -> total_length (del_at i l) + length f = total_length l.
Proof.
  intros H. pose proof (total_length_perm (Permutation_del_at _ _ H)) as E.
  rewrite total_length_cons in E. lia.
Qed.

Lemma nth_error_del_at T (l : list T) i j : nth_error (del_at i l) j = nth_error l (if Nat.ltb j i then j else S j).
Proof.
  revert i j; induction l as [|x t IH]; intros [|i] [|j]; simpl; auto.
  - destruct (Nat.ltb _ _); auto.
  - rewrite IH. change (Nat.ltb (S j) (S i)) with (Nat.ltb j i). destruct (Nat.ltb j i); auto.
Qed.

(** the two faces deleted, whatever their order *)
Lemma del_two_perm r l fs fr fl : r <> l -> nth_error fs r = Some fr -> nth_error fs l = Some fl ->
  Permutation fs (fr :: fl :: del_two r l fs).
Proof.
  intros Hne Hr Hl. unfold del_two. destruct (Nat.ltb_spec r l).
  - rewrite (Permutation_del_at _ _ Hl) at 1.
    assert (H' : nth_error (del_at l fs) r = Some fr).
    { rewrite nth_error_del_at. destruct (Nat.ltb_spec r l); [auto|lia]. }
    rewrite (Permutation_del_at _ _ H') at 1. apply perm_swap.
  - rewrite (Permutation_del_at _ _ Hr) at 1.
    assert (H' : nth_error (del_at r fs) l = Some fl).
    { rewrite nth_error_del_at. destruct (Nat.ltb_spec l r); [auto|lia]. }
    rewrite (Permutation_del_at _ _ H') at 1. auto.
Qed.

Lemma rotate_to_perm x l l' : rotate_to x l = Ok l' -> Permutation l l' /\ exists t, l' = x :: t.
Proof.
  unfold rotate_to. intros H. apply bind_ok in H. destruct H as (i & Hi & H).
  apply of_option_ok in Hi. apply Ok_inj in H; subst.
  destruct (find_pos_some _ _ Hi) as (y & Hy & E & _). apply Z.eqb_eq in E; subst.
  split; [symmetry; apply Permutation_rot|]. rewrite (rot_hd _ _ Hy). eauto.
Qed.

Lemma merge_faces_perm firstSkel R L prev this m : merge_faces firstSkel R L prev this = Ok m ->
  Permutation (R ++ L) (this :: m).
Proof.
  unfold merge_faces. intros H. apply bind_ok in H. destruct H as (r & Hr & H).
  apply bind_ok in H. destruct H as (l & Hl & H). apply bind_ok in H. destruct H as (i & Hi & H).
  apply Ok_inj in H; subst. apply rotate_to_perm in Hr. apply rotate_to_perm in Hl.
  destruct Hr as [Hr _], Hl as [Hl [t ->]]. simpl.
  rewrite (Permutation_rot i). rewrite Hr, Hl. symmetry; apply Permutation_middle.
Qed.

Lemma nth_nth_error T (l : list T) i d x : nth_error l i = Some x -> nth i l d = x.
Proof. intros H. apply nth_error_nth; auto. Qed.

Lemma concat_perm T (a b : list (list T)) : Permutation a b -> Permutation (concat a) (concat b).
Proof.
  induction 1; simpl; auto.
  - apply Permutation_app_head; auto.
  - rewrite !app_assoc. apply Permutation_app_tail, Permutation_app_comm.
  - etransitivity; eauto.
Qed.

(** what one removal does to the multiset of corners *)
Lemma remove_spike_corners firstSkel faces fi prev this r l fs fface fr fl :
  nth_error faces fi = Some fface -> nth_error faces r = Some fr -> nth_error faces l = Some fl ->
  remove_spike firstSkel faces fi prev this r l = Ok fs ->
  exists gone, Permutation (concat faces) (gone ++ concat fs) /\ gone <> [] /\
               (forall v, In v gone -> v = this \/ v = prev).
Proof.
  intros Hf Hr Hl H. unfold remove_spike in H.
  assert (Hset : forall i (f f' : list Z) fs0, nth_error fs0 i = Some f ->
            Permutation (f ++ concat (set_at i f' fs0)) (f' ++ concat fs0)).
  { intros i f f' fs0 Hi. exact (concat_perm (Permutation_set_at _ _ f' Hi)). }
  destruct (Nat.eqb_spec r l) as [->|Hne].
  - rewrite Hr in Hl. injection Hl; intros; subst fl. clear Hl.
    apply bind_ok in H. destruct H as (c1 & Hc1 & H). apply bind_ok in H. destruct H as (c2 & Hc2 & H).
    rewrite (nth_nth_error _ _ _ Hr) in Hc1.
    apply py_remove_perm in Hc1. apply py_remove_perm in Hc2.
    assert (P1 : Permutation (concat faces) (this :: prev :: concat (set_at l c2 faces))).
    { apply Permutation_app_inv_l with (l := c2). rewrite <- (Hset l fr c2 faces Hr).
      rewrite Hc1, Hc2. simpl. rewrite <- !Permutation_middle. auto. }
    destruct (py_in Z.eqb this _) eqn:Ein.
    + apply bind_ok in H. destruct H as (f' & Hf' & H). apply Ok_inj in H; subst fs.
      assert (Hlt : fi < length (set_at l c2 faces))
        by (rewrite set_at_length; apply nth_error_Some; congruence).
      destruct (nth_error (set_at l c2 faces) fi) as [g|] eqn:Hg; [|apply nth_error_None in Hg; lia].
      rewrite (nth_nth_error _ _ _ Hg) in Hf'. apply py_remove_perm in Hf'.
      exists [this; prev; this]. split; [|split; [discriminate|]].
      * rewrite P1. simpl. do 2 constructor.
        apply Permutation_app_inv_l with (l := f'). rewrite <- (Hset fi g f' _ Hg).
        rewrite Hf'. simpl. apply Permutation_middle.
      * simpl; intros v [<-|[<-|[<-|[]]]]; auto.
    + apply Ok_inj in H; subst fs. exists [this; prev]. split; [exact P1|]. split; [discriminate|].
      simpl; intros v [<-|[<-|[]]]; auto.
  - apply bind_ok in H. destruct H as (m & Hm & H).
    destruct (zlist_eqb _ _); [discriminate|].
    apply bind_ok in H. destruct H as (f' & Hf' & H). apply Ok_inj in H; subst fs.
    rewrite (nth_nth_error _ _ _ Hr), (nth_nth_error _ _ _ Hl) in Hm.
    rewrite (nth_nth_error _ _ _ Hf) in Hf'.
    apply merge_faces_perm in Hm. apply py_remove_perm in Hf'.
    rewrite concat_app. simpl. rewrite app_nil_r.
    set (faces1 := set_at fi f' faces).
    assert (P1 : Permutation (concat faces) (this :: concat faces1)).
    { apply Permutation_app_inv_l with (l := f'). unfold faces1. rewrite <- (Hset fi fface f' _ Hf).
      rewrite Hf'. simpl. rewrite <- Permutation_middle. auto. }
    assert (Hget : forall i g, nth_error faces i = Some g ->
              exists g', nth_error faces1 i = Some g' /\ (if Nat.eqb fi i then g' = f' /\ g = fface else g' = g)).
    { intros i g Hi. unfold faces1. destruct (Nat.eqb_spec fi i) as [->|Hn].
      - rewrite nth_error_set_at_eq by (apply nth_error_Some; congruence). exists f'; split; auto.
        split; auto. congruence.
      - rewrite nth_error_set_at_neq by auto. eauto. }
    destruct (Hget _ _ Hr) as (gr & Hgr & Er). destruct (Hget _ _ Hl) as (gl & Hgl & El).
    pose proof (@del_two_perm r l faces1 gr gl Hne Hgr Hgl) as P2.
    assert (P3 : Permutation (concat faces1) (gr ++ gl ++ concat (del_two r l faces1))).
    { exact (concat_perm P2). }
    destruct (Nat.eqb_spec fi r) as [->|Hnr]; [|destruct (Nat.eqb_spec fi l) as [->|Hnl]].
    + (* the spike is in the right face *)
      destruct Er as [-> ->]. destruct (Nat.eqb_spec r l); [congruence|]. subst gl.
      exists [this]. split; [|split; [discriminate|simpl; intros v [<-|[]]; auto]].
      rewrite P1, P3. simpl.
      rewrite Hf' in Hm. simpl in Hm. 
      apply Permutation_app_inv_l with (l := []). simpl. constructor.
      apply Permutation_cons_inv in Hm. rewrite app_assoc, Hm. apply Permutation_app_comm.
    + destruct El as [-> ->]. subst gr.
      exists [this]. split; [|split; [discriminate|simpl; intros v [<-|[]]; auto]].
      rewrite P1, P3. simpl. constructor.
      rewrite Hf', <- Permutation_middle in Hm. apply Permutation_cons_inv in Hm.
      rewrite app_assoc, Hm. apply Permutation_app_comm.
    + subst gr gl. exists [this; this]. split; [|split; [discriminate|simpl; intros v [<-|[<-|[]]]; auto]].
      rewrite P1, P3. simpl. constructor. rewrite app_assoc, Hm. simpl. constructor. apply Permutation_app_comm.
Qed.

(** ** exceptions raised while looking for spikes *)
Lemma py_get_err T (l : list T) i e : py_get l i = Err e -> e = IndexError.
Proof.
  unfold py_get. destruct (_ && _).
  - destruct (nth_error _ _); simpl; [discriminate|]. intros H; injection H; auto.
  - intros H; injection H; auto.
Qed.

Lemma py_remove_err T (eqb : T -> T -> bool) x l e : py_remove eqb x l = Err e -> e = ValueError.
Proof.
  induction l as [|y t IH]; simpl.
  - intros H; injection H; auto.
  - destruct (eqb y x); [discriminate|]. intros H. apply bind_err in H.
    destruct H as [H|(a & _ & H)]; [auto|discriminate].
Qed.

Lemma py_remove_all_err T (eqb : T -> T -> bool) xs : forall l e, py_remove_all eqb xs l = Err e -> e = ValueError.
Proof.
  induction xs as [|x t IH]; simpl; intros l e H; [discriminate|].
  apply bind_err in H. destruct H as [H|(a & _ & H)]; [eapply py_remove_err|]; eauto.
Qed.

Lemma circ_prev_next_err T (l : list T) e : circ_prev_next l = Err e -> e = ValueError /\ l = [].
Proof. destruct l; simpl; [intros H; injection H; auto|discriminate]. Qed.

Lemma circ_prev_this_next_err T (l : list T) e : circ_prev_this_next l = Err e -> e = ValueError /\ l = [].
Proof. destruct l; simpl; [intros H; injection H; auto|discriminate]. Qed.

Section Spikes.
Context {A : arith}.
Variable verts : list (vec3 A).
Variable firstSkel : Z.

Lemma pdiv_err (x y : num A) e : pdiv x y = Err e -> e = ZeroDivisionError.
Proof. unfold pdiv. destruct (neqb _ _); [intros H; injection H; auto|discriminate]. Qed.

Definition lookup_exn e := e = IndexError \/ e = ZeroDivisionError.

Lemma is_spike_err p e : is_spike verts p = Err e -> lookup_exn e.
Proof.
  unfold is_spike, lookup_exn. destruct p as [[prev this] nxt]. intros H.
  apply bind_err in H. destruct H as [H|(vt & _ & H)]; [left; eapply py_get_err; eauto|].
  apply bind_err in H. destruct H as [H|(vp & _ & H)]; [left; eapply py_get_err; eauto|].
  apply bind_err in H. destruct H as [H|(vn & _ & H)]; [left; eapply py_get_err; eauto|].
  destruct (_ && _); [|discriminate].
  apply bind_err in H. destruct H as [H|(d & _ & H)]; [right; eapply pdiv_err; eauto|discriminate].
Qed.

Lemma find_spike_err l e : find_spike verts l = Err e -> lookup_exn e.
Proof.
  induction l as [|p t IH]; simpl; [discriminate|]. intros H.
  apply bind_err in H. destruct H as [H|(b & _ & H)]; [eapply is_spike_err; eauto|].
  destruct b; [discriminate|auto].
Qed.

Lemma find_spike_in l p : find_spike verts l = Ok (Some p) -> In p l /\ is_spike verts p = Ok true.
Proof.
  induction l as [|q t IH]; simpl; [discriminate|]. intros H.
  apply bind_ok in H. destruct H as (b & Hb & H). destruct b.
  - apply Ok_inj in H. injection H; intros; subst; auto.
  - destruct (IH H); auto.
Qed.

Lemma adjacent_faces_err prev this nxt : forall faces i r l e,
  adjacent_faces prev this nxt i faces r l = Err e -> e = ValueError.
Proof.
  induction faces as [|f t IH]; simpl; intros i r l e H; [discriminate|].
  apply bind_err in H. destruct H as [H|(br & _ & H)]; [apply has_edge_no_fuel in H; tauto|].
  apply bind_err in H. destruct H as [H|(bl & _ & H)]; [apply has_edge_no_fuel in H; tauto|].
  eauto.
Qed.

Lemma remove_spike_err faces fi prev this r l e :
  remove_spike firstSkel faces fi prev this r l = Err e -> e <> OutOfFuel.
Proof.
  unfold remove_spike. destruct (Nat.eqb r l); intros H.
  - apply bind_err in H. destruct H as [H|(c1 & _ & H)]; [apply py_remove_err in H; congruence|].
    apply bind_err in H. destruct H as [H|(c2 & _ & H)]; [apply py_remove_err in H; congruence|].
    destruct (py_in _ _ _); [|discriminate].
    apply bind_err in H. destruct H as [H|(f' & _ & H)]; [apply py_remove_err in H; congruence|discriminate].
  - apply bind_err in H. destruct H as [H|(m & _ & H)].
    + unfold merge_faces, rotate_to in H.
      repeat (apply bind_err in H; destruct H as [H|(? & _ & H)]; [|]); try discriminate;
        try (repeat (apply bind_err in H; destruct H as [H|(? & _ & H)]); try discriminate;
             destruct (find_pos _ _); [discriminate|injection H; congruence]).
      unfold next_orig in H. destruct (find _ _) as [[? ?]|]; [discriminate|injection H; congruence].
    + destruct (zlist_eqb _ _); [injection H; congruence|].
      apply bind_err in H. destruct H as [H|(f' & _ & H)]; [apply py_remove_err in H; congruence|discriminate].
Qed.

Lemma spike_pass_err faces fis e : spike_pass verts firstSkel faces fis = Err e -> e <> OutOfFuel.
Proof.
  induction fis as [|fi t IH]; simpl; [discriminate|]. destruct (Nat.leb _ _); [auto|]. intros H.
  apply bind_err in H. destruct H as [H|(ptn & _ & H)]; [apply circ_prev_this_next_err in H; destruct H; congruence|].
  apply bind_err in H. destruct H as [H|(sp & _ & H)];
    [apply find_spike_err in H; destruct H; congruence|].
  destruct sp as [[[prev this] nxt]|]; [|auto].
  apply bind_err in H. destruct H as [H|([r l] & _ & H)]; [apply adjacent_faces_err in H; congruence|].
  destruct r as [r|]; [|auto]. destruct l as [l|]; [|auto].
  apply bind_err in H. destruct H as [H|(fs & _ & H)]; [|discriminate].
  eapply remove_spike_err; eauto.
Qed.

(** what a successful pass did *)
Lemma spike_pass_some faces fis fs : (forall i, In i fis -> i < length faces) ->
  spike_pass verts firstSkel faces fis = Ok (Some fs) ->
  exists fi face prev this nxt r l fr fl,
    nth_error faces fi = Some face /\ 3 < length face /\
    (exists ptn, circ_prev_this_next face = Ok ptn /\ In (prev, this, nxt) ptn) /\
    is_spike verts (prev, this, nxt) = Ok true /\
    nth_error faces r = Some fr /\ has_edge this prev fr = Ok true /\
    nth_error faces l = Some fl /\ has_edge nxt this fl = Ok true /\
    remove_spike firstSkel faces fi prev this r l = Ok fs.
Proof.
  induction fis as [|fi t IH]; simpl; intros Hin H; [discriminate|].
  destruct (Nat.leb_spec (length (nth fi faces [])) 3); [apply IH; auto|].
  apply bind_ok in H. destruct H as (ptn & Hptn & H).
  apply bind_ok in H. destruct H as (sp & Hsp & H).
  destruct sp as [[[prev this] nxt]|]; [|apply IH; auto].
  apply bind_ok in H. destruct H as ([r l] & Hrl & H).
  destruct r as [r|]; [|apply IH; auto]. destruct l as [l|]; [|apply IH; auto].
  apply bind_ok in H. destruct H as (fs' & Hfs & H). apply Ok_inj in H. injection H; intros; subst fs'. clear H.
  apply adjacent_faces_spec in Hrl. destruct Hrl as [Hr Hl].
  destruct (Hr r eq_refl) as [E|(_ & fr & Hfr & Hhr)]; [discriminate|].
  destruct (Hl l eq_refl) as [E|(_ & fl & Hfl & Hhl)]; [discriminate|].
  rewrite Nat.sub_0_r in Hfr, Hfl. apply find_spike_in in Hsp. destruct Hsp.
  assert (Hn : nth_error faces fi = Some (nth fi faces [])) by (apply nth_error_nth'; auto).
  exists fi, (nth fi faces []), prev, this, nxt, r, l, fr, fl.
  repeat (split; [now eauto|]). auto.
Qed.

Lemma spike_pass_corners faces fs : spike_pass verts firstSkel faces (seq 0 (length faces)) = Ok (Some fs) ->
  exists gone, Permutation (concat faces) (gone ++ concat fs) /\ gone <> [] /\ incl gone (concat faces).
Proof.
  intros H. apply spike_pass_some in H; [|intros i Hi; apply in_seq in Hi; lia].
  destruct H as (fi & face & prev & this & nxt & r & l & fr & fl & Hf & _ & _ & _ & Hr & _ & Hl & _ & H).
  destruct (@remove_spike_corners firstSkel _ _ _ _ _ _ _ _ _ _ Hf Hr Hl H) as (gone & P & Hne & _).
  exists gone; repeat split; auto. intros v Hv. eapply Permutation_in; [symmetry; exact P|].
  apply in_or_app; auto.
Qed.

Lemma spike_pass_shorter faces fs : spike_pass verts firstSkel faces (seq 0 (length faces)) = Ok (Some fs) ->
  total_length fs < total_length faces.
Proof.
  intros H. destruct (spike_pass_corners _ H) as (gone & P & Hne & _).
  apply Permutation_length in P. rewrite app_length in P. unfold total_length.
  destruct gone; [congruence|]. simpl in P; lia.
Qed.

(** the successive face lists of the while loop *)
Inductive spike_run : list (list Z) -> list (list (list Z)) -> Prop :=
| spike_stop faces : spike_pass verts firstSkel faces (seq 0 (length faces)) = Ok None -> spike_run faces []
| spike_next faces faces' t : spike_pass verts firstSkel faces (seq 0 (length faces)) = Ok (Some faces') ->
    spike_run faces' t -> spike_run faces (faces' :: t).

Lemma spike_loop_fuel : forall fuel faces, total_length faces < fuel ->
  spike_loop fuel verts firstSkel faces <> Err OutOfFuel.
Proof.
  induction fuel as [|n IH]; intros faces Hf; [lia|]. simpl. intros H.
  apply bind_err in H. destruct H as [H|(o & Ho & H)]; [apply spike_pass_err in H; congruence|].
  destruct o as [fs|]; [|discriminate]. apply spike_pass_shorter in Ho. eapply IH; [|exact H]. lia.
Qed.

Lemma spike_loop_mono : forall fuel fuel' faces, fuel <= fuel' ->
  spike_loop fuel verts firstSkel faces <> Err OutOfFuel ->
  spike_loop fuel' verts firstSkel faces = spike_loop fuel verts firstSkel faces.
Proof.
  induction fuel as [|n IH]; intros fuel' faces Hle H; [exfalso; apply H; reflexivity|].
  destruct fuel' as [|m]; [lia|]. simpl in *.
  destruct (spike_pass _ _ _ _) as [[fs|]|e]; simpl in *; auto. apply IH; [lia|auto].
Qed.

Lemma remove_spikes_corners_aux : forall fuel faces fs, spike_loop fuel verts firstSkel faces = Ok fs ->
  exists gone, Permutation (concat faces) (gone ++ concat fs).
Proof.
  induction fuel as [|n IH]; intros faces fs H; [discriminate|]. simpl in H.
  apply bind_ok in H. destruct H as (o & Ho & H). destruct o as [fs1|].
  - destruct (IH _ _ H) as (g2 & P2). destruct (spike_pass_corners _ Ho) as (g1 & P1 & _).
    exists (g1 ++ g2). rewrite P1, P2, app_assoc; auto.
  - apply Ok_inj in H; subst. exists []; auto.
Qed.

Lemma remove_spikes_corners faces fs : remove_spikes verts firstSkel faces = Ok fs ->
  exists gone, Permutation (concat faces) (gone ++ concat fs).
Proof. apply remove_spikes_corners_aux. Qed.

Lemma spike_loop_steps : forall fuel faces fs, spike_loop fuel verts firstSkel faces = Ok fs ->
  exists steps, spike_run faces steps /\ fs = last steps faces /\ length steps + total_length fs <= total_length faces.
Proof.
  induction fuel as [|n IH]; intros faces fs H; [discriminate|]. simpl in H.
  apply bind_ok in H. destruct H as (o & Ho & H). destruct o as [fs1|].
  - destruct (IH _ _ H) as (st & Hst & Hl & Hlen). exists (fs1 :: st). repeat split.
    + econstructor; eauto.
    + rewrite Hl. destruct st; [reflexivity|]. simpl. clear. revert l. 
      induction st as [|y st IHs]; intros z; [reflexivity|]. apply (IHs y).
    + apply spike_pass_shorter in Ho. simpl. lia.
  - apply Ok_inj in H; subst. exists []; repeat split; auto. constructor; auto.
Qed.
End Spikes.

(** ** face clean-up *)
Section Clean.
Context {A : arith}.
Variable verts : list (vec3 A).
Variable firstSkel : Z.
Variable counts : Z -> nat.

Lemma parallel_at_ok acc p acc' : parallel_at verts counts firstSkel acc p = Ok acc' ->
  acc' = acc \/ (acc' = acc ++ [snd (fst p)] /\ (firstSkel <= snd (fst p))%Z /\ counts (snd (fst p)) < 3).
Proof.
  unfold parallel_at. destruct p as [[prev this] nxt]. simpl.
  destruct (Nat.ltb_spec (counts this) 3); simpl; [|intros H0; apply Ok_inj in H0; auto].
  destruct (Z.leb_spec firstSkel this); simpl; [|intros H1; apply Ok_inj in H1; auto].
  intros H1. apply bind_ok in H1. destruct H1 as (vt & _ & H1).
  apply bind_ok in H1. destruct H1 as (vp & _ & H1). apply bind_ok in H1. destruct H1 as (vn & _ & H1).
  destruct (_ && _).
  - apply bind_ok in H1. destruct H1 as (d & _ & H1). apply Ok_inj in H1. destruct (nltb _ _); subst; auto.
  - apply Ok_inj in H1. destruct (py_in _ _ _); subst; auto.
Qed.

Lemma parallel_scan_ok : forall l acc rm, parallel_scan verts counts firstSkel acc l = Ok rm ->
  exists ext, rm = acc ++ ext /\ subsequence ext (map (fun p => snd (fst p)) l) /\
              (forall v, In v ext -> (firstSkel <= v)%Z /\ counts v < 3).
Proof.
  induction l as [|p t IH]; simpl; intros acc rm H.
  - apply Ok_inj in H; subst. exists []. rewrite app_nil_r. repeat split; try constructor; simpl in *; tauto.
  - apply bind_ok in H. destruct H as (acc' & Ha & H). apply parallel_at_ok in Ha.
    destruct (IH _ _ H) as (ext & -> & Hs & Hx). destruct Ha as [->|(-> & H1 & H2)].
    + exists ext. split; auto. split; [apply sub_drop; auto|auto].
    + exists (snd (fst p) :: ext). rewrite <- app_assoc. split; auto. split; [apply sub_keep; auto|].
      intros v [Hv|Hv]; [subst v; auto|apply (Hx v); auto].
Qed.

Lemma circ_ptn_this T (l : list T) ptn : circ_prev_this_next l = Ok ptn -> map (fun p => snd (fst p)) ptn = l.
Proof.
  intros H. apply nth_error_ext. intros i. rewrite nth_error_map.
  destruct (Nat.lt_ge_cases i (length l)) as [Hi|Hi].
  - destruct (circ_prev_this_next_nth _ H Hi) as (p & c & n & _ & Hc & _ & ->). rewrite Hc; auto.
  - rewrite (proj2 (nth_error_None ptn i)); [|rewrite (circ_prev_this_next_length _ H); auto].
    simpl. symmetry. apply nth_error_None; auto.
Qed.

Lemma subsequence_count l1 l2 v : subsequence l1 l2 -> count_occ Z.eq_dec l1 v <= count_occ Z.eq_dec l2 v.
Proof. induction 1; simpl; auto; destruct (Z.eq_dec x v); lia. Qed.

Lemma fix_parallel_ok face face' : fix_parallel verts counts firstSkel face = Ok face' ->
  subsequence face' face /\
  (exists gone, Permutation face (gone ++ face') /\
     forall v, In v gone -> (firstSkel <= v)%Z /\ counts v < 3) /\
  (length face <= 3 -> face' = face).
Proof.
  unfold fix_parallel. destruct (Nat.ltb_spec 3 (length face)); intros H0.
  - apply bind_ok in H0. destruct H0 as (ptn & Hptn & H0). apply bind_ok in H0. destruct H0 as (rm & Hrm & H0).
    destruct (parallel_scan_ok _ _ Hrm) as (ext & E & Hs & Hx). simpl in E; subst ext.
    split; [eapply py_remove_all_subsequence; eauto|]. split; [|intros; lia].
    exists rm. split; auto. apply py_remove_all_perm; auto.
  - apply Ok_inj in H0; subst. split; [apply subsequence_refl|]. split; auto. exists []; split; [auto|simpl; tauto].
Qed.

Lemma parallel_scan_err : forall l acc e, parallel_scan verts counts firstSkel acc l = Err e -> lookup_exn e.
Proof.
  induction l as [|p t IH]; simpl; intros acc e H; [discriminate|].
  apply bind_err in H. destruct H as [H|(acc' & Ha & H)]; [|eauto].
  unfold parallel_at in H. destruct p as [[prev this] nxt]. unfold lookup_exn.
  destruct (_ && _); [|discriminate].
  apply bind_err in H. destruct H as [H|(vt & _ & H)]; [left; eapply py_get_err; eauto|].
  apply bind_err in H. destruct H as [H|(vp & _ & H)]; [left; eapply py_get_err; eauto|].
  apply bind_err in H. destruct H as [H|(vn & _ & H)]; [left; eapply py_get_err; eauto|].
  destruct (_ && _); [|discriminate].
  apply bind_err in H. destruct H as [H|(d & _ & H)]; [right; eapply pdiv_err; eauto|discriminate].
Qed.

Lemma fix_parallel_err face e : fix_parallel verts counts firstSkel face = Err e -> lookup_exn e.
Proof.
  unfold fix_parallel. destruct (Nat.ltb_spec 3 (length face)); intros H0; [|discriminate].
  apply bind_err in H0. destruct H0 as [H0|(ptn & Hptn & H0)];
    [apply circ_prev_this_next_err in H0; destruct H0; subst; simpl in *; lia|].
  apply bind_err in H0. destruct H0 as [H0|(rm & Hrm & H0)]; [eapply parallel_scan_err; eauto|].
  exfalso. destruct (parallel_scan_ok _ _ Hrm) as (ext & E & Hs & Hx). simpl in E; subst ext.
  rewrite (circ_ptn_this _ Hptn) in Hs.
  destruct (@py_remove_all_total rm face) as [l' Hl']; [intros v; apply subsequence_count; auto|congruence].
Qed.
End Clean.

Lemma circ_pn_fst T (l : list T) pn : circ_prev_next l = Ok pn -> Permutation (map fst pn) l.
Proof.
  destruct l as [|x t]; [discriminate|]. unfold circ_prev_next. intros H; apply Ok_inj in H; subst.
  rewrite map_fst_combine.
  - rewrite Permutation_cons_append. rewrite <- app_removelast_last by congruence. auto.
  - change (S (length (removelast (x :: t))) = S (length t)). rewrite removelast_length. simpl; lia.
Qed.

Lemma subsequence_map_filter T U (f : T -> U) (p : T -> bool) l : subsequence (map f (filter p l)) (map f l).
Proof. induction l as [|x t IH]; simpl; [constructor|]. destruct (p x); simpl; constructor; auto. Qed.

Lemma fix_identical_total face : face <> [] -> exists face', fix_identical face = Ok face'.
Proof.
  intros Hne. unfold fix_identical. destruct (circ_prev_next_total Hne) as [pn Hpn]. rewrite Hpn; simpl.
  apply py_remove_all_total. intros v.
  rewrite <- (proj1 (Permutation_count_occ Z.eq_dec _ _) (circ_pn_fst _ Hpn) v).
  apply subsequence_count, subsequence_map_filter.
Qed.

Lemma fix_identical_ok face face' : fix_identical face = Ok face' ->
  subsequence face' face /\
  (NoDup face -> 2 <= length face -> face' = face) /\
  (forall a b, In a face -> In b face -> a <> b -> incl face face').
Proof.
  unfold fix_identical. intros H. apply bind_ok in H. destruct H as (pn & Hpn & H).
  pose proof (py_remove_all_subsequence _ _ _ H) as Hsub.
  split; auto. 
  assert (Hlen := circ_prev_next_length _ Hpn).
  split.
  - intros Hnd Hl. replace (filter (fun p : Z * Z => (fst p =? snd p)%Z) pn) with (@nil (Z * Z)) in H.
    + simpl in H. apply Ok_inj in H; auto.
    + symmetry; apply filter_none. intros p Hp. apply In_nth_error in Hp. destruct Hp as [i Hi].
      assert (Hil : i < length face) by (rewrite <- Hlen; apply nth_error_Some; congruence).
      destruct (circ_prev_next_nth _ Hpn Hil) as (a & b & Ha & Hb & E). rewrite Hi in E. injection E; intros; subst p.
      simpl. apply Z.eqb_neq. intros ->.
      assert (Heq : (i + length face - 1) mod length face = i).
      { eapply (proj1 (NoDup_nth_error face)); [auto| |congruence]. apply Nat.mod_upper_bound; lia. }
      destruct i as [|i].
      * simpl in Heq. rewrite Nat.mod_small in Heq by lia. lia.
      * replace (S i + length face - 1) with (i + 1 * length face) in Heq by lia.
        rewrite Nat.mod_add in Heq by lia. rewrite Nat.mod_small in Heq by lia. lia.
  - intros a b Ha Hb Hab v Hv.
    (* some occurrence of v is followed by another vertex *)
    pose proof (py_remove_all_perm _ _ H) as P.
    destruct (in_dec Z.eq_dec v face') as [Hin|Hout]; auto. exfalso.
    assert (Hc : count_occ Z.eq_dec (map fst (filter (fun p => (fst p =? snd p)%Z) pn)) v
                 = count_occ Z.eq_dec face v).
    { rewrite (proj1 (Permutation_count_occ Z.eq_dec _ _) P v), count_occ_app.
      rewrite (proj1 (count_occ_not_In Z.eq_dec face' v) Hout). lia. }
    rewrite <- (proj1 (Permutation_count_occ Z.eq_dec _ _) (circ_pn_fst _ Hpn) v) in Hc.
    assert (Hall : forall p, In p pn -> fst p = v -> snd p = v).
    { intros p Hp E. revert Hc Hp. clear -E. induction pn as [|q t IH]; simpl; [tauto|].
      assert (Hle : count_occ Z.eq_dec (map fst (filter (fun p => (fst p =? snd p)%Z) t)) v
                    <= count_occ Z.eq_dec (map fst t) v).
      { apply subsequence_count, subsequence_map_filter. }
      destruct (Z.eqb_spec (fst q) (snd q)) as [Eq|Nq]; simpl.
      - destruct (Z.eq_dec (fst q) v); intros Hc [->|Hp]; try congruence; apply IH; auto; lia.
      - destruct (Z.eq_dec (fst q) v); intros Hc [->|Hp]; try congruence; try lia; apply IH; auto; lia. }
    (* so every vertex is v *)
    apply In_nth_error in Hv. destruct Hv as [i Hi].
    assert (Hil : i < length face) by (apply nth_error_Some; congruence).
    assert (Hsteps : forall k, nth_error face ((i + k) mod length face) = Some v).
    { induction k as [|k IHk].
      - rewrite Nat.add_0_r, Nat.mod_small; auto.
      - set (j := (i + S k) mod length face).
        assert (Hj : j < length face) by (apply Nat.mod_upper_bound; lia).
        destruct (circ_prev_next_nth _ Hpn Hj) as (p & n & Hp & Hn & Hpnj).
        assert (Ej : (j + length face - 1) mod length face = (i + k) mod length face).
        { unfold j. replace ((i + S k) mod length face + length face - 1)
            with ((i + S k) mod length face + (length face - 1)) by lia.
          rewrite Nat.add_mod_idemp_l by lia.
          replace (i + S k + (length face - 1)) with (i + k + 1 * length face) by lia.
          rewrite Nat.mod_add by lia. auto. }
        rewrite Ej, IHk in Hp. injection Hp; intros; subst p.
        rewrite Hn. f_equal. apply (Hall (v, n)); [eapply nth_error_In; eauto|auto]. }
    assert (Hallv : forall x, In x face -> x = v).
    { intros x Hx. apply In_nth_error in Hx. destruct Hx as [j Hj].
      assert (Hjl : j < length face) by (apply nth_error_Some; congruence).
      specialize (Hsteps (length face - i + j)).
      replace (i + (length face - i + j)) with (j + 1 * length face) in Hsteps by lia.
      rewrite Nat.mod_add, Nat.mod_small in Hsteps by lia. congruence. }
    apply Hab. rewrite (Hallv a Ha), (Hallv b Hb). auto.
Qed.

Lemma count_b_occ v l : count_b (Z.eqb v) l = count_occ Z.eq_dec l v.
Proof.
  induction l as [|x t IH]; [reflexivity|]. rewrite count_b_cons, IH. simpl.
  destruct (Z.eq_dec x v) as [->|Hn]; [rewrite Z.eqb_refl; auto|].
  destruct (Z.eqb_spec v x); [congruence|auto].
Qed.

Section CleanAll.
Context {A : arith}.
Variable verts : list (vec3 A).
Variable firstSkel : Z.

Definition removable (faces : list (list Z)) (v : Z) : Prop := (firstSkel <= v)%Z /\ corners faces v < 3.

Lemma fix_parallel_spec faces f f' :
  fix_parallel verts (fun v => count_b (Z.eqb v) (concat faces)) firstSkel f = Ok f' ->
  subsequence f' f /\
  footprint_part firstSkel f' = footprint_part firstSkel f /\
  (forall v, ~ removable faces v -> count_occ Z.eq_dec f' v = count_occ Z.eq_dec f v) /\
  (length f <= 3 -> f' = f).
Proof.
  intros H. apply fix_parallel_ok in H. destruct H as (Hs & (gone & P & Hg) & Ht).
  split; auto. split.
  - apply subsequence_filter; auto. rewrite (Permutation_length (Permutation_filter _ P)), filter_app, app_length.
    rewrite (filter_none (fun v => v <? firstSkel)%Z gone); auto.
    intros x Hx. apply Hg in Hx. apply Z.ltb_ge; tauto.
  - split; auto. intros v Hv. rewrite (proj1 (Permutation_count_occ Z.eq_dec _ _) P v), count_occ_app.
    destruct (in_dec Z.eq_dec v gone) as [Hin|Hout].
    + exfalso; apply Hv. apply Hg in Hin. unfold removable, corners. rewrite <- count_b_occ. auto.
    + apply (count_occ_not_In Z.eq_dec) in Hout. lia.
Qed.

Lemma footprint_In f v : (v < firstSkel)%Z -> In v f <-> In v (footprint_part firstSkel f).
Proof. intros H. unfold footprint_part. rewrite filter_In, Z.ltb_lt. tauto. Qed.

Lemma NoDup_subsequence T (l1 l2 : list T) : subsequence l1 l2 -> NoDup l2 -> NoDup l1.
Proof.
  induction 1; intros Hn; auto.
  - inversion Hn; subst. constructor; auto. intros Hx. apply H2. eapply subsequence_In; eauto.
  - inversion Hn; auto.
Qed.

Lemma two_distinct (l : list Z) a b : In a l -> In b l -> a <> b -> 2 <= length l.
Proof. destruct l as [|x [|y t]]; simpl; intros [] [] Hab; subst; try tauto; try congruence; lia. Qed.

Lemma clean_faces_spec faces fs : clean_faces verts firstSkel faces = Ok fs ->
  Forall2 (fun f f' =>
    subsequence f' f /\
    (forall a b, In a f -> In b f -> a <> b -> ~ removable faces a -> ~ removable faces b ->
       (forall v, In v f -> ~ removable faces v -> In v f') /\
       (NoDup f -> footprint_part firstSkel f' = footprint_part firstSkel f /\
                   (length f <= 3 -> f' = f)))) faces fs.
Proof.
  unfold clean_faces. intros H. apply mapM_ok in H. eapply Forall2_impl_in; [|exact H].
  intros f f' Hf _ Hff. cbv beta in Hff. apply bind_ok in Hff. destruct Hff as (f1 & H1 & H2).
  apply fix_parallel_spec in H1. destruct H1 as (S1 & F1 & C1 & T1).
  apply fix_identical_ok in H2. destruct H2 as (S2 & N2 & I2).
  split; [eapply subsequence_trans; eauto|].
  intros a b Ha Hb Hab Hra Hrb.
  assert (Hkeep : forall v, In v f -> ~ removable faces v -> In v f1).
  { intros v Hv Hr. apply (count_occ_In Z.eq_dec). rewrite C1 by auto. apply (count_occ_In Z.eq_dec); auto. }
  pose proof (Hkeep a Ha Hra) as Ha1. pose proof (Hkeep b Hb Hrb) as Hb1.
  split.
  - intros v Hv Hr. apply (I2 a b); auto.
  - intros Hn. assert (E : f' = f1).
    { apply N2; [eapply NoDup_subsequence; eauto|]. exact (@two_distinct f1 a b Ha1 Hb1 Hab). }
    subst f'. auto.
Qed.

Lemma clean_faces_err faces e : clean_faces verts firstSkel faces = Err e ->
  lookup_exn e \/ (e = ValueError /\ exists f, In f faces /\ forall v, In v f -> removable faces v).
Proof.
  unfold clean_faces. intros H. apply mapM_err in H. destruct H as (f & Hf & H).
  apply bind_err in H. destruct H as [H|(f1 & H1 & H)]; [left; eapply fix_parallel_err; eauto|].
  right. destruct f1 as [|x t].
  - simpl in H. injection H; intros; subst e. split; auto. exists f; split; auto.
    intros v Hv. apply fix_parallel_spec in H1. destruct H1 as (_ & _ & C1 & _).
    unfold removable. destruct (Z_le_gt_dec firstSkel v) as [Hz|Hz].
    + destruct (le_lt_dec 3 (corners faces v)) as [Hc|Hc]; auto.
      exfalso. assert (E : count_occ Z.eq_dec [] v = count_occ Z.eq_dec f v) by (apply C1; unfold removable; lia).
      simpl in E. apply (count_occ_In Z.eq_dec) in Hv. lia.
    + exfalso. assert (E : count_occ Z.eq_dec [] v = count_occ Z.eq_dec f v) by (apply C1; unfold removable; lia).
      simpl in E. apply (count_occ_In Z.eq_dec) in Hv. lia.
  - destruct (@fix_identical_total (x :: t)) as [f' E]; congruence.
Qed.
End CleanAll.

(** ** circular helpers *)
Lemma circ_prev_next_spec T (l : list T) :
  (l = [] -> circ_prev_next l = Err ValueError) /\
  (l <> [] -> exists pn, circ_prev_next l = Ok pn /\ length pn = length l /\
     forall i, i < length l -> exists p n, nth_error l ((i + length l - 1) mod length l) = Some p /\
       nth_error l i = Some n /\ nth_error pn i = Some (p, n)).
Proof.
  split; [intros ->; reflexivity|]. intros Hl. destruct (circ_prev_next_total Hl) as [pn H].
  exists pn. split; auto. split; [eapply circ_prev_next_length; eauto|].
  intros i Hi. destruct (circ_prev_next_nth _ H Hi) as (p & n & Hp & Hn & E). eauto.
Qed.

Lemma circ_prev_this_next_spec T (l : list T) :
  (l = [] -> circ_prev_this_next l = Err ValueError) /\
  (l <> [] -> exists ptn, circ_prev_this_next l = Ok ptn /\ length ptn = length l /\
     forall i, i < length l -> exists p c n, nth_error l ((i + length l - 1) mod length l) = Some p /\
       nth_error l i = Some c /\ nth_error l ((i + 1) mod length l) = Some n /\ nth_error ptn i = Some (p, c, n)).
Proof.
  split; [intros ->; reflexivity|]. intros Hl.
  destruct (circ_prev_this_next l) as [ptn|e] eqn:H; [|apply circ_prev_this_next_err in H; tauto].
  exists ptn. split; auto. split; [eapply circ_prev_this_next_length; eauto|].
  intros i Hi. apply (circ_prev_this_next_nth _ H Hi).
Qed.

(** ** the exits of polygonize, for the statements *)
Section Exits2.
Context {A : arith}.

Lemma polygonize_appends fuel sw sch dbg (verts : list (vec3 A)) first cnt holes hgt tan faces us :
  let o := polygonize fuel sw sch dbg verts first cnt holes hgt tan faces us in
  exists nodes, o_verts o = verts ++ nodes /\
    ((nodes = [] /\ exists e, o_result o = Err e) \/
     exists zBase center contours sk ta,
       prepare verts first cnt holes us = Ok (zBase, center, contours) /\ skeletonize fuel contours = Ok sk /\
       slope sk hgt tan = Ok ta /\ length nodes = length sk /\
       forall i a, nth_error sk i = Some a ->
         nth_error nodes i = Some (w_add (mkvec3 (vx (source a)) (vy (source a))
                                                 (nadd (nmul (height a) ta) zBase)) center)).
Proof.
  intros o.
  destruct (polygonize_exits fuel sw sch dbg verts first cnt holes hgt tan faces us)
    as [(e & E)|(zBase & center & contours & sk & Hp & Hs & [(e & _ & E)|(ta & Ht & [(e & _ & E)|(fs' & Hrf & E)])])];
    fold o in E; rewrite E; cbn [o_verts o_result].
  - exists []. rewrite app_nil_r. split; auto. left; eauto.
  - exists []. rewrite app_nil_r. split; auto. left; eauto.
  - eexists; split; [reflexivity|]. right. exists zBase, center, contours, sk, ta.
    repeat (split; [assumption|]). split; [apply map_length|]. intros i a Ha. rewrite nth_error_map, Ha. reflexivity.
  - eexists; split; [reflexivity|]. right. exists zBase, center, contours, sk, ta.
    repeat (split; [assumption|]). split; [apply map_length|]. intros i a Ha. rewrite nth_error_map, Ha. reflexivity.
Qed.

Lemma polygonize_faces fuel sw sch dbg (verts : list (vec3 A)) first cnt holes hgt tan us old :
  let o0 := polygonize fuel sw sch dbg verts first cnt holes hgt tan None us in
  let o := polygonize fuel sw sch dbg verts first cnt holes hgt tan (Some old) us in
  o_verts o = o_verts o0 /\ o_debug o = o_debug o0 /\ o_faces o0 = None /\
  match o_result o0 with
  | Ok fs => o_result o = Ok (old ++ fs) /\ o_faces o = Some (old ++ fs)
  | Err e => o_result o = Err e /\ o_faces o = Some old
  end.
Proof.
  intros o0 o. subst o0 o. unfold polygonize.
  match goal with |- context [match ?x with Ok _ => _ | Err _ => _ end] => destruct x as [[[[zb c] cs] sk]|e] end;
    simpl; auto.
  destruct (slope sk hgt tan) as [ta|e]; simpl; auto.
  match goal with |- context [match ?x with Ok _ => _ | Err _ => _ end] => destruct x as [fs|e] end; simpl; auto.
Qed.
End Exits2.
