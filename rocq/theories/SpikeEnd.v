(** * SpikeEnd: what is left when the spike removal ends, and where a merged face starts *)

From Coq Require Import Lia ZArith.
From Verif Require Import Py PyFacts Arith Euclid Graph GraphSpec GraphProofs Poly PolySpec PolyProofs BorderSpec BorderProofs BorderCases EdgeIds.
Set Implicit Arguments.
Unset Strict Implicit.
Local Open Scope nat_scope.

Lemma consecutive_corner f ptn p t n : consecutive f p t n -> circ_prev_this_next f = Ok ptn -> In (p, t, n) ptn.
Proof.
  intros (u & a & b & E1 & E2) H.
  assert (Hl : 3 <= length f) by (subst f; rewrite app_length, Nat.add_comm, <- app_length, <- E2; simpl; lia).
  assert (Hr : exists j, j < length f /\ rot j f = p :: t :: n :: u).
  { destruct b as [|y b].
    - exists 0. split; [lia|]. unfold rot. simpl. rewrite app_nil_r in *. simpl in E2. congruence.
    - exists (length a). split; [subst f; rewrite app_length; simpl; lia|].
      unfold rot. subst f. rewrite skipn_app, skipn_all, Nat.sub_diag, firstn_app, firstn_all, Nat.sub_diag. simpl. rewrite app_nil_r. simpl in E2. congruence. }
  destruct Hr as (j & Hj & Hr).
  assert (N : forall k, k < 3 -> nth_error (p :: t :: n :: u) k = nth_error f ((j + k) mod length f)).
  { intros k Hk. rewrite <- Hr. apply nth_error_rot; lia. }
  pose proof (N 0 ltac:(lia)) as N0. pose proof (N 1 ltac:(lia)) as N1. pose proof (N 2 ltac:(lia)) as N2. simpl in N0, N1, N2.
  rewrite Nat.add_0_r, (Nat.mod_small j) in N0 by auto.
  assert (Hi : (j + 1) mod length f < length f) by (apply Nat.mod_upper_bound; lia).
  destruct (circ_prev_this_next_nth _ H Hi) as (p' & c & n' & Hp & Hc & Hn & E).
  assert (J1 : ((j + 1) mod length f + length f - 1) mod length f = j).
  { destruct (Nat.eq_dec (j + 1) (length f)) as [K|K].
    - rewrite K, Nat.mod_same by lia. rewrite Nat.add_0_l, Nat.mod_small by lia. lia.
    - rewrite (Nat.mod_small (j + 1)) by lia. replace (j + 1 + length f - 1) with (j + 1 * length f) by lia. rewrite Nat.mod_add, Nat.mod_small by lia. auto. }
  assert (J2 : ((j + 1) mod length f + 1) mod length f = (j + 2) mod length f).
  { rewrite Nat.add_mod_idemp_l by lia. f_equal. lia. }
  rewrite J1 in Hp. rewrite J2 in Hn. rewrite <- N0 in Hp. rewrite <- N1 in Hc. rewrite <- N2 in Hn.
  injection Hp as <-. injection Hc as <-. injection Hn as <-. eapply nth_error_In; eauto.
Qed.

Lemma dart_walk z : forall f a b, In (a, b) (dart_list z f) ->
  exists i, nth_error f i = Some a /\ (nth_error f (S i) = Some b \/ (nth_error f (S i) = None /\ b = z)).
Proof.
  induction f as [|x f IH]; intros a b H; [destruct H|]. destruct f as [|y f].
  - destruct H as [H|[]]. injection H as -> ->. exists 0. auto.
  - change (dart_list z (x :: y :: f)) with ((x, y) :: dart_list z (y :: f)) in H. destruct H as [H|H].
    + injection H as -> ->. exists 0. auto.
    + destruct (IH _ _ H) as (i & H1 & H2). exists (S i). auto.
Qed.

Lemma dart_has_edge a b f : In (a, b) (darts_of f) -> has_edge a b f = Ok true.
Proof.
  intros H. destruct f as [|h t]; [destruct H|]. set (f := h :: t) in *. change (In (a, b) (dart_list h f)) in H.
  apply dart_walk in H as (i & Ha & Hb). assert (Hi : i < length f) by (apply nth_error_Some; congruence).
  unfold has_edge. destruct (circ_prev_next f) as [pn|e] eqn:Hpn; [|discriminate]. cbn [bind]. f_equal.
  assert (Hk : (i + 1) mod length f < length f) by (apply Nat.mod_upper_bound; lia).
  destruct (circ_prev_next_nth _ Hpn Hk) as (p & n & Hp & Hn & E).
  assert (J1 : ((i + 1) mod length f + length f - 1) mod length f = i).
  { destruct (Nat.eq_dec (i + 1) (length f)) as [K|K].
    - rewrite K, Nat.mod_same by lia. rewrite Nat.add_0_l, Nat.mod_small by lia. lia.
    - rewrite (Nat.mod_small (i + 1)) by lia. replace (i + 1 + length f - 1) with (i + 1 * length f) by lia. rewrite Nat.mod_add, Nat.mod_small by lia. auto. }
  rewrite J1, Ha in Hp. injection Hp as <-.
  assert (n = b).
  { destruct Hb as [Hb|[Hb ->]].
    - rewrite Nat.mod_small in Hn by (apply nth_error_Some; rewrite Nat.add_1_r; congruence). rewrite Nat.add_1_r in Hn. congruence.
    - apply nth_error_None in Hb. replace (i + 1) with (length f) in Hn by lia. rewrite Nat.mod_same in Hn by lia. simpl in Hn. congruence. }
  subst n. apply existsb_exists. exists (a, b). split; [eapply nth_error_In; eauto|]. cbn [fst snd]. rewrite !Z.eqb_refl. auto.
Qed.

Section Ends.
Context {A : arith}.
Variable verts : list (vec3 A).
Variable firstSkel : Z.

Lemma find_spike_none l : find_spike verts l = Ok None -> forall x, In x l -> is_spike verts x = Ok false.
Proof.
  induction l as [|q t IH]; cbn [find_spike]; intros H x Hx; [destruct Hx|]. apply bind_ok in H as (b & Hb & H).
  destruct b; [discriminate|]. destruct Hx as [<-|Hx]; auto.
Qed.

Lemma adjacent_none prev this nxt : forall faces i r l r' l', adjacent_faces prev this nxt i faces r l = Ok (r', l') ->
  (r' = None -> r = None /\ forall f, In f faces -> has_edge this prev f = Ok false) /\
  (l' = None -> l = None /\ forall f, In f faces -> has_edge nxt this f = Ok false).
Proof.
  induction faces as [|f t IH]; cbn [adjacent_faces]; intros i r l r' l' H.
  - apply Ok_inj in H. injection H as -> ->. split; intros ->; split; auto; intros g [].
  - apply bind_ok in H as (br & Hr & H). apply bind_ok in H as (bl & Hl & H). destruct (IH _ _ _ _ _ H) as [H1 H2]. split; intros E.
    + destruct (H1 E) as [K1 K2]. destruct br; [discriminate|]. split; auto. intros g [<-|Hg]; auto.
    + destruct (H2 E) as [K1 K2]. destruct bl; [discriminate|]. split; auto. intros g [<-|Hg]; auto.
Qed.

Lemma no_dart (F : list (list Z)) a b : (forall f, In f F -> has_edge a b f = Ok false) -> ~ In (a, b) (darts F).
Proof.
  intros H K. apply in_concat in K as (d & Hd & K). apply in_map_iff in Hd as (f & <- & Hf). apply dart_has_edge in K. rewrite (H f Hf) in K. discriminate.
Qed.

(** a pass without success: every face with more than three corners has no spike, or its first one is at the border *)
Lemma spike_pass_none faces : forall fis, spike_pass verts firstSkel faces fis = Ok None ->
  forall i f, In i fis -> nth_error faces i = Some f -> 3 < length f ->
  (forall p t n, consecutive f p t n -> ~ spiky verts p t n) \/
  exists p t n, consecutive f p t n /\ spiky verts p t n /\ (~ In (t, p) (darts faces) \/ ~ In (n, t) (darts faces)).
Proof.
  induction fis as [|fi u IH]; intros H i f Hi Hf H3; [destruct Hi|]. cbn [spike_pass] in H. cbv zeta in H.
  destruct (Nat.leb_spec (length (nth fi faces [])) 3) as [L|L].
  - destruct Hi as [->|Hi]; [|eapply IH; eauto]. rewrite (nth_nth_error _ _ _ Hf) in L. lia.
  - apply bind_ok in H as (ptn & Hptn & H). apply bind_ok in H as (sp & Hsp & H). destruct sp as [[[p t] n]|].
    + apply bind_ok in H as ([r l] & Hrl & H).
      assert (K : r = None \/ l = None) by (destruct r; [destruct l|]; auto; apply bind_ok in H as (? & _ & H); discriminate).
      assert (H' : spike_pass verts firstSkel faces u = Ok None) by (destruct r as [r|]; [destruct l as [l|]|]; auto; destruct K; discriminate).
      destruct Hi as [->|Hi]; [|eapply IH; eauto]. rewrite (nth_nth_error _ _ _ Hf) in Hptn, L.
      apply find_spike_in in Hsp as [S1 S2]. right. exists p, t, n. split; [eapply corner_consecutive; eauto; lia|]. split; [apply is_spike_spiky; auto|].
      apply adjacent_none in Hrl as [R1 R2]. destruct K as [K|K]; [left; destruct (R1 K)|right; destruct (R2 K)]; apply no_dart; auto.
    + destruct Hi as [->|Hi]; [|eapply IH; eauto]. rewrite (nth_nth_error _ _ _ Hf) in Hptn, L. left. intros p t n Hc Hs.
      pose proof (find_spike_none Hsp (consecutive_corner Hc Hptn)) as K. apply spiky_is_spike in Hs. congruence.
Qed.

Lemma spike_loop_end : forall fuel faces F, spike_loop fuel verts firstSkel faces = Ok F -> spike_pass verts firstSkel F (seq 0 (length F)) = Ok None.
Proof.
  induction fuel as [|k IH]; intros faces F H; [discriminate|]. cbn [spike_loop] in H. apply bind_ok in H as (o & Ho & H).
  destruct o as [fs|]; [eapply IH; eauto|]. apply Ok_inj in H. subst. auto.
Qed.

Theorem spikes_left faces F : remove_spikes verts firstSkel faces = Ok F -> forall f, In f F -> 3 < length f ->
  (forall p t n, consecutive f p t n -> ~ spiky verts p t n) \/
  exists p t n, consecutive f p t n /\ spiky verts p t n /\ (~ In (t, p) (darts F) \/ ~ In (n, t) (darts F)).
Proof.
  intros H f Hf H3. apply spike_loop_end in H. apply In_nth_error in Hf as (i & Hi). eapply spike_pass_none; eauto.
  apply in_seq. split; [lia|]. apply nth_error_Some. congruence.
Qed.

(** the faces have no gap: then every spike left over runs along a wall *)
Theorem spikes_left_wall faces F : remove_spikes verts firstSkel faces = Ok F ->
  (forall a b, (firstSkel <= a \/ firstSkel <= b)%Z -> border F a b = 0%Z) ->
  forall f, In f F -> 3 < length f -> (forall p t n, consecutive f p t n -> ~ spiky verts p t n) \/
  exists p t n, consecutive f p t n /\ spiky verts p t n /\ (t < firstSkel)%Z /\ (p < firstSkel \/ n < firstSkel)%Z.
Proof.
  intros H Hb f Hf H3. destruct (spikes_left H Hf H3) as [K|(p & t & n & Hc & Hs & K)]; auto. right. exists p, t, n. split; auto. split; auto.
  destruct Hc as (u & Hu).
  assert (D : forall a b, In (a, b) (darts_of f) -> In (a, b) (darts F)).
  { intros a b Hd. apply in_concat. exists (darts_of f). split; auto. apply in_map; auto. }
  assert (G : forall a b, In (a, b) (darts_of f) -> ~ In (b, a) (darts F) -> (a < firstSkel)%Z /\ (b < firstSkel)%Z).
  { intros a b Hd Hn. destruct (Z_lt_le_dec a firstSkel) as [La|La]; [destruct (Z_lt_le_dec b firstSkel) as [Lb|Lb]|]; auto; exfalso;
      specialize (Hb a b ltac:(auto)); unfold border in Hb; apply (count_occ_not_In dart_dec) in Hn; rewrite Hn in Hb;
      apply D in Hd; apply (count_occ_In dart_dec) in Hd; lia. }
  assert (Du : Permutation.Permutation (darts_of f) (darts_of (p :: t :: n :: u))) by (apply darts_rotation; auto).
  assert (D1 : In (p, t) (darts_of f)) by (eapply Permutation.Permutation_in; [symmetry; exact Du|rewrite darts_walk; simpl; auto]).
  assert (D2 : In (t, n) (darts_of f)) by (eapply Permutation.Permutation_in; [symmetry; exact Du|rewrite darts_walk; simpl; auto]).
  destruct K as [K|K]; [destruct (G _ _ D1 K)|destruct (G _ _ D2 K)]; auto.
Qed.
End Ends.

(** ** the merged face *)

Lemma rotate_to_opened v l m : rotate_to v l = Ok m <-> opened v l m.
Proof.
  unfold rotate_to. split.
  - intros H. apply bind_ok in H as (i & Hi & H). apply Ok_inj in H. subst m. unfold of_option in Hi.
    destruct (find_pos _ l) as [k|] eqn:E; [|discriminate]. apply Ok_inj in Hi. subst k.
    apply find_pos_some in E as (x & H1 & H2 & H3). apply Z.eqb_eq in H2. subst x.
    exists (firstn i l), (skipn (S i) l). apply nth_error_split in H1 as (a & b & -> & <-). unfold rot.
    rewrite firstn_app, firstn_all, Nat.sub_diag in *. cbn [firstn] in *. rewrite app_nil_r in *.
    change (a ++ v :: b) with (a ++ [v] ++ b). rewrite app_assoc. replace (S (length a)) with (length (a ++ [v])) by (rewrite app_length; simpl; lia).
    rewrite skipn_app, skipn_all, Nat.sub_diag. cbn [skipn app]. split; [rewrite <- app_assoc; auto|]. split.
    + intros K. rewrite forallb_forall in H3. specialize (H3 _ K). rewrite Z.eqb_refl in H3. discriminate.
    + rewrite <- app_assoc, skipn_app, skipn_all, Nat.sub_diag. auto.
  - intros (a & b & -> & Hn & ->).
    assert (E : find_pos (fun y => (y =? v)%Z) (a ++ v :: b) = Some (length a)).
    { induction a as [|x a IH]; cbn [app find_pos length]; [rewrite Z.eqb_refl; auto|].
      destruct (Z.eqb_spec x v) as [->|]; [exfalso; apply Hn; left; auto|]. rewrite IH; auto. intros K; apply Hn; right; auto. }
    rewrite E. cbn [of_option bind]. f_equal. unfold rot. rewrite skipn_app, skipn_all, Nat.sub_diag, firstn_app, firstn_all, Nat.sub_diag. cbn [skipn firstn app]. rewrite app_nil_r. auto.
Qed.

Lemma rotate_to_stop v l : rotate_to v l = Err StopIteration <-> ~ In v l.
Proof.
  unfold rotate_to. destruct (find_pos _ l) as [k|] eqn:E; cbn [of_option bind].
  - split; [discriminate|]. intros H. exfalso. apply H. apply find_pos_some in E as (x & H1 & H2 & _). apply Z.eqb_eq in H2. subst x. eapply nth_error_In; eauto.
  - split; auto. intros _ K. apply find_pos_none with (x := v) in E; auto. rewrite Z.eqb_refl in E. discriminate.
Qed.

Theorem merge_start nr rf lf p t m : merge_faces nr rf lf p t = Ok m ->
  exists r l u v, opened p rf r /\ opened t lf (t :: l) /\ r ++ l = u ++ v /\ m = v ++ u /\
    (exists x w, v = x :: w /\ (x < nr)%Z) /\ (Z.of_nat (length u) < nr)%Z /\ (forall x, In x u -> (nr <= x)%Z).
Proof.
  unfold merge_faces. intros H. apply bind_ok in H as (r & Hr & H). apply bind_ok in H as (l & Hl & H). cbv zeta in H.
  apply bind_ok in H as (i & Hi & H). apply Ok_inj in H. subst m. apply rotate_to_opened in Hr, Hl.
  destruct Hl as (a & b & -> & Hn & ->). cbn [tl] in *. exists r, (b ++ a), (firstn i (r ++ b ++ a)), (skipn i (r ++ b ++ a)).
  split; auto. split; [exists a, b; auto|]. split; [symmetry; apply firstn_skipn|]. split; [reflexivity|].
  unfold next_orig, enumerate in Hi. pose proof (@find_enum Z (fun ix => ((Z.of_nat (fst ix) <? nr) && (snd ix <? nr))%Z) (r ++ b ++ a) 0) as F.
  destruct (find _ _) as [[k x]|]; [|discriminate]. apply Ok_inj in Hi. subst k. destruct F as (j & E & F1 & F2 & F3). cbn [Nat.add] in E. subst i.
  cbn [fst snd] in F2. apply andb_prop in F2 as [F2 F4]. apply Z.ltb_lt in F2, F4.
  assert (Hj : j < length (r ++ b ++ a)) by (apply nth_error_Some; congruence).
  split.
  - apply nth_error_split in F1 as (u & w & E & <-). rewrite E, skipn_app, skipn_all, Nat.sub_diag. cbn [skipn app]. eauto.
  - rewrite firstn_length_le by lia. split; auto. intros y Hy. apply In_nth_error in Hy as (k & Hk).
    assert (Hkj : k < j) by (rewrite <- (@firstn_length_le _ (r ++ b ++ a) j ltac:(lia)); apply nth_error_Some; congruence).
    assert (Hy : nth_error (r ++ b ++ a) k = Some y).
    { rewrite <- (firstn_skipn j (r ++ b ++ a)), nth_error_app1 by (rewrite firstn_length_le; lia). auto. }
    specialize (F3 k y Hkj Hy). cbn [fst snd Nat.add] in F3. apply andb_false_iff in F3 as [F3|F3]; apply Z.ltb_ge in F3; lia.
Qed.

Theorem merge_stops nr rf lf p t : merge_faces nr rf lf p t = Err StopIteration <->
  ~ In p rf \/ ~ In t lf \/ exists r l, opened p rf r /\ opened t lf (t :: l) /\
    forall i x, nth_error (r ++ l) i = Some x -> (x < nr)%Z -> (nr <= Z.of_nat i)%Z.
Proof.
  unfold merge_faces. destruct (rotate_to p rf) as [r|e] eqn:Hr; cbn [bind].
  - destruct (rotate_to t lf) as [l|e] eqn:Hl; cbn [bind].
    + apply rotate_to_opened in Hr, Hl. pose proof Hl as (a & b & E1 & Hn & E2). subst l. cbn [tl]. cbv zeta.
      unfold next_orig, enumerate. pose proof (@find_enum Z (fun ix => ((Z.of_nat (fst ix) <? nr) && (snd ix <? nr))%Z) (r ++ b ++ a) 0) as F.
      assert (Huniq : forall v l m m', opened v l m -> opened v l m' -> m = m') by (intros v l m m' K1 K2; apply rotate_to_opened in K1, K2; congruence).
      destruct (find _ _) as [[k x]|]; cbn [bind].
      * split; [discriminate|]. intros [K|[K|(r' & l' & K1 & K2 & K3)]]; exfalso.
        -- apply K. destruct Hr as (c & d & -> & _). apply in_elt.
        -- apply K. subst lf. apply in_elt.
        -- rewrite (Huniq _ _ _ _ K1 Hr) in K3. pose proof (Huniq _ _ _ _ K2 Hl) as E. injection E as ->.
           destruct F as (j & E & F1 & F2 & _). cbn [Nat.add] in E. subst k. cbn [fst snd] in F2. apply andb_prop in F2 as [F2 F4]. apply Z.ltb_lt in F2, F4.
           specialize (K3 _ _ F1 F4). lia.
      * split; auto. intros _. right. right. exists r, (b ++ a). split; auto. split; auto. intros i x Hx Hlt. specialize (F i x Hx). cbn [fst snd Nat.add] in F.
        apply andb_false_iff in F as [F|F]; apply Z.ltb_ge in F; lia.
    + assert (e = StopIteration /\ ~ In t lf) as [-> K].
      { unfold rotate_to in Hl. destruct (find_pos _ lf) eqn:E; [discriminate|]. cbn [of_option bind] in Hl. injection Hl as <-. split; auto.
        apply rotate_to_stop. unfold rotate_to. rewrite E. auto. }
      tauto.
  - assert (e = StopIteration /\ ~ In p rf) as [-> K].
    { unfold rotate_to in Hr. destruct (find_pos _ rf) eqn:E; [discriminate|]. cbn [of_option bind] in Hr. injection Hr as <-. split; auto.
      apply rotate_to_stop. unfold rotate_to. rewrite E. auto. }
    tauto.
Qed.
