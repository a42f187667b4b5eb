(** * PatProofs: detectApses and detectDormers (bpypolyskel.py:548-575, 715-775) *)

From Coq Require Import Sorted.
From Verif Require Import Py PyFacts Arith Euclid Lav Cluster PolyProofs PatSpec.
Set Implicit Arguments.
Unset Strict Implicit.
Local Open Scope nat_scope.

(** ** runs *)
Definition maxrun (w : list bool) (s e : nat) : Prop :=
  s + 6 <= e /\ e <= length w /\ (forall i, s <= i < e -> nth_error w i = Some true) /\
  nth_error w e <> Some true /\ (s = 0 \/ nth_error w (s - 1) <> Some true).

Lemma runs_spec l : forall pre start, start <= length pre ->
  (forall i, start <= i < length pre -> nth_error (pre ++ l) i = Some true) ->
  (start = 0 \/ nth_error (pre ++ l) (start - 1) <> Some true) ->
  forall s e, In (s, e) (runs (length pre) start l) <-> start <= s /\ maxrun (pre ++ l) s e.
Proof.
  induction l as [|b l IH]; intros pre start Hst Hall Hb s e.
  - cbn [runs]. rewrite app_nil_r in *. 
    assert (G : forall s e, start <= s -> maxrun pre s e -> s = start /\ e = length pre).
    { intros s0 e0 H0 (H1 & H2 & H3 & H4 & H5).
      assert (e0 = length pre).
      { destruct (Nat.eq_dec e0 (length pre)); auto. exfalso. apply H4. apply Hall. lia. }
      subst. split; auto. destruct (Nat.eq_dec s0 start); auto. exfalso. destruct H5 as [H5|H5]; [lia|].
      apply H5. apply Hall. lia. }
    destruct (Nat.leb_spec 6 (length pre - start)) as [H|H]; simpl.
    + split; [intros [K|[]]; injection K as <- <-|].
      * split; auto. repeat split; auto; try lia. rewrite (proj2 (nth_error_None _ _)); [discriminate|lia].
      * intros [K1 K2]. left. destruct (G _ _ K1 K2). congruence.
    + split; [intros []|]. intros [K1 K2]. destruct (G _ _ K1 K2). destruct K2 as (K2 & _). lia.
  - assert (Hn : nth_error (pre ++ b :: l) (length pre) = Some b)
      by (rewrite nth_error_app2, Nat.sub_diag by lia; reflexivity).
    assert (Happ : pre ++ b :: l = (pre ++ [b]) ++ l) by (rewrite <- app_assoc; reflexivity).
    assert (Hlen : length (pre ++ [b]) = S (length pre)) by (rewrite app_length; simpl; lia).
    destruct b; cbn [runs].
    + rewrite Happ in *. rewrite <- Hlen. rewrite IH; [reflexivity|lia| |auto].
      intros i Hi. rewrite Hlen in Hi. destruct (Nat.eq_dec i (length pre)) as [->|]; auto. apply Hall. lia.
    + rewrite in_app_iff. pose proof (IH (pre ++ [false]) (S (length pre))) as IH'. rewrite Hlen in IH'.
      rewrite <- Happ in IH'. rewrite IH'; try lia.
      2: { right. replace (S (length pre) - 1) with (length pre) by lia. rewrite Hn. discriminate. }
      assert (G : forall s e, start <= s <= length pre -> maxrun (pre ++ false :: l) s e -> s = start /\ e = length pre).
      { intros s0 e0 H0 (H1 & H2 & H3 & H4 & H5).
        assert (e0 <= length pre).
        { destruct (Nat.le_gt_cases e0 (length pre)); auto. rewrite H3 in Hn by lia. discriminate. }
        assert (e0 = length pre).
        { destruct (Nat.eq_dec e0 (length pre)); auto. exfalso. apply H4. apply Hall. lia. }
        subst. split; auto. destruct (Nat.eq_dec s0 start); auto. exfalso. destruct H5 as [H5|H5]; [lia|].
        apply H5. apply Hall. lia. }
      destruct (Nat.leb_spec 6 (length pre - start)) as [H|H]; simpl.
      * split.
        -- intros [[K|[]]|K]; [injection K as <- <-|split; [lia|tauto]].
           split; auto. repeat split; auto; try lia; [rewrite app_length; simpl; lia|]. rewrite Hn; discriminate.
        -- intros [K1 K2]. destruct (Nat.le_gt_cases s (length pre)) as [L|L]; [|right; split; [lia|auto]].
           left. left. destruct (G s e) as [-> ->]; auto.
      * split; [intros [[]|[K1 K2]]; split; [lia|auto]|].
        intros [K1 K2]. destruct (Nat.le_gt_cases s (length pre)) as [L|L]; [|right; split; [lia|auto]].
        destruct (G s e) as [-> ->]; auto. destruct K2 as (K2 & _). lia.
Qed.

Lemma runs_all w s e : In (s, e) (runs 0 0 w) <-> maxrun w s e.
Proof.
  pose proof (@runs_spec w [] 0) as H. simpl in H. rewrite H; auto; try lia. split; [tauto|]. split; [lia|auto].
Qed.

Lemma runs_sorted l : forall pos start, start <= pos ->
  StronglySorted (fun a b => fst a < fst b) (runs pos start l) /\ forall a, In a (runs pos start l) -> start <= fst a.
Proof.
  induction l as [|b l IH]; intros pos start Hs; cbn [runs].
  - destruct (Nat.leb 6 (pos - start)); split; try (repeat constructor); intros a [];[subst; simpl; lia|contradiction].
  - destruct b; [apply IH; lia|]. destruct (IH (S pos) (S pos)) as [H1 H2]; [lia|].
    destruct (Nat.leb_spec 6 (pos - start)); simpl.
    + split.
      * constructor; auto. apply Forall_forall. intros x Hx. apply H2 in Hx. simpl. lia.
      * intros a [<-|Ha]; simpl; [lia|]. apply H2 in Ha. lia.
    + split; auto. intros a Ha. apply H2 in Ha. lia.
Qed.

(** ** the sequences of turns *)
Section Turns.
Context {A : arith}.
Notation edge2 := (@edge2 A).
Implicit Type c : list edge2.

Lemma mod_pred j n : 0 < n -> (j mod n + n - 1) mod n = (j + n - 1) mod n.
Proof.
  intros Hn. rewrite (Nat.div_mod j n) at 2 by lia.
  replace (n * (j / n) + j mod n + n - 1) with (j mod n + n - 1 + (j / n) * n) by nia.
  rewrite Nat.mod_add by lia. reflexivity.
Qed.

Lemma turn_seq T (code : num A -> T) c : c <> [] ->
  exists pn, circ_prev_next c = Ok pn /\
    let sq := map (fun p => code (vcross (enorm (fst p)) (enorm (snd p)))) pn in
    length sq = length c /\
    forall i, exists x, turn_at c i x /\ (forall y, turn_at c i y -> y = x) /\ nth_error sq (i mod length c) = Some (code x).
Proof.
  intros Hne. destruct (circ_prev_next_spec c) as (_ & Hs). destruct (Hs Hne) as (pn & Hpn & Hlen & Hnth).
  exists pn. split; auto. cbv zeta. rewrite map_length. split; auto. intros i.
  assert (Hn : 0 < length c) by (destruct c; [congruence|simpl; lia]).
  destruct (Hnth (i mod length c)) as (e1 & e2 & N1 & N2 & N3); [apply Nat.mod_upper_bound; lia|].
  rewrite mod_pred in N1 by auto.
  exists (vcross (enorm e1) (enorm e2)). split; [exists e1, e2; auto|]. split.
  - intros y (f1 & f2 & F1 & F2 & ->). unfold edge_at in *. congruence.
  - rewrite nth_error_map, N3. reflexivity.
Qed.

Lemma doubled T (sq : list T) n i : length sq = n -> i < 2 * n -> nth_error (sq ++ sq) i = nth_error sq (i mod n).
Proof.
  intros Hl Hi. destruct (Nat.lt_ge_cases i n) as [H|H].
  - rewrite nth_error_app1, Nat.mod_small by lia. reflexivity.
  - rewrite nth_error_app2 by lia. rewrite Hl. f_equal. replace i with ((i - n) + 1 * n) at 2 by lia.
    rewrite Nat.mod_add, Nat.mod_small by lia. reflexivity.
Qed.

(** ** C42 *)
Lemma smooth_cyclic c i : c <> [] -> smooth c (i mod length c) <-> smooth c i.
Proof.
  intros Hne. assert (Hn : 0 < length c) by (destruct c; [congruence|simpl; lia]).
  unfold smooth, turn_at, edge_at. rewrite mod_pred by auto. rewrite Nat.mod_mod by lia. reflexivity.
Qed.

Lemma smooth_add c i : c <> [] -> smooth c (i + length c) <-> smooth c i.
Proof.
  intros Hne. assert (Hn : 0 < length c) by (destruct c; [congruence|simpl; lia]).
  rewrite <- (smooth_cyclic i Hne), <- (smooth_cyclic (i + length c) Hne).
  replace (i + length c) with (i + 1 * length c) by lia. rewrite Nat.mod_add by lia. reflexivity.
Qed.

Lemma apse_seq c : c <> [] -> exists sq, apse_sequence c = Ok sq /\ length sq = length c /\
  forall i, (nth_error sq (i mod length c) = Some true <-> smooth c i) /\ (nth_error sq (i mod length c) = Some false <-> ~ smooth c i).
Proof.
  intros Hne. destruct (turn_seq (fun x => nltb (nabs x) (lit 1 2)) Hne) as (pn & Hpn & Hl & Hi). cbv zeta in *.
  exists (map (fun p => nltb (nabs (vcross (enorm (fst p)) (enorm (snd p)))) (lit 1 2)) pn).
  split; [unfold apse_sequence; rewrite Hpn; reflexivity|]. split; auto. intros i.
  destruct (Hi i) as (x & T1 & T2 & ->). unfold smooth. split; split; intros H.
  - exists x. split; auto. congruence.
  - destruct H as (y & Y1 & Y2). rewrite (T2 y Y1) in Y2. congruence.
  - intros (y & Y1 & Y2). rewrite (T2 y Y1) in Y2. congruence.
  - f_equal. destruct (nltb (nabs x) (lit 1 2)) eqn:E; auto. exfalso. apply H. exists x. auto.
Qed.

Lemma smooth_dec c i : c <> [] -> {smooth c i} + {~ smooth c i}.
Proof.
  intros Hne. destruct (nth_error c ((i + length c - 1) mod length c)) as [e1|] eqn:E1.
  - destruct (nth_error c (i mod length c)) as [e2|] eqn:E2.
    + destruct (nltb (nabs (vcross (enorm e1) (enorm e2))) (lit 1 2)) eqn:E.
      * left. exists (vcross (enorm e1) (enorm e2)). split; auto. exists e1, e2. auto.
      * right. intros (x & (f1 & f2 & F1 & F2 & ->) & F). unfold edge_at in *. congruence.
    + right. intros (x & (f1 & f2 & F1 & F2 & ->) & F). unfold edge_at in *. congruence.
  - right. intros (x & (f1 & f2 & F1 & F2 & ->) & F). unfold edge_at in *. congruence.
Qed.

Theorem detectApses_spec c : c <> [] ->
  exists rs, StronglySorted (fun a b => fst a < fst b) rs /\
    (forall s e, In (s, e) rs <-> smooth_run c s e) /\
    (rs = [] <-> (forall i, smooth c i) \/ (forall i, exists k, k < 6 /\ ~ smooth c (i + k))) /\
    (rs = [] -> detectApses c = Ok None) /\
    (rs <> [] ->
      match detectApses c with
      | Ok None => False
      | Ok (Some cs) => Forall2 (fun r ctr => exists pts R, run_points c (fst r) (snd r) pts /\ fitCircle3Points pts = Ok (ctr, R)) rs cs
      | Err x => exists r pts, In r rs /\ run_points c (fst r) (snd r) pts /\ fitCircle3Points pts = Err x
      end).
Proof.
  intros Hne. assert (Hn : 0 < length c) by (destruct c; [congruence|simpl; lia]).
  destruct (apse_seq Hne) as (sq & Hsq & Hl & Hi). set (n := length c) in *.
  assert (Hd : forall i, i < 2 * n -> (nth_error (sq ++ sq) i = Some true <-> smooth c i)).
  { intros i Hlt. rewrite (doubled Hl Hlt). apply Hi. }
  unfold detectApses. rewrite Hsq. cbn [bind].
  destruct (forallb (fun b => b) sq) eqn:Eall.
  - assert (Hall : forall i, smooth c i).
    { intros i. apply Hi. rewrite forallb_forall in Eall.
      destruct (nth_error sq (i mod n)) as [b|] eqn:E.
      - apply nth_error_In in E as E'. apply Eall in E'. congruence.
      - apply nth_error_None in E. pose proof (Nat.mod_upper_bound i n). lia. }
    exists []. split; [constructor|]. split; [|split; [tauto|split; [auto|congruence]]].
    intros s e. split; [intros []|]. intros (_ & _ & _ & H & _). apply H, Hall.
  - assert (Hex : exists j, j < n /\ ~ smooth c j).
    { destruct (existsb negb sq) eqn:Ex.
      - apply existsb_exists in Ex as (b & Hb & Hf). apply In_nth_error in Hb as (j & Hj).
        assert (j < n) by (rewrite <- Hl; apply nth_error_Some; congruence). exists j. split; auto.
        apply Hi. rewrite Nat.mod_small by auto. rewrite Hj. destruct b; [discriminate|auto].
      - exfalso. assert (forallb (fun b => b) sq = true); [|congruence]. apply forallb_forall. intros b Hb.
        destruct b; auto. assert (existsb negb sq = true); [|congruence]. apply existsb_exists. exists false. auto. }
    destruct Hex as (j & Hj & Hjs).
    set (rs := filter (fun se : nat * nat => Nat.ltb (fst se) n) (runs 0 0 (sq ++ sq))).
    assert (Hrs : forall s e, In (s, e) rs <-> smooth_run c s e).
    { intros s e. unfold rs. rewrite filter_In, runs_all. cbn [fst]. rewrite Nat.ltb_lt. unfold maxrun, smooth_run. fold n.
      rewrite app_length, Hl. split.
      - intros ((H1 & H2 & H3 & H4 & H5) & H6). 
        assert (He : e < 2 * n).
        { destruct (Nat.lt_ge_cases e (2 * n)); auto. exfalso. apply Hjs. 
          destruct (Nat.le_gt_cases s j).
          - apply Hd; [lia|]. apply H3. lia.
          - apply (smooth_add j Hne). fold n. apply Hd; [lia|]. apply H3. lia. }
        split; auto. split; auto. split; [intros i Hi'; apply Hd; [lia|auto]|].
        split; [rewrite <- (Hd e); auto|]. destruct H5 as [H5|H5]; auto. right. rewrite <- (Hd (s - 1)) by lia. auto.
      - intros (H1 & H2 & H3 & H4 & H5).
        assert (He : e <= s + n).
        { destruct (Nat.le_gt_cases e (s + n)); auto. exfalso. apply Hjs.
          destruct (Nat.le_gt_cases s j); [apply H3; lia|]. apply (smooth_add j Hne). fold n. apply H3. lia. }
        assert (He' : e < 2 * n) by lia. split; [|auto].
        split; auto. split; [lia|]. split; [intros i Hi'; apply Hd; [lia|apply H3; auto]|].
        split; [rewrite (Hd e); auto|]. destruct H5 as [H5|H5]; auto. right. rewrite (Hd (s - 1)) by lia. auto. }
    assert (Hsort : StronglySorted (fun a b => fst a < fst b) rs).
    { destruct (@runs_sorted (sq ++ sq) 0 0) as [HS _]; auto. unfold rs. revert HS. generalize (runs 0 0 (sq ++ sq)).
      intros l HS. induction HS as [|x l HS IH HF]; simpl; [constructor|]. destruct (Nat.ltb (fst x) n); auto.
      constructor; auto. rewrite Forall_forall in *. intros y Hy. apply filter_In in Hy as [Hy _]. auto. }
    assert (Hempty : rs = [] <-> (forall i, exists k, k < 6 /\ ~ smooth c (i + k))).
    { split.
      - intros Hr i0. destruct (smooth_dec (i0 + 0) Hne) as [S0|]; [|exists 0; split; auto; lia].
        destruct (smooth_dec (i0 + 1) Hne) as [S1|]; [|exists 1; split; auto; lia].
        destruct (smooth_dec (i0 + 2) Hne) as [S2|]; [|exists 2; split; auto; lia].
        destruct (smooth_dec (i0 + 3) Hne) as [S3|]; [|exists 3; split; auto; lia].
        destruct (smooth_dec (i0 + 4) Hne) as [S4|]; [|exists 4; split; auto; lia].
        destruct (smooth_dec (i0 + 5) Hne) as [S5|]; [|exists 5; split; auto; lia].
        exfalso.
        assert (H6 : forall k, k < 6 -> smooth c (i0 + k)).
        { intros k Hk. do 6 (destruct k as [|k]; [assumption|]). lia. }
        (* the start of the maximal run around i0, cyclically reduced *)
        assert (Hst : exists s, s < n /\ (forall k, k < 6 -> smooth c (s + k)) /\ (s = 0 \/ ~ smooth c (s - 1))).
        { assert (Hm : forall i, i < n -> (forall k, k < 6 -> smooth c (i + k)) ->
            exists s, s < n /\ (forall k, k < 6 -> smooth c (s + k)) /\ (s = 0 \/ ~ smooth c (s - 1))).
          { induction i as [|i IH]; intros Hlt Hk.
            - exists 0. auto.
            - destruct (smooth_dec i Hne) as [Sm|Sm].
              + apply IH; [lia|]. intros k Hk'. destruct k as [|k]; [rewrite Nat.add_0_r; auto|].
                replace (i + S k) with (S i + k) by lia. apply Hk. lia.
              + exists (S i). split; auto. split; auto. right. replace (S i - 1) with i by lia. auto. }
          apply (Hm (i0 mod n)); [apply Nat.mod_upper_bound; lia|]. intros k Hk.
          apply (smooth_cyclic _ Hne). fold n. rewrite Nat.add_mod_idemp_l by lia. apply (smooth_cyclic _ Hne). auto. }
        destruct Hst as (s & Hs & Hk & Hb).
        assert (Hend : exists e, s + 6 <= e /\ (forall i, s <= i < e -> smooth c i) /\ ~ smooth c e).
        { assert (Hm : forall d e, s + 6 <= e -> e + d = s + 6 + n -> (forall i, s <= i < e -> smooth c i) ->
            exists e, s + 6 <= e /\ (forall i, s <= i < e -> smooth c i) /\ ~ smooth c e).
          { induction d as [|d IH]; intros e He Hd' Hall.
            - exfalso. apply Hjs. destruct (Nat.le_gt_cases s j); [apply Hall; lia|].
              apply (smooth_add j Hne). fold n. apply Hall. lia.
            - destruct (smooth_dec e Hne) as [Sm|Sm]; [|exists e; auto].
              apply (IH (S e)); [lia|lia|]. intros i Hi'. destruct (Nat.eq_dec i e) as [->|]; auto. apply Hall. lia. }
          apply (Hm n (s + 6)); [lia|lia|]. intros i Hi'. replace i with (s + (i - s)) by lia. apply Hk. lia. }
        destruct Hend as (e & E1 & E2 & E3).
        assert (In (s, e) rs) by (apply Hrs; repeat split; auto). rewrite Hr in *. contradiction.
      - intros H. destruct rs as [|[s e] t] eqn:Er; auto. exfalso.
        assert (Hr : smooth_run c s e) by (apply Hrs; left; auto). destruct Hr as (_ & R2 & R3 & _).
        destruct (H s) as (k & Hk & Hs). apply Hs, R3. lia. }
    exists rs. split; auto. split; auto. split; [|].
    { rewrite Hempty. split; [auto|]. intros [H|H]; auto. exfalso. apply Hjs, H. }
    assert (Hfull : rs = [] -> runs 0 0 (sq ++ sq) = []).
    { intros Hr. destruct (runs 0 0 (sq ++ sq)) as [|[s e] t] eqn:Er; auto. exfalso.
      assert (Hm : maxrun (sq ++ sq) s e) by (apply runs_all; rewrite Er; left; auto).
      destruct Hm as (M1 & M2 & M3 & _). rewrite app_length, Hl in M2.
      pose proof (proj1 Hempty Hr s) as (k & Hk & Hs). apply Hs. apply Hd; [lia|]. apply M3. lia. }
    assert (Hpts : forall se : nat * nat, exists vs, mapM (fun i => e <- of_option IndexError (nth_error c (Nat.modulo i n)) ;; Ok (ep1 e))
                         (seq (fst se) (snd se - fst se)) = Ok vs /\ run_points c (fst se) (snd se) vs).
    { intros [s e]. cbn [fst snd]. 
      destruct (@mapM_total _ _ (fun i => e <- of_option IndexError (nth_error c (Nat.modulo i n)) ;; Ok (ep1 e)) (seq s (e - s))) as (vs & Hvs).
      { intros i _. destruct (nth_error c (i mod n)) as [w|] eqn:E; [exists (ep1 w); reflexivity|].
        apply nth_error_None in E. pose proof (Nat.mod_upper_bound i n). fold n in E. lia. }
      exists vs. split; auto. split; [rewrite (mapM_length _ _ Hvs); apply seq_length|].
      intros k p Hk. pose proof (mapM_length _ _ Hvs) as Hvl. apply mapM_ok in Hvs.
      assert (Hk' : k < e - s).
      { assert (k < length vs) by (apply nth_error_Some; congruence).
        rewrite seq_length in Hvl. lia. }
      assert (G : forall (l : list nat) (l' : list (vec A)), Forall2 (fun i y => (e <- of_option IndexError (nth_error c (i mod n)) ;; Ok (ep1 e)) = Ok y) l l' ->
        forall k i p, nth_error l k = Some i -> nth_error l' k = Some p -> exists w, nth_error c (i mod n) = Some w /\ p = ep1 w).
      { clear. induction 1 as [|i y l l' H HF IH]; intros k i0 p H1 H2; destruct k; try discriminate; simpl in *.
        - injection H1 as <-. injection H2 as <-. destruct (nth_error c (i mod n)) as [w|]; [|discriminate].
          simpl in H. injection H as <-. eauto.
        - eauto. }
      unfold edge_at. eapply (G _ _ Hvs k); eauto. rewrite (nth_error_nth' _ 0) by (rewrite seq_length; auto).
      rewrite seq_nth by auto. reflexivity. }
    split; [intros Hr; rewrite (Hfull Hr); reflexivity|].
    assert (Hrd : filter (fun se : nat * nat => Nat.ltb (fst se) n) (runs 0 0 (sq ++ sq)) = rs) by reflexivity.
    clearbody rs. rewrite Hl. intros Hr.
    destruct (runs 0 0 (sq ++ sq)) as [|r0 t0]; [exfalso; apply Hr; rewrite <- Hrd; reflexivity|].
    rewrite Hrd.
    match goal with |- context [mapM ?f ?l] => set (F := f) end.
    destruct (mapM F rs) as [cs|x] eqn:Em; cbn [bind].
    + apply mapM_ok in Em. cbv iota. clear -Em Hpts. induction Em as [|r ctr l l' H HF IH]; constructor; auto.
      destruct (Hpts r) as (vs & V1 & V2). unfold F in H. rewrite V1 in H. cbn [bind] in H.
      destruct (fitCircle3Points vs) as [[ctr' R]|] eqn:Ef; [|discriminate H]. cbn [bind fst] in H. apply Ok_inj in H. subst ctr'.
      exists vs, R. auto.
    + cbv iota. apply mapM_err in Em as (r & Hin & H). destruct (Hpts r) as (vs & V1 & V2). unfold F in H. rewrite V1 in H. cbn [bind] in H.
      exists r, vs. split; auto. split; auto. destruct (fitCircle3Points vs) as [[ctr' R]|y] eqn:Ef; [discriminate|].
      cbn [bind] in H. congruence.
Qed.

(** ** C43 *)
Definition rllr_at (w : list turn) (i : nat) : Prop :=
  nth_error w i = Some TR /\ nth_error w (i + 1) = Some TL /\ nth_error w (i + 2) = Some TL /\ nth_error w (i + 3) = Some TR.

Lemma rllr_in l : forall pos p, In p (rllr_matches pos l) <-> pos <= p /\ rllr_at l (p - pos).
Proof.
  induction l as [|t l IH]; intros pos p.
  - simpl. split; [tauto|]. intros (_ & H & _). destruct (p - pos); discriminate.
  - cbn [rllr_matches]. rewrite in_app_iff, IH. split.
    + intros [H|[H1 H2]].
      * assert (p = pos /\ rllr_at (t :: l) 0) as [-> G].
        { destruct t; try contradiction. destruct l as [|[] [|[] [|[] l]]]; try contradiction.
          destruct H as [<-|[]]. split; auto. repeat split. }
        split; auto. rewrite Nat.sub_diag. auto.
      * split; [lia|]. replace (p - pos) with (S (p - S pos)) by lia. exact H2.
    + intros [H1 H2]. destruct (Nat.eq_dec p pos) as [->|Hp].
      * left. rewrite Nat.sub_diag in H2. destruct H2 as (A1 & A2 & A3 & A4). simpl in A1, A2, A3, A4.
        destruct l as [|t1 [|t2 [|t3 l]]]; try discriminate. simpl in A2, A3, A4.
        injection A1 as ->. injection A2 as ->. injection A3 as ->. injection A4 as ->. simpl. auto.
      * right. split; [lia|]. replace (p - pos) with (S (p - S pos)) in H2 by lia. exact H2.
Qed.

Lemma rllr_sorted l : forall pos, StronglySorted lt (rllr_matches pos l).
Proof.
  induction l as [|t l IH]; intros pos; [constructor|]. cbn [rllr_matches].
  assert (G : Forall (fun q => pos < q) (rllr_matches (S pos) l)).
  { apply Forall_forall. intros q Hq. apply rllr_in in Hq. lia. }
  destruct t; try apply IH. destruct l as [|[] [|[] [|[] l']]]; try apply IH. constructor; [apply IH|exact G].
Qed.

Lemma rllr_gap w i j : rllr_at w i -> rllr_at w j -> i < j -> i + 3 <= j.
Proof.
  intros (A1 & A2 & A3 & A4) (B1 & B2 & B3 & B4) H.
  destruct (Nat.eq_dec j (i + 1)) as [->|]; [congruence|]. destruct (Nat.eq_dec j (i + 2)) as [->|]; [congruence|]. lia.
Qed.

Lemma dormer_starts_spec n ms : StronglySorted lt ms -> (forall i j, In i ms -> In j ms -> i < j -> i + 3 <= j) ->
  forall nx, (forall i, In i ms -> nx <= i) -> dormer_starts n nx ms = filter (fun i => Nat.ltb i n) ms.
Proof.
  induction 1 as [|s ms HS IH HF]; intros Hg nx Hnx; [reflexivity|]. cbn [dormer_starts filter].
  rewrite (proj2 (Nat.leb_le nx s)) by (apply Hnx; left; auto). rewrite andb_true_r.
  rewrite Forall_forall in HF. destruct (Nat.ltb s n).
  - f_equal. apply IH; [intros; apply Hg; simpl; auto|]. intros i Hi. apply Hg; simpl; auto.
  - apply IH; intros; [apply Hg; simpl; auto|]. apply Hnx. simpl; auto.
Qed.

Lemma nlist_eqb_eq x y : nlist_eqb x y = true <-> x = y.
Proof.
  unfold nlist_eqb. revert y. induction x as [|a x IH]; intros [|b y]; simpl; split; intros H; try discriminate; auto.
  - apply andb_true_iff in H as [H1 H2]. apply Nat.eqb_eq in H1 as ->. f_equal. apply IH; auto.
  - injection H as -> ->. rewrite Nat.eqb_refl. apply IH. auto.
Qed.

Definition keep (ds bad : list (list nat)) : list (list nat) := filter (fun d => negb (existsb (nlist_eqb d) bad)) ds.

Lemma existsb_nlist d bad : existsb (nlist_eqb d) bad = true <-> In d bad.
Proof.
  rewrite existsb_exists. split.
  - intros (x & H1 & H2). apply nlist_eqb_eq in H2 as ->. auto.
  - intros H. exists d. split; auto. apply nlist_eqb_eq. auto.
Qed.

Lemma remove_if_in_filter sp ds : NoDup ds -> remove_if_in ds sp = filter (fun d => negb (nlist_eqb d sp)) ds.
Proof.
  unfold remove_if_in. induction 1 as [|d ds Hd HN IH]; [reflexivity|]. cbn [py_remove filter].
  destruct (nlist_eqb d sp) eqn:E.
  - simpl. apply nlist_eqb_eq in E as ->. 
    assert (forall x, In x ds -> negb (nlist_eqb x sp) = true).
    { intros x Hx. destruct (nlist_eqb x sp) eqn:E; auto. apply nlist_eqb_eq in E as ->. contradiction. }
    clear -H. induction ds as [|x ds IH]; [reflexivity|]. simpl. rewrite H by (left; auto). f_equal. apply IH. intros; apply H; right; auto.
  - simpl. destruct (py_remove nlist_eqb sp ds) as [ds'|x] eqn:Ep; cbn [bind]; rewrite <- IH; reflexivity.
Qed.

Lemma fold_remove bad : forall ds, NoDup ds -> fold_left remove_if_in bad ds = keep ds bad.
Proof.
  induction bad as [|b bad IH]; intros ds HN; cbn [fold_left].
  - unfold keep. simpl. induction ds; simpl; auto. inversion HN; subst. f_equal; auto.
  - rewrite remove_if_in_filter by auto. rewrite IH by (apply NoDup_filter; auto). unfold keep. clear.
    induction ds as [|d ds IH]; simpl; auto. destruct (nlist_eqb d b); simpl; auto.
    destruct (existsb (nlist_eqb d) bad); simpl; rewrite IH; auto.
Qed.

(** *** dormers of the contour *)
Lemma turn_at_mod c i x : c <> [] -> turn_at c (i mod length c) x <-> turn_at c i x.
Proof.
  intros Hne. assert (Hn : 0 < length c) by (destruct c; [congruence|simpl; lia]).
  unfold turn_at, edge_at. rewrite mod_pred by auto. rewrite Nat.mod_mod by lia. reflexivity.
Qed.

Lemma turn_at_fun c i x y : turn_at c i x -> turn_at c i y -> x = y.
Proof. intros (e1 & e2 & H1 & H2 & ->) (f1 & f2 & F1 & F2 & ->). congruence. Qed.

Lemma left_right c i : left_turn c i -> right_turn c i -> False.
Proof.
  intros (x & X1 & X2) (y & Y1 & Y2 & _). rewrite (turn_at_fun X1 Y1) in X2. congruence.
Qed.

Lemma left_mod c i : c <> [] -> left_turn c (i mod length c) <-> left_turn c i.
Proof. intros Hne. unfold left_turn. split; intros (x & X1 & X2); exists x; split; auto; apply (turn_at_mod i x Hne); auto. Qed.
Lemma right_mod c i : c <> [] -> right_turn c (i mod length c) <-> right_turn c i.
Proof. intros Hne. unfold right_turn. split; intros (x & X1 & X2); exists x; split; auto; apply (turn_at_mod i x Hne); auto. Qed.

Lemma same_mod_left c i j : c <> [] -> i mod length c = j mod length c -> left_turn c i -> left_turn c j.
Proof. intros Hne H L. apply (left_mod j Hne). rewrite <- H. apply (left_mod i Hne). auto. Qed.
Lemma same_mod_right c i j : c <> [] -> i mod length c = j mod length c -> right_turn c i -> right_turn c j.
Proof. intros Hne H L. apply (right_mod j Hne). rewrite <- H. apply (right_mod i Hne). auto. Qed.

Lemma mod_plus i j k n : n <> 0 -> i mod n = j mod n -> (i + k) mod n = (j + k) mod n.
Proof. intros Hn H. rewrite <- (Nat.add_mod_idemp_l i k), H, Nat.add_mod_idemp_l by auto. reflexivity. Qed.

Lemma dormer_same c i j : c <> [] -> i mod length c = j mod length c -> dormer_at c i -> dormer_at c j.
Proof.
  intros Hne H (D0 & D1 & D2 & D3). assert (Hn : length c <> 0) by (destruct c; [congruence|simpl; lia]).
  split; [exact (same_mod_right Hne H D0)|]. split; [exact (same_mod_left Hne (mod_plus 1 Hn H) D1)|].
  split; [exact (same_mod_left Hne (mod_plus 2 Hn H) D2)|exact (same_mod_right Hne (mod_plus 3 Hn H) D3)].
Qed.

Lemma dormer_gap c i j : dormer_at c i -> dormer_at c j -> i < j -> i + 3 <= j.
Proof.
  intros (A1 & A2 & A3 & A4) (B1 & B2 & B3 & B4) H.
  destruct (Nat.eq_dec j (i + 1)) as [->|]; [destruct (left_right A2 B1)|].
  destruct (Nat.eq_dec j (i + 2)) as [->|]; [destruct (left_right A3 B1)|]. lia.
Qed.

Lemma dormer_n3 c s : c <> [] -> dormer_at c s -> 3 <= length c.
Proof.
  intros Hne (A1 & A2 & A3 & A4). assert (Hn : length c <> 0) by (destruct c; [congruence|simpl; lia]).
  destruct (length c) as [|[|[|k]]] eqn:E; try lia; exfalso.
  - eapply left_right; [exact A2|]. eapply same_mod_right; [auto| |exact A1]. rewrite E, !Nat.mod_1_r. reflexivity.
  - eapply left_right; [exact A3|]. eapply same_mod_right; [auto| |exact A1]. rewrite E.
    replace (s + 2) with (s + 1 * 2) by lia. rewrite Nat.mod_add by lia. reflexivity.
Qed.

Lemma turn_seq_spec c : c <> [] -> exists sq, turn_sequence c = Ok sq /\ length sq = length c /\
  forall i, (nth_error sq (i mod length c) = Some TL <-> left_turn c i) /\ (nth_error sq (i mod length c) = Some TR <-> right_turn c i)
    /\ exists t, nth_error sq (i mod length c) = Some t.
Proof.
  intros Hne. destruct (turn_seq (@coder A) Hne) as (pn & Hpn & Hl & Hi). cbv zeta in *.
  exists (map (fun p => coder (vcross (enorm (fst p)) (enorm (snd p)))) pn).
  split; [unfold turn_sequence; rewrite Hpn; reflexivity|]. split; auto. intros i.
  destruct (Hi i) as (x & T1 & T2 & ->). unfold left_turn, right_turn, coder, ngtb. split; [|split; [|eauto]].
  - destruct (nltb (lit 99 100) x) eqn:E1; [|destruct (nltb x (lit (-99) 100)) eqn:E2]; split; intros H; try discriminate; auto.
    + exists x. auto.
    + destruct H as (y & Y1 & Y2). rewrite (T2 _ Y1) in Y2. congruence.
    + destruct H as (y & Y1 & Y2). rewrite (T2 _ Y1) in Y2. congruence.
  - destruct (nltb (lit 99 100) x) eqn:E1; [|destruct (nltb x (lit (-99) 100)) eqn:E2]; split; intros H; try discriminate; auto.
    + destruct H as (y & Y1 & Y2 & Y3). rewrite (T2 _ Y1) in Y2. congruence.
    + exists x. auto.
    + destruct H as (y & Y1 & Y2 & Y3). rewrite (T2 _ Y1) in Y3. congruence.
Qed.

Lemma rllr_dormer c sq : c <> [] -> length sq = length c ->
  (forall i, (nth_error sq (i mod length c) = Some TL <-> left_turn c i) /\ (nth_error sq (i mod length c) = Some TR <-> right_turn c i)
    /\ exists t, nth_error sq (i mod length c) = Some t) ->
  forall p, rllr_at (sq ++ sq) p <-> p + 3 < 2 * length c /\ dormer_at c p.
Proof.
  intros Hne Hl Hi p. split.
  - intros (A1 & A2 & A3 & A4).
    assert (Hp : p + 3 < 2 * length c).
    { assert (p + 3 < length (sq ++ sq)) by (apply nth_error_Some; congruence). rewrite app_length, Hl in H. lia. }
    split; auto. rewrite (doubled Hl) in A1 by lia. rewrite (doubled Hl) in A2 by lia.
    rewrite (doubled Hl) in A3 by lia. rewrite (doubled Hl) in A4 by lia. repeat split; apply Hi; auto.
  - intros (Hp & D0 & D1 & D2 & D3). unfold rllr_at. rewrite !(doubled Hl) by lia. repeat split; apply Hi; auto.
Qed.

Lemma pairs_in l : StronglySorted lt l -> forall z a b,
  In (a, b) (combine l (tl l ++ [z])) <->
  In a l /\ ((In b l /\ a < b /\ forall q, In q l -> a < q -> b <= q) \/ (b = z /\ forall q, In q l -> q <= a)).
Proof.
  induction 1 as [|x l HS IH HF]; intros z a b; [simpl; tauto|]. rewrite Forall_forall in HF.
  destruct l as [|y l].
  - simpl. split.
    + intros [K|[]]. injection K as <- <-. split; auto. right. split; auto. intros q [<-|[]]. auto.
    + intros [[<-|[]] [([<-|[]] & H & _)|(-> & _)]]; [lia|auto].
  - cbn [tl app combine]. cbn [In]. cbn [tl] in IH.
    assert (Hxy : x < y) by (apply HF; left; auto).
    assert (Hy : forall q, In q (y :: l) -> y <= q).
    { intros q [<-|Hq]; auto. inversion HS as [|? ? HS' HF']; subst. rewrite Forall_forall in HF'. apply HF' in Hq. lia. }
    split.
    + intros [K|K].
      * injection K as <- <-. split; auto. left. split; auto. split; auto. intros q [<-|Hq] Hlt; [lia|]. apply Hy. auto.
      * apply IH in K as [K1 K2]. pose proof (HF _ K1). split; [auto|]. destruct K2 as [(K2 & K3 & K4)|(-> & K2)].
        -- left. split; auto. split; auto. intros q [<-|Hq] Hlt; [lia|]. apply K4; auto.
        -- right. split; auto. intros q [<-|Hq]; [lia|]. apply K2. auto.
    + intros [[<-|K1] K2].
      * left. destruct K2 as [(K2 & K3 & K4)|(-> & K2)].
        -- destruct K2 as [<-|K2]; [lia|]. f_equal. assert (b <= y) by (apply K4; auto; right; left; auto).
           pose proof (Hy _ K2). lia.
        -- exfalso. pose proof (K2 y (or_intror (or_introl eq_refl))). lia.
      * right. apply IH. split; auto. pose proof (HF _ K1). destruct K2 as [(K2 & K3 & K4)|(-> & K2)].
        -- left. destruct K2 as [<-|K2]; [lia|]. split; auto. 
        -- right. auto.
Qed.

Lemma index_vertices c s : dormer_index (length c) s = dormer_vertices c s.
Proof.
  unfold dormer_index, dormer_vertices. cbn [seq map]. rewrite Nat.add_0_r.
  repeat f_equal; lia.
Qed.

Lemma index_nth3 n a : nth 3 (dormer_index n a) 0 = (a + 3) mod n.
Proof. unfold dormer_index. cbn [seq map nth]. f_equal. lia. Qed.
Lemma index_nth0 n a : nth 0 (dormer_index n a) 0 = a mod n.
Proof. reflexivity. Qed.

Lemma index_inj n s t : s < n -> t < n -> dormer_index n s = dormer_index n t -> s = t.
Proof.
  intros Hs Ht H. unfold dormer_index in H. cbn [seq map] in H. injection H as H _ _ _.
  rewrite !Nat.mod_small in H by auto. auto.
Qed.

Section Starts.
Variables (c : list edge2) (ss : list nat).
Hypothesis Hne : c <> [].
Hypothesis Hsort : StronglySorted lt ss.
Hypothesis Hss : forall s, In s ss <-> s < length c /\ dormer_at c s.
Notation n := (length c).
Notation idx := (dormer_index (length c)).

Lemma pair_of s : In s ss -> dormer_at c (s + 3) -> In (s, (s + 3) mod n) (combine ss (tl ss ++ [hd 0 ss])) /\ In ((s + 3) mod n) ss.
Proof.
  intros Hs Hd. pose proof (proj1 (Hss s) Hs) as [Hs1 Hs2]. assert (Hn3 : 3 <= n) by (eapply dormer_n3; eauto).
  assert (Hb : In ((s + 3) mod n) ss).
  { apply Hss. split; [apply Nat.mod_upper_bound; lia|]. eapply dormer_same; [auto| |exact Hd]. rewrite Nat.mod_mod by lia. auto. }
  split; auto. apply pairs_in; auto. split; auto. destruct (Nat.lt_ge_cases (s + 3) n) as [H|H].
  - rewrite Nat.mod_small in * by auto. left. split; auto. split; [lia|]. intros q Hq Hlt. apply Hss in Hq as [_ Hq].
    apply (dormer_gap Hs2 Hq Hlt).
  - right.
    assert (Hm : (s + 3) mod n = s + 3 - n).
    { replace (s + 3) with ((s + 3 - n) + 1 * n) at 1 by lia. rewrite Nat.mod_add by lia. apply Nat.mod_small. lia. }
    rewrite Hm in *. split.
    + destruct ss as [|f t] eqn:Ess; [contradiction|]. cbn [hd].
      assert (Hf : In f (f :: t)) by (left; auto). apply Hss in Hf as [Hf1 Hf2].
      assert (Hle : f <= s + 3 - n).
      { destruct Hb as [<-|Hb]; auto. inversion Hsort as [|? ? _ HF]; subst. rewrite Forall_forall in HF. apply HF in Hb. lia. }
      assert (Hfn : dormer_at c (f + n)).
      { eapply dormer_same; [auto| |exact Hf2]. replace (f + n) with (f + 1 * n) by lia. rewrite Nat.mod_add by lia. auto. }
      pose proof (dormer_gap Hs2 Hfn). lia.
    + intros q Hq. apply Hss in Hq as [Hq1 Hq2]. destruct (Nat.le_gt_cases q s) as [|L]; auto.
      pose proof (dormer_gap Hs2 Hq2 L). lia.
Qed.

Lemma overlapping_spec s : In s ss -> In (idx s) (overlapping (map idx ss)) <-> dormer_at c (s + 3) \/ dormer_at c (s + 3 * n - 3).
Proof.
  intros Hs. pose proof (proj1 (Hss s) Hs) as [Hs1 Hs2]. assert (Hn3 : 3 <= n) by (eapply dormer_n3; eauto).
  assert (Hov : forall d, In d (overlapping (map idx ss)) <->
    exists a b, In (a, b) (combine ss (tl ss ++ [hd 0 ss])) /\ (a + 3) mod n = b mod n /\ (d = idx a \/ d = idx b)).
  { intros d. unfold overlapping. destruct ss as [|s0 rest] eqn:E; [contradiction|]. cbn [map].
    change (idx s0 :: map idx rest) with (map idx (s0 :: rest)).
    change (map idx rest ++ [idx s0]) with (map idx rest ++ map idx [s0]). rewrite <- map_app. cbn [tl hd].
    rewrite in_flat_map. split.
    - intros ((da & db) & H1 & H2).
      assert (exists a b, In (a, b) (combine (s0 :: rest) (rest ++ [s0])) /\ da = idx a /\ db = idx b) as (a & b & P1 & -> & ->).
      { revert H1. clear. generalize (s0 :: rest) (rest ++ [s0]). intros l m. revert m. induction l as [|x l IH]; intros [|y m] H; simpl in H; try contradiction.
        destruct H as [H|H]; [injection H as <- <-; exists x, y; simpl; auto|]. apply IH in H as (a & b & H1 & H2 & H3). exists a, b. simpl; auto. }
      exists a, b. split; auto. cbn [fst snd] in H2. rewrite index_nth3, index_nth0 in H2.
      destruct (Nat.eqb_spec ((a + 3) mod n) (b mod n)) as [Hm|]; [|contradiction].
      split; [exact Hm|]. destruct H2 as [<-|[<-|[]]]; auto.
    - intros (a & b & H1 & H2 & H3). exists (idx a, idx b). split.
      + revert H1. clear. generalize (s0 :: rest) (rest ++ [s0]). intros l m. revert m. induction l as [|x l IH]; intros [|y m] H; simpl in *; try contradiction.
        destruct H as [H|H]; [injection H as <- <-; auto|auto].
      + cbn [fst snd]. rewrite index_nth3, index_nth0, H2, Nat.eqb_refl. destruct H3 as [-> | ->]; simpl; auto. }
  assert (Hpair : forall a b, In (a, b) (combine ss (tl ss ++ [hd 0 ss])) -> In a ss /\ In b ss).
  { intros a b H. apply in_combine_l in H as H1. apply in_combine_r in H. split; auto.
    clear -H H1. apply in_app_iff in H as [H|[<-|[]]]; revert H1; [revert H|]; case ss; simpl; auto. }
  split.
  - intros H. apply Hov in H as (a & b & H1 & H2 & H3). apply Hpair in H1 as [Ha Hb].
    apply Hss in Ha as [Ha1 Ha2]. apply Hss in Hb as [Hb1 Hb2].
    destruct H3 as [H3|H3]; apply index_inj in H3; auto; subst s.
    + left. eapply dormer_same; [auto| |exact Hb2]. auto.
    + right. eapply dormer_same; [auto| |exact Ha2]. rewrite (Nat.mod_small b) in H2 by auto.
      pose proof (Nat.div_mod (a + 3) n ltac:(lia)) as Hdm. rewrite H2 in Hdm.
      assert (Hq : (a + 3) / n <= 3) by (apply Nat.lt_succ_r; apply Nat.div_lt_upper_bound; lia).
      replace (b + 3 * n - 3) with (a + (3 - (a + 3) / n) * n) by nia. rewrite Nat.mod_add by lia. reflexivity.
  - intros [H|H].
    + apply Hov. destruct (pair_of Hs H) as [P1 P2]. exists s, ((s + 3) mod n). split; auto. split; auto.
      rewrite Nat.mod_mod by lia. auto.
    + set (a := (s + 3 * n - 3) mod n).
      assert (Ha : In a ss).
      { apply Hss. split; [apply Nat.mod_upper_bound; lia|]. eapply dormer_same; [auto| |exact H]. unfold a. rewrite Nat.mod_mod by lia. auto. }
      assert (Hm : (a + 3) mod n = s).
      { unfold a. rewrite Nat.add_mod_idemp_l by lia. replace (s + 3 * n - 3 + 3) with (s + 3 * n) by lia.
        rewrite Nat.mod_add by lia. apply Nat.mod_small. auto. }
      assert (Hd : dormer_at c (a + 3)).
      { eapply dormer_same; [auto| |exact Hs2]. rewrite Hm. apply Nat.mod_small. auto. }
      apply Hov. destruct (pair_of Ha Hd) as [P1 P2]. rewrite Hm in *. exists a, s. split; auto.
      split; auto. rewrite Hm, Nat.mod_small by auto. auto.
Qed.
End Starts.

Lemma sorted_filter T (R : T -> T -> Prop) p l : StronglySorted R l -> StronglySorted R (filter p l).
Proof.
  induction 1 as [|x l HS IH HF]; simpl; [constructor|]. destruct (p x); auto. constructor; auto.
  rewrite Forall_forall in *. intros y Hy. apply filter_In in Hy as [Hy _]. auto.
Qed.

Lemma sorted_nodup l : StronglySorted lt l -> NoDup l.
Proof.
  induction 1 as [|x l HS IH HF]; constructor; auto. intros H. rewrite Forall_forall in HF. apply HF in H. lia.
Qed.

Lemma covered_count c ss : (forall s, In s ss -> s < length c) ->
  distinct_count (map (dormer_vertices c) ss) = length c <-> covered c ss.
Proof.
  intros Hlt. unfold distinct_count.
  assert (Hin : forall i, In i (nodup Nat.eq_dec (concat (map (dormer_vertices c) ss))) <-> exists s, In s ss /\ In i (dormer_vertices c s)).
  { intros i. rewrite nodup_In, in_concat. split.
    - intros (l & H1 & H2). apply in_map_iff in H1 as (s & <- & H1). eauto.
    - intros (s & H1 & H2). exists (dormer_vertices c s). split; auto. apply in_map. auto. }
  assert (Hr : incl (nodup Nat.eq_dec (concat (map (dormer_vertices c) ss))) (seq 0 (length c))).
  { intros i Hi. apply Hin in Hi as (s & H1 & H2). apply Hlt in H1. apply in_seq. unfold dormer_vertices in H2.
    apply in_map_iff in H2 as (k & <- & _). pose proof (Nat.mod_upper_bound (s + k) (length c)). lia. }
  split.
  - intros H i Hi. apply Hin. eapply NoDup_length_incl; [apply NoDup_nodup| |exact Hr|apply in_seq; lia].
    rewrite seq_length, H. auto.
  - intros H. apply Nat.le_antisymm.
    + rewrite <- (seq_length (length c) 0). apply NoDup_incl_length; [apply NoDup_nodup|exact Hr].
    + rewrite <- (seq_length (length c) 0) at 1. apply NoDup_incl_length; [apply seq_NoDup|]. intros i Hi.
      apply Hin. apply H. apply in_seq in Hi. lia.
Qed.

(** *** the check of one dormer *)
Lemma edge_at_some c i : c <> [] -> exists e, edge_at c i = Some e.
Proof.
  intros Hne. unfold edge_at. destruct (nth_error c (i mod length c)) eqn:E; eauto.
  apply nth_error_None in E. pose proof (Nat.mod_upper_bound i (length c)). destruct c; [congruence|simpl in *; lia].
Qed.

Lemma dormer_check_spec c sq p s : c <> [] -> length sq = length c -> s < length c ->
  (forall i, (nth_error sq (i mod length c) = Some TL <-> left_turn c i) /\ (nth_error sq (i mod length c) = Some TR <-> right_turn c i)
    /\ exists t, nth_error sq (i mod length c) = Some t) ->
  match dormer_check c sq p (dormer_index (length c) s) with
  | Ok [] => ~ sizes_ok c p s
  | Ok [d] => sizes_ok c p s /\ fst d = dormer_vertices c s /\ base_width c s (snd d)
  | Ok _ => False
  | Err x => exists e0 e2, edge_at c s = Some e0 /\ edge_at c (s + 2) = Some e2 /\
      pdiv (nabs (nsub (edge_length_squared e0) (edge_length_squared e2))) (nadd (edge_length_squared e0) (edge_length_squared e2)) = Err x
  end.
Proof.
  intros Hne Hl Hs Hi. destruct (edge_at_some s Hne) as (e0 & E0). destruct (edge_at_some (s + 1) Hne) as (e1 & E1).
  destruct (edge_at_some (s + 2) Hne) as (e2 & E2). destruct (edge_at_some (s + 3) Hne) as (e4 & E4).
  destruct (edge_at_some (s + length c - 1) Hne) as (e3 & E3).
  assert (Hn : length c <> 0) by lia.
  unfold dormer_check. rewrite Hl. unfold dormer_index at 1 2 3 4 5. cbn [seq map nth].
  replace (S s) with (s + 1) by lia. replace (S (s + 1)) with (s + 2) by lia. replace (S (s + 2)) with (s + 3) by lia.
  rewrite mod_pred by lia. unfold edge_at in E0, E1, E2, E3, E4.
  rewrite E0, E1, E2, E3, E4. cbn [of_option bind].
  match goal with |- context [pdiv ?a ?b] => destruct (pdiv a b) as [d|x] eqn:Ed end; cbn [bind]; [|cbv iota; eauto].
  assert (Hfac : forall i, factor c i (if turn_eqb (nth (i mod length c) sq T0) TL then lit 3 2 else lit 1 8)).
  { intros i. destruct (Hi i) as (H1 & H2 & t & H3). rewrite (nth_error_nth _ _ T0 H3). rewrite H3 in H1. split; intros H.
    - apply H1 in H. injection H as ->. reflexivity.
    - destruct t; try reflexivity. exfalso. apply H, H1. reflexivity. }
  assert (Hfu : forall i f g, factor c i f -> factor c i g -> f = g).
  { intros i f g [F1 F2] [G1 G2]. destruct (Hi i) as (H1 & _ & t & H3). rewrite H3 in H1.
    destruct t; [rewrite F1, G1 by (apply H1; auto); auto| |]; rewrite F2, G2 by (intros K; apply H1 in K; discriminate); auto. }
  pose proof (Hfac (p + length c - 1)) as Fl. pose proof (Hfac (p + 4)) as Fr.
  revert Fl Fr.
  generalize (if turn_eqb (nth ((p + length c - 1) mod length c) sq T0) TL then lit (a := A) 3 2 else lit (a := A) 1 8) as fl.
  generalize (if turn_eqb (nth ((p + 4) mod length c) sq T0) TL then lit (a := A) 3 2 else lit (a := A) 1 8) as fr.
  intros fr fl Fl Fr. unfold ngeb.
  destruct (nltb (edge_length_squared e1) (lit 100 1) && nltb d (lit 35 100) &&
     nleb (nmul (edge_length_squared e1) fl) (edge_length_squared e3) && nleb (nmul (edge_length_squared e1) fr) (edge_length_squared e4)) eqn:Eb.
  - apply andb_true_iff in Eb as [Eb B4]. apply andb_true_iff in Eb as [Eb B3]. apply andb_true_iff in Eb as [B1 B2].
    split; [|split; [apply index_vertices|]].
    + exists e3, e0, e1, e2, e4, d, fl, fr. repeat split; auto; try apply Fl; try apply Fr.
    + exists e1. split; auto.
  - intros (f3 & f0 & f1 & f2 & f4 & d' & fl' & fr' & G3 & G0 & G1 & G2 & G4 & Gd & Gl & Gr & B1 & B2 & B3 & B4).
    unfold edge_at in *. cbv zeta in *. 
    assert (f3 = e3 /\ f0 = e0 /\ f1 = e1 /\ f2 = e2 /\ f4 = e4) as (-> & -> & -> & -> & ->) by (repeat split; congruence).
    rewrite Ed in Gd. apply Ok_inj in Gd. subst d'. rewrite (Hfu _ _ _ Gl Fl) in B3. rewrite (Hfu _ _ _ Gr Fr) in B4.
    rewrite B1, B2, B3, B4 in Eb. discriminate.
Qed.

Theorem detectDormers_spec c rest : c <> [] ->
  exists ss, StronglySorted lt ss /\ (forall s, In s ss <-> s < length c /\ dormer_at c s /\ isolated c s) /\
    (covered c ss -> detectDormers (c :: rest) = Ok []) /\
    (~ covered c ss ->
      match detectDormers (c :: rest) with
      | Ok ds => exists ts, StronglySorted lt ts /\
          (forall s, In s ts <-> In s ss /\ exists p, last_dormer c p /\ sizes_ok c p s) /\
          Forall2 (fun s d => fst d = dormer_vertices c s /\ base_width c s (snd d)) ts ds
      | Err x => exists s e0 e2, In s ss /\ edge_at c s = Some e0 /\ edge_at c (s + 2) = Some e2 /\
          pdiv (nabs (nsub (edge_length_squared e0) (edge_length_squared e2))) (nadd (edge_length_squared e0) (edge_length_squared e2)) = Err x
      end).
Proof.
  intros Hne. assert (Hn : 0 < length c) by (destruct c; [congruence|simpl; lia]).
  destruct (turn_seq_spec Hne) as (sq & Hsq & Hl & Hi).
  pose proof (rllr_dormer Hne Hl Hi) as Hrl.
  set (ms := rllr_matches 0 (sq ++ sq)).
  assert (Hms : forall q, In q ms <-> q + 3 < 2 * length c /\ dormer_at c q).
  { intros q. unfold ms. rewrite rllr_in, Nat.sub_0_r, Hrl. split; [tauto|split; [lia|tauto]]. }
  assert (Hmsort : StronglySorted lt ms) by apply rllr_sorted.
  set (st := filter (fun i => Nat.ltb i (length c)) ms).
  assert (Hst : dormer_starts (length c) 0 ms = st).
  { apply dormer_starts_spec; auto; [|intros; lia]. intros i j H1 H2 H3. apply Hms in H1 as [_ H1]. apply Hms in H2 as [_ H2].
    exact (dormer_gap H1 H2 H3). }
  assert (Hstin : forall s, In s st <-> s < length c /\ dormer_at c s).
  { intros s. unfold st. rewrite filter_In, Hms, Nat.ltb_lt. split; [tauto|]. intros [H1 H2]. 
    pose proof (dormer_n3 Hne H2). split; [split; [lia|auto]|auto]. }
  assert (Hstsort : StronglySorted lt st) by (apply sorted_filter; auto).
  assert (Hnd : NoDup (map (dormer_index (length c)) st)).
  { apply sorted_nodup in Hstsort as Hnd. clear -Hnd Hstin. 
    assert (Hlt : forall s, In s st -> s < length c) by (intros s H; apply Hstin in H; tauto). clear Hstin.
    induction Hnd as [|x l Hx HN IH]; simpl; constructor.
    - intros H. apply in_map_iff in H as (y & H1 & H2). apply index_inj in H1; [|apply Hlt; right; auto|apply Hlt; left; auto].
      subst. contradiction.
    - apply IH. intros; apply Hlt; right; auto. }
  set (bad := overlapping (map (dormer_index (length c)) st)).
  set (ss := filter (fun s => negb (existsb (nlist_eqb (dormer_index (length c) s)) bad)) st).
  assert (Hfo : filter_overlapping (map (dormer_index (length c)) st) = map (dormer_index (length c)) ss).
  { unfold filter_overlapping. rewrite (fold_remove _ Hnd). fold bad. unfold keep, ss. generalize st as l. clear.
    induction l as [|x l IH]; simpl; auto. destruct (existsb _ bad); simpl; rewrite IH; auto. }
  assert (Hss : forall s, In s ss <-> s < length c /\ dormer_at c s /\ isolated c s).
  { intros s. unfold ss. rewrite filter_In, negb_true_iff, Hstin.
    assert (Hk : In s st -> existsb (nlist_eqb (dormer_index (length c) s)) bad = false <-> isolated c s).
    { intros H. unfold isolated. pose proof (overlapping_spec Hne Hstsort Hstin H) as Ho. fold bad in Ho.
      pose proof (existsb_nlist (dormer_index (length c) s) bad) as He.
      destruct (existsb (nlist_eqb (dormer_index (length c) s)) bad) eqn:E; split; intros K.
      - discriminate.
      - exfalso. assert (dormer_at c (s + 3) \/ dormer_at c (s + 3 * length c - 3)) by tauto. tauto.
      - split; intros K'; assert (false = true) by tauto; discriminate.
      - reflexivity. }
    rewrite Hstin in Hk. tauto. }
  assert (Hssort : StronglySorted lt ss) by (apply sorted_filter; auto).
  exists ss. split; auto. split; auto.
  assert (Hcount : distinct_count (map (dormer_index (length c)) ss) = length c <-> covered c ss).
  { rewrite <- covered_count by (intros s H; apply Hss in H; tauto).
    replace (map (dormer_index (length c)) ss) with (map (dormer_vertices c) ss); [tauto|].
    apply map_ext. intros s. symmetry. apply index_vertices. }
  assert (Hdet : detectDormers (c :: rest) =
    (if Nat.eqb (distinct_count (map (dormer_index (length c)) ss)) (length c) then Ok []
     else r <- mapM (dormer_check c sq (last ms 0)) (map (dormer_index (length c)) ss) ;; Ok (concat r))).
  { unfold detectDormers. cbn [py_get]. change (py_get (c :: rest) 0) with (Ok c). cbn [bind]. rewrite Hsq. cbn [bind].
    rewrite Hl. fold ms. rewrite Hst, Hfo. reflexivity. }
  rewrite Hdet. split.
  - intros Hc. apply Hcount in Hc. rewrite Hc, Nat.eqb_refl. reflexivity.
  - intros Hc. destruct (Nat.eqb_spec (distinct_count (map (dormer_index (length c)) ss)) (length c)) as [He|_]; [exfalso; tauto|].
    assert (Hlast : forall s, In s ss -> forall p, last_dormer c p <-> p = last ms 0).
    { intros s Hs p. 
      assert (Hin : In s ms).
      { apply Hss in Hs as (S1 & S2 & _). apply Hms. pose proof (dormer_n3 Hne S2). split; [lia|auto]. }
      assert (Hmax : In (last ms 0) ms /\ forall q, In q ms -> q <= last ms 0).
      { revert Hin Hmsort. generalize ms. clear. intros l H HS. assert (Hn : l <> []) by (intros ->; contradiction). clear H s.
        induction HS as [|x l HS IH HF]; [congruence|]. destruct l as [|y l].
        - simpl. split; auto. intros q [<-|[]]; auto.
        - destruct IH as [H1 H2]; [discriminate|]. change (last (x :: y :: l) 0) with (last (y :: l) 0).
          split; [right; auto|]. intros q [<-|Hq]; [|apply H2; auto]. rewrite Forall_forall in HF. apply HF in H1. lia. }
      destruct Hmax as [M1 M2]. split.
      - intros (P1 & P2 & P3). assert (Hp : In p ms) by (apply Hms; auto). apply M2 in Hp.
        destruct (Nat.eq_dec p (last ms 0)); auto. exfalso. apply Hms in M1 as [M0 M1]. apply (P3 (last ms 0)); auto. lia.
      - intros ->. pose proof (proj1 (Hms _) M1) as [M3 M4]. split; auto. split; auto. intros q Hq H1 H2.
        assert (In q ms) by (apply Hms; auto). apply M2 in H. lia. }
    assert (Hlt : forall s, In s ss -> s < length c) by (intros s H; apply Hss in H; tauto).
    assert (Hchk : forall s, In s ss -> match dormer_check c sq (last ms 0) (dormer_index (length c) s) with
      | Ok [] => ~ exists p, last_dormer c p /\ sizes_ok c p s
      | Ok [d] => (exists p, last_dormer c p /\ sizes_ok c p s) /\ fst d = dormer_vertices c s /\ base_width c s (snd d)
      | Ok _ => False
      | Err x => exists e0 e2, edge_at c s = Some e0 /\ edge_at c (s + 2) = Some e2 /\
          pdiv (nabs (nsub (edge_length_squared e0) (edge_length_squared e2))) (nadd (edge_length_squared e0) (edge_length_squared e2)) = Err x
      end).
    { intros s Hs. pose proof (dormer_check_spec (last ms 0) Hne Hl (Hlt s Hs) Hi) as H.
      destruct (dormer_check c sq (last ms 0) (dormer_index (length c) s)) as [[|d [|]]|x]; auto.
      - intros (p & P1 & P2). apply (Hlast s Hs) in P1. subst. auto.
      - destruct H as (H1 & H2). split; auto. exists (last ms 0). split; auto. apply (Hlast s Hs). auto. }
    assert (Hmap : forall l, (forall s, In s l -> In s ss) -> StronglySorted lt l ->
      match r <- mapM (dormer_check c sq (last ms 0)) (map (dormer_index (length c)) l) ;; Ok (concat r) with
      | Ok ds => exists ts, StronglySorted lt ts /\
          (forall s, In s ts <-> In s l /\ exists p, last_dormer c p /\ sizes_ok c p s) /\
          Forall2 (fun s d => fst d = dormer_vertices c s /\ base_width c s (snd d)) ts ds
      | Err x => exists s e0 e2, In s l /\ edge_at c s = Some e0 /\ edge_at c (s + 2) = Some e2 /\
          pdiv (nabs (nsub (edge_length_squared e0) (edge_length_squared e2))) (nadd (edge_length_squared e0) (edge_length_squared e2)) = Err x
      end).
    { intros l Hin HS. induction HS as [|s l HS IH HF]; [simpl; exists []; split; [constructor|]; split; [simpl; tauto|constructor]|].
      cbn [map mapM]. specialize (IH (fun q Hq => Hin q (or_intror Hq))).
      pose proof (Hchk s (Hin s (or_introl eq_refl))) as H.
      destruct (dormer_check c sq (last ms 0) (dormer_index (length c) s)) as [r0|x]; cbn [bind].
      - destruct (mapM (dormer_check c sq (last ms 0)) (map (dormer_index (length c)) l)) as [r|x]; cbn [bind] in *.
        + destruct IH as (ts & T1 & T2 & T3). destruct r0 as [|d [|]]; [| |contradiction].
          * exists ts. split; auto. split; [|exact T3]. intros q. rewrite T2. simpl. split; [tauto|].
            intros [[<-|H1] H2]; [contradiction|auto].
          * destruct H as (H1 & H2). exists (s :: ts). split; [|split].
            -- constructor; auto. rewrite Forall_forall in *. intros q Hq. apply HF. apply T2 in Hq. tauto.
            -- intros q. simpl. rewrite T2. split; [intros [<-|H]; tauto|]. intros [[<-|H3] H4]; tauto.
            -- simpl. constructor; auto.
        + destruct IH as (q & e0 & e2 & Q1 & Q2). exists q, e0, e2. split; [right; auto|auto].
      - destruct H as (e0 & e2 & Q). exists s, e0, e2. split; [left; auto|auto]. }
    apply Hmap; auto.
Qed.

(** *** consequences *)
Lemma isolated_n4 c s : c <> [] -> dormer_at c s -> isolated c s -> 4 <= length c.
Proof.
  intros Hne Hd [Hi _]. pose proof (dormer_n3 Hne Hd). destruct (Nat.eq_dec (length c) 3) as [E|]; [|lia].
  exfalso. apply Hi. eapply dormer_same; [auto| |exact Hd]. rewrite E. replace (s + 3) with (s + 1 * 3) by lia.
  rewrite Nat.mod_add by lia. reflexivity.
Qed.

Lemma mod_inj n s i j : s <= i < s + n -> s <= j < s + n -> i mod n = j mod n -> i = j.
Proof.
  intros Hi Hj H. pose proof (Nat.div_mod i n ltac:(lia)) as D1. pose proof (Nat.div_mod j n ltac:(lia)) as D2. rewrite H in D1.
  assert (i / n = j / n) by nia. nia.
Qed.

Lemma dormers_disjoint c s t : c <> [] -> s < length c -> t < length c -> dormer_at c s -> dormer_at c t -> isolated c s -> isolated c t ->
  s <> t -> forall i, In i (dormer_vertices c s) -> ~ In i (dormer_vertices c t).
Proof.
  intros Hne.
  assert (G : forall s t, s < length c -> t < length c -> dormer_at c s -> dormer_at c t -> isolated c s -> isolated c t ->
    s < t -> forall i, In i (dormer_vertices c s) -> ~ In i (dormer_vertices c t)).
  { clear s t. intros s t Hs Ht Ds Dt Is It Hlt i H1 H2.
    assert (Dsn : dormer_at c (s + length c)).
    { eapply dormer_same; [auto| |exact Ds]. replace (s + length c) with (s + 1 * length c) by lia. rewrite Nat.mod_add by lia. auto. }
    pose proof (dormer_gap Ds Dt Hlt) as G1. pose proof (dormer_gap Dt Dsn ltac:(lia)) as G2.
    assert (t <> s + 3) by (intros ->; destruct Is as [Is _]; contradiction).
    assert (s + length c <> t + 3) by (intros E; destruct It as [It _]; rewrite <- E in It; contradiction).
    unfold dormer_vertices in *. apply in_map_iff in H1 as (k & E1 & K1). apply in_map_iff in H2 as (k' & E2 & K2).
    assert (k < 4) by (simpl in K1; lia). assert (k' < 4) by (simpl in K2; lia).
    rewrite <- E2 in E1. apply (@mod_inj (length c) s) in E1; lia. }
  intros Hs Ht Ds Dt Is It Hst i H1 H2. destruct (Nat.lt_gt_cases s t) as [[H|H] _]; auto.
  - exact (G s t Hs Ht Ds Dt Is It H i H1 H2).
  - exact (G t s Ht Hs Dt Ds It Is H i H2 H1).
Qed.

Lemma dormer_distinct c s : c <> [] -> dormer_at c s -> isolated c s -> NoDup (dormer_vertices c s).
Proof.
  intros Hne Hd Hi. pose proof (isolated_n4 Hne Hd Hi). unfold dormer_vertices. cbn [map].
  assert (forall a b, a < 4 -> b < 4 -> (s + a) mod length c = (s + b) mod length c -> a = b).
  { intros a b Ha Hb E. apply (@mod_inj (length c) s) in E; lia. }
  repeat constructor; simpl; intros K; repeat destruct K as [K|K]; try contradiction; apply H0 in K; lia.
Qed.

Theorem dormers_sound c rest ds : c <> [] -> detectDormers (c :: rest) = Ok ds ->
  Forall (fun d => exists s p, s < length c /\ dormer_at c s /\ isolated c s /\ last_dormer c p /\ sizes_ok c p s /\
            fst d = dormer_vertices c s /\ NoDup (fst d) /\ base_width c s (snd d)) ds /\
  NoDup (concat (map fst ds)) /\
  (ds <> [] -> exists i, i < length c /\ ~ In i (concat (map fst ds))).
Proof.
  intros Hne Hd. destruct (detectDormers_spec rest Hne) as (ss & _ & Hss & H1 & H2).
  assert (Hdec : covered c ss \/ ~ covered c ss).
  { rewrite <- covered_count by (intros s H; apply Hss in H; tauto). lia. }
  destruct Hdec as [Hc|Hc].
  { rewrite (H1 Hc) in Hd. apply Ok_inj in Hd. subst ds. split; [constructor|]. split; [constructor|congruence]. }
  specialize (H2 Hc). rewrite Hd in H2. destruct H2 as (ts & T1 & T2 & T3).
  assert (Hcat : forall i, In i (concat (map fst ds)) <-> exists s, In s ts /\ In i (dormer_vertices c s)).
  { clear -T3. intros i. induction T3 as [|s d ts ds [H _] HF IH]; simpl; [split; [tauto|intros (s & [] & _)]|].
    rewrite in_app_iff, IH, H. split.
    - intros [K|(q & K1 & K2)]; eauto.
    - intros (q & [<-|K1] & K2); eauto. }
  assert (Hts : forall s, In s ts -> s < length c /\ dormer_at c s /\ isolated c s) by (intros s H; apply T2 in H as [H _]; apply Hss; auto).
  split; [|split].
  - clear Hcat Hd. revert T3. assert (T2' : forall s, In s ts -> exists p, last_dormer c p /\ sizes_ok c p s) by (intros s H; apply T2 in H; tauto).
    clear T1 T2. intros T3. induction T3 as [|s d ts ds [D1 D2] HF IH]; constructor.
    + destruct (Hts s (or_introl eq_refl)) as (K1 & K2 & K3). destruct (T2' s (or_introl eq_refl)) as (p & P1 & P2).
      exists s, p. repeat (split; auto). rewrite D1. apply dormer_distinct; auto.
    + apply IH; intros; [apply Hts|apply T2']; right; auto.
  - clear Hcat Hd T2. revert ds T3. induction T1 as [|s ts HS IH HF]; intros ds T3; inversion T3 as [|? d ? ds' [D1 D2] T3']; subst; simpl; [constructor|].
    destruct (Hts s (or_introl eq_refl)) as (K1 & K2 & K3). rewrite D1.
    assert (Hn : NoDup (concat (map fst ds'))) by (apply IH; auto; intros; apply Hts; right; auto).
    assert (Hdis : forall i, In i (dormer_vertices c s) -> ~ In i (concat (map fst ds'))).
    { intros i Hi Hi'. assert (exists t, In t ts /\ In i (dormer_vertices c t)) as (t & Q1 & Q2).
      { clear -T3' Hi'. induction T3' as [|t d' ts ds [H _] HF' IH]; simpl in Hi'; [contradiction|].
        apply in_app_iff in Hi' as [Hi'|Hi']; [rewrite H in Hi'; exists t; split; [left; auto|auto]|].
        destruct (IH Hi') as (q & Q1 & Q2). exists q. split; [right; auto|auto]. }
      destruct (Hts t (or_intror Q1)) as (L1 & L2 & L3). rewrite Forall_forall in HF. apply HF in Q1.
      apply (@dormers_disjoint c s t Hne K1 L1 K2 L2 K3 L3 ltac:(lia) i Hi Q2). }
    pose proof (dormer_distinct Hne K2 K3) as Hd. revert Hd Hdis. generalize (dormer_vertices c s). clear -Hn.
    induction l as [|x l IH]; intros Hd Hdis; simpl; auto. inversion Hd; subst. constructor.
    + rewrite in_app_iff. intros [K|K]; [contradiction|]. apply (Hdis x); simpl; auto.
    + apply IH; auto. intros i Hi. apply Hdis. right; auto.
  - intros _. destruct (List.existsb (fun i => negb (existsb (Nat.eqb i) (concat (map fst ds)))) (seq 0 (length c))) eqn:E.
    + apply existsb_exists in E as (i & I1 & I2). apply in_seq in I1. exists i. split; [lia|]. intros K.
      apply negb_true_iff in I2. assert (existsb (Nat.eqb i) (concat (map fst ds)) = true); [|congruence].
      apply existsb_exists. exists i. split; auto. apply Nat.eqb_refl.
    + exfalso. apply Hc. intros i Hi.
      assert (In i (concat (map fst ds))).
      { destruct (existsb (Nat.eqb i) (concat (map fst ds))) eqn:E'.
        - apply existsb_exists in E' as (j & J1 & J2). apply Nat.eqb_eq in J2. subst. auto.
        - assert (existsb (fun i => negb (existsb (Nat.eqb i) (concat (map fst ds)))) (seq 0 (length c)) = true); [|congruence].
          apply existsb_exists. exists i. split; [apply in_seq; lia|]. rewrite E'. reflexivity. }
      apply Hcat in H as (s & S1 & S2). exists s. split; auto. apply T2 in S1. tauto.
Qed.
End Turns.
