(** * ConvexGraph: the graph of a roof over a convex contour and its embedding (C49) *)

From Coq Require Import Permutation Reals Lra.
From Verif Require Import Py PyFacts Arith ArithR Euclid Graph GraphSpec GraphProofs Lav Cluster Poly PySort ClusterSpec GeoSpec GeoLines BisSpec BisProofs BisStart
  PatSpec TriSpec TriSkel TriRoof ConvexSpec ConvexGeo ConvexWave RoofSpec ConvexComb ConvexTree ConvexPost ConvexFaces.
Set Implicit Arguments.
Unset Strict Implicit.
Local Open Scope nat_scope.

(** ** lists of pairs without parallel edges *)
Lemma simple_pairs (es : list dart) : NoDup es -> (forall x y, In (x, y) es -> In (y, x) es -> x = y) -> no_parallel_edges es.
Proof.
  intros Hnd Hs a b. unfold multiplicity. destruct (Z.eqb_spec a b) as [|Hab]; [lia|].
  assert (G : forall l, NoDup l -> (forall d, In d l -> d = (a, b) \/ d = (b, a)) -> (forall x y, In (x, y) l -> In (y, x) l -> x = y) -> length l <= 1).
  { intros [|d1 [|d2 l]] N1 N2 N3; simpl; try lia. exfalso. apply NoDup_cons_iff in N1 as [N1 _]. simpl in N1.
    pose proof (N2 d1 (or_introl eq_refl)) as [-> | ->]; pose proof (N2 d2 (or_intror (or_introl eq_refl))) as [-> | ->];
      first [tauto | apply Hab, (N3 a b); simpl; auto]. }
  apply G.
  - apply NoDup_filter; auto.
  - intros [x y] K. apply filter_In in K as [_ K]. unfold joins in K. cbn [fst snd] in K. apply orb_true_iff in K as [K|K];
      apply andb_true_iff in K as [K1 K2]; apply Z.eqb_eq in K1, K2; subst; auto.
  - intros x y K1 K2. apply filter_In in K1, K2. apply Hs; tauto.
Qed.

Lemma enumerate_seq (T : Type) (l : list T) d : enumerate l = map (fun k => (k, nth k l d)) (seq 0 (length l)).
Proof.
  apply nth_error_ext. intros i. rewrite enumerate_nth, nth_error_map.
  destruct (nth_error l i) as [x|] eqn:E.
  - assert (Hi : i < length l) by (apply nth_error_Some; congruence).
    rewrite (nth_error_nth' _ 0) by (rewrite seq_length; auto). rewrite seq_nth by auto. cbn [option_map]. rewrite Nat.add_0_l, (nth_error_nth _ _ d E). auto.
  - apply nth_error_None in E. rewrite (proj2 (nth_error_None (seq 0 (length l)) i)) by (rewrite seq_length; auto). auto.
Qed.

Lemma find_first (T : Type) (p : T -> bool) l k x : nth_error l k = Some x -> p x = true -> (forall j y, nth_error l j = Some y -> p y = true -> j = k) ->
  find p l = Some x /\ find_pos p l = Some k.
Proof.
  revert k. induction l as [|a l IH]; intros k Hk Hp Hu; [destruct k; discriminate|]. simpl. destruct (p a) eqn:Ea.
  - assert (0 = k) by (apply (Hu 0 a); auto). subst k. simpl in Hk. injection Hk as ->. auto.
  - destruct k as [|k]; [simpl in Hk; congruence|]. destruct (IH k) as [-> ->]; auto. intros j y Hj Hy. assert (S j = S k) by (apply (Hu (S j) y); auto). lia.
Qed.

Lemma find_nothing (T : Type) (p : T -> bool) l : (forall x, In x l -> p x = false) -> find p l = None.
Proof. induction l as [|a l IH]; simpl; intros H; auto. rewrite H by auto. apply IH. auto. Qed.

Section Graph.
Variable c : list (@edge2 RA).
Hypothesis Hc : convex_contour c.
Let n := length c.
Variables (out : list (@subtree RA)) (M : nat) (wp wl A B U : nat -> nat) (F : nat -> list nat) (P : nat -> pt) (H : nat -> R).
Hypothesis Hr : roof c out M wp wl A B U F P H.
Variables first nr : Z.
Hypothesis Hnr : (first + Z.of_nat n <= nr)%Z.
Hypothesis Hids : forall i e, nth_error c i = Some e -> ei1 e = (first + Z.of_nat i)%Z.

Let n3 : 3 <= n := n_pos Hc.
Let Ht : tree n M wp wl A B U F := r_tree Hr.

Definition vid v : Z := if Nat.ltb v n then (first + Z.of_nat v)%Z else (nr + Z.of_nat (v - n))%Z.

Lemma vid_low v : v < n -> vid v = (first + Z.of_nat v)%Z.
Proof. intros Hv. unfold vid. destruct (Nat.ltb_spec v n); [auto|lia]. Qed.
Lemma vid_high v : n <= v -> vid v = (nr + Z.of_nat (v - n))%Z.
Proof. intros Hv. unfold vid. destruct (Nat.ltb_spec v n); [lia|auto]. Qed.
Lemma vid_inj u v : vid u = vid v -> u = v.
Proof. unfold vid. destruct (Nat.ltb_spec u n), (Nat.ltb_spec v n); lia. Qed.
Lemma vid_lt v : v < n -> (vid v < nr)%Z.
Proof. intros Hv. rewrite vid_low by auto. lia. Qed.
Lemma vid_ge v : n <= v -> (nr <= vid v)%Z.
Proof. intros Hv. rewrite vid_high by auto. lia. Qed.

(** ** sinks are found again *)
Lemma contour_pnt i e : nth_error c i = Some e -> i < n /\ ep1 e = P i.
Proof.
  intros He. assert (Hi : i < n) by (apply nth_error_Some; congruence). split; auto. destruct (r_base Hr Hi) as [-> _].
  unfold pnt, edge_at. fold n. rewrite Nat.mod_small by auto. rewrite He. auto.
Qed.

Lemma sink_vid v : v < M -> sink_index c out nr (P v) = vid v.
Proof.
  intros Hv. pose proof (t_M Ht) as HM. unfold sink_index. destruct (Nat.lt_ge_cases v n) as [L|L].
  - destruct (nth_error c v) as [e|] eqn:Ee; [|apply nth_error_None in Ee; fold n in Ee; lia].
    destruct (@find_first _ (fun e => veq (ep1 e) (P v)) c v e Ee) as [-> _].
    + apply veq_R. apply (contour_pnt Ee).
    + intros j y Hj Hy. apply veq_R in Hy. destruct (contour_pnt Hj) as [Lj K]. rewrite K in Hy. apply (r_dist Hr); auto; lia.
    + rewrite vid_low by auto. apply Hids; auto.
  - rewrite find_nothing.
    2:{ intros e He. apply In_nth_error in He as (i & Hi). destruct (contour_pnt Hi) as [Li K]. apply not_true_is_false. intros Q. apply veq_R in Q.
        rewrite K in Q. apply (r_dist Hr) in Q; lia. }
    pose proof (r_len Hr) as HL. fold n in HL.
    destruct (nth_error out (v - n)) as [a|] eqn:Ea; [|apply nth_error_None in Ea; lia].
    destruct (@find_first _ (fun arc => veq (source arc) (P v)) out (v - n) a Ea) as [_ ->].
    + apply veq_R. destruct (out_node Hr Ea) as (_ & -> & _). fold n. f_equal. lia.
    + intros j y Hj Hy. apply veq_R in Hy. destruct (out_node Hr Hj) as (Lj & K & _). fold n in Lj, K. rewrite K in Hy. apply (r_dist Hr) in Hy; auto. lia.
    + rewrite vid_high by auto. lia.
Qed.

(** ** the edges *)
Lemma kids_exist : exists kids : nat -> list nat,
  (forall k, k < length out -> sinks (get_arc out k) = map P (kids (n + k))) /\
  (forall x, n <= x -> S x < M -> kids x = [A x; B x]) /\
  (forall x, n <= x -> S x = M -> Permutation (kids x) [A x; B x; U x]).
Proof.
  pose proof (t_M Ht) as HM. pose proof (r_len Hr) as HL. fold n in HL.
  destruct (r_peak Hr (k := length out - 1)) as (l & Hp & Hk); [fold n; lia|]. fold n in Hp, Hk.
  exists (fun x => if Nat.eqb (S x) M then l else [A x; B x]). split; [|split].
  - intros k Hlt. unfold get_arc. destruct (Nat.eqb_spec (S (n + k)) M) as [E|E].
    + assert (k = length out - 1) by lia. subst k. rewrite (nth_error_nth _ _ _ Hk). auto.
    + pose proof (r_out Hr (k := k)) as K. fold n in K. rewrite (nth_error_nth _ _ _ (K ltac:(lia))). auto.
  - intros x _ Hx. destruct (Nat.eqb_spec (S x) M); [lia|auto].
  - intros x Hn Hx. destruct (Nat.eqb_spec (S x) M); [|lia]. replace x with (n + (length out - 1)) by lia. auto.
Qed.

Section Kids.
Variable kids : nat -> list nat.
Hypothesis Kout : forall k, k < length out -> sinks (get_arc out k) = map P (kids (n + k)).
Hypothesis Kin : forall x, n <= x -> S x < M -> kids x = [A x; B x].
Hypothesis Kpk : forall x, n <= x -> S x = M -> Permutation (kids x) [A x; B x; U x].

Definition rim : list dart := map (fun i => (vid ((i + n - 1) mod n), vid i)) (seq 0 n).
Definition spokes : list dart := flat_map (fun k => map (fun v => (vid (n + k), vid v)) (kids (n + k))) (seq 0 (length out)).

Lemma kids_in x v : n <= x < M -> In v (kids x) -> v = A x \/ v = B x \/ S x = M /\ v = U x.
Proof.
  intros Hx Hv. destruct (Nat.eq_dec (S x) M) as [E|E].
  - apply (Permutation_in _ (Kpk (proj1 Hx) E)) in Hv. destruct Hv as [|[|[|[]]]]; auto.
  - rewrite Kin in Hv by lia. destruct Hv as [|[|[]]]; auto.
Qed.

Lemma kids_A x : n <= x < M -> In (A x) (kids x) /\ In (B x) (kids x) /\ (S x = M -> In (U x) (kids x)).
Proof.
  intros Hx. destruct (Nat.eq_dec (S x) M) as [E|E].
  - pose proof (Permutation_sym (Kpk (proj1 Hx) E)) as K. split; [|split]; intros; eapply Permutation_in; try exact K; simpl; auto.
  - rewrite Kin by lia. simpl. repeat split; auto; intros; lia.
Qed.

Lemma kids_up x v : n <= x < M -> In v (kids x) -> v < M /\ U v = x.
Proof.
  intros Hx Hv. destruct (t_node Ht Hx) as (A1 & A2 & _ & U1 & U2 & _). destruct (kids_in Hx Hv) as [->|[->|[E ->]]]; [split; auto; lia|split; auto; lia|].
  destruct (t_peak Ht) as (p & C & Ep & _ & K1 & K2 & _). assert (Epx : p = x) by lia. rewrite Epx in K1, K2. rewrite K1. split; auto.
  rewrite <- K1. apply (t_up Ht). lia.
Qed.

Lemma up_kid v : v < M -> n <= U v < M /\ In v (kids (U v)) \/ n <= v < M /\ In (U v) (kids v).
Proof.
  intros Hv. destruct (t_up Ht Hv) as (L & _ & [(L' & K)|K]).
  - left. split; auto. destruct (kids_A (x := U v)) as (G1 & G2 & _); [lia|]. destruct K as [K|K]; [rewrite K in G1|rewrite K in G2]; auto.
  - destruct (t_peak Ht) as (p & C & Ep & Lp & K1 & K2 & _ & _ & _ & _ & G). destruct (G v Hv K) as [E|E]; rewrite E in *; clear E v.
    + right. split; [lia|]. apply kids_A; lia.
    + left. rewrite K2. split; [lia|]. rewrite <- K1. apply kids_A; lia.
Qed.

Lemma kids_nodup x : n <= x < M -> NoDup (kids x).
Proof.
  intros Hx. destruct (t_node Ht Hx) as (_ & _ & N & _). destruct (Nat.eq_dec (S x) M) as [E|E].
  - eapply Permutation_NoDup; [apply Permutation_sym, (Kpk (proj1 Hx) E)|].
    destruct (t_peak Ht) as (p & C & Ep & _ & K1 & _ & _ & _ & C1 & C2 & _). assert (Epx : p = x) by lia. rewrite Epx in K1, C1, C2. rewrite K1.
    constructor; [simpl; intros [?|[?|[]]]; congruence|constructor; [simpl; intros [?|[]]; congruence|constructor; [simpl; tauto|constructor]]].
  - rewrite Kin by lia. constructor; [simpl; intros [?|[]]; congruence|constructor; [simpl; tauto|constructor]].
Qed.

Lemma in_rim a b : In (a, b) rim <-> exists i, i < n /\ a = vid ((i + n - 1) mod n) /\ b = vid i.
Proof.
  unfold rim. rewrite in_map_iff. split.
  - intros (i & E & Hi). injection E as <- <-. apply in_seq in Hi. exists i. split; [lia|auto].
  - intros (i & Hi & -> & ->). exists i. split; auto. apply in_seq. lia.
Qed.

Lemma in_spokes a b : In (a, b) spokes <-> exists x v, n <= x < M /\ In v (kids x) /\ a = vid x /\ b = vid v.
Proof.
  pose proof (r_len Hr) as HL. fold n in HL. unfold spokes. rewrite in_flat_map. split.
  - intros (k & Hk & K). apply in_seq in Hk. apply in_map_iff in K as (v & E & Hv). injection E as <- <-. exists (n + k), v. split; [lia|auto].
  - intros (x & v & Hx & Hv & -> & ->). exists (x - n). split; [apply in_seq; lia|]. replace (n + (x - n)) with x by lia. apply in_map_iff. eauto.
Qed.

Lemma pred_lt i : (i + n - 1) mod n < n.
Proof. apply Nat.mod_upper_bound. clear - n3. lia. Qed.

Lemma edges_at v b : v < M -> (has_edge_between (rim ++ spokes) (vid v) b <-> b = vid (A v) \/ b = vid (B v) \/ b = vid (U v)).
Proof.
  intros Hv. pose proof (t_M Ht) as HM.
  assert (ring1 : forall i, i < n -> A i = (i + n - 1) mod n /\ B i = S i mod n) by (intros i Hi; destruct (t_base Ht Hi); tauto).
  assert (sp : forall i, i < n -> (S i mod n + n - 1) mod n = i).
  { intros i Hi. destruct (Nat.eq_dec (S i) n) as [E|E]; [rewrite E, Nat.mod_same by lia; rewrite Nat.mod_small; lia|].
    rewrite (Nat.mod_small (S i)) by lia. replace (S i + n - 1) with (i + 1 * n) by lia. rewrite Nat.mod_add, Nat.mod_small; lia. }
  assert (ps : forall i, i < n -> S ((i + n - 1) mod n) mod n = i).
  { intros i Hi. destruct i as [|i]; [rewrite (Nat.mod_small (0 + n - 1)) by lia; replace (S (0 + n - 1)) with n by lia; apply Nat.mod_same; lia|].
    replace (S i + n - 1) with (i + 1 * n) by lia. rewrite Nat.mod_add, (Nat.mod_small i), Nat.mod_small; lia. }
  split.
  - intros [Hne [K|K]]; apply in_app_iff in K as [K|K].
    + apply in_rim in K as (i & Hi & E1 & ->). apply vid_inj in E1. subst v. right. left. destruct (ring1 _ (pred_lt i)) as [_ ->]. rewrite ps; auto.
    + apply in_spokes in K as (x & w & Hx & Hw & E1 & ->). apply vid_inj in E1. subst v. destruct (kids_in Hx Hw) as [->|[->|[_ ->]]]; auto.
    + apply in_rim in K as (i & Hi & -> & E1). apply vid_inj in E1. subst v. left. destruct (ring1 _ Hi) as [-> _]. auto.
    + apply in_spokes in K as (x & w & Hx & Hw & -> & E1). apply vid_inj in E1. subst w. right. right. f_equal. symmetry. apply (kids_up Hx Hw).
  - assert (Hup : forall w, w < M -> In (vid (U w), vid w) (rim ++ spokes) \/ In (vid w, vid (U w)) (rim ++ spokes)).
    { intros w Hw. destruct (up_kid Hw) as [[K1 K2]|[K1 K2]]; [left|right]; apply in_app_iff; right; apply in_spokes; [exists (U w), w|exists w, (U w)]; auto. }
    assert (Hne : forall w, w <> v -> vid v <> vid w) by (intros w Hw K; apply vid_inj in K; auto).
    intros Hb. destruct (Nat.lt_ge_cases v n) as [L|L].
    + destruct (ring1 v L) as [RA' RB']. destruct Hb as [->|[->| ->]].
      * split; [apply Hne; rewrite RA'; intros K; pose proof (ps v L) as K2; rewrite K in K2; revert K2; apply mod_neq; auto|].
        right. apply in_app_iff. left. apply in_rim. exists v. rewrite RA'. auto.
      * split; [apply Hne; rewrite RB'; apply mod_neq; auto|]. left. apply in_app_iff. left. apply in_rim. exists (S v mod n).
        rewrite sp, RB' by auto. split; auto. apply Nat.mod_upper_bound. clear - n3. lia.
      * split; [apply Hne, (t_up Ht); auto|]. destruct (Hup v Hv); auto.
    + assert (Hx : n <= v < M) by lia. destruct (t_node Ht Hx) as (A1 & A2 & _). destruct (kids_A Hx) as (G1 & G2 & _). destruct Hb as [->|[->| ->]].
      * split; [apply Hne; lia|]. left. apply in_app_iff. right. apply in_spokes. exists v, (A v). auto.
      * split; [apply Hne; lia|]. left. apply in_app_iff. right. apply in_spokes. exists v, (B v). auto.
      * split; [apply Hne, (t_up Ht); auto|]. destruct (Hup v Hv); auto.
Qed.

Lemma edges_from a b : has_edge_between (rim ++ spokes) a b -> exists v, v < M /\ a = vid v.
Proof.
  pose proof (t_M Ht) as HM. intros [_ [K|K]]; apply in_app_iff in K as [K|K].
  - apply in_rim in K as (i & Hi & -> & _). eexists. split; [|reflexivity]. pose proof (pred_lt i). lia.
  - apply in_spokes in K as (x & w & Hx & Hw & -> & _). exists x. split; auto. lia.
  - apply in_rim in K as (i & Hi & _ & ->). exists i. split; auto. lia.
  - apply in_spokes in K as (x & w & Hx & Hw & _ & ->). exists w. split; auto. apply (kids_up Hx Hw).
Qed.

Lemma NoDup_map_inj (X Y : Type) (f : X -> Y) l : (forall x y, In x l -> In y l -> f x = f y -> x = y) -> NoDup l -> NoDup (map f l).
Proof.
  induction l as [|x l IH]; intros Hf Hn; simpl; constructor; inversion Hn; subst.
  - intros K. apply in_map_iff in K as (y & E & Hy). apply Hf in E; simpl; auto. subst; auto.
  - apply IH; auto. intros u v Hu Hv. apply Hf; simpl; auto.
Qed.

Lemma NoDup_flat_map (X Y : Type) (f : X -> list Y) l : (forall x, In x l -> NoDup (f x)) -> (forall x y z, In x l -> In y l -> In z (f x) -> In z (f y) -> x = y) ->
  NoDup l -> NoDup (flat_map f l).
Proof.
  induction l as [|x l IH]; intros H1 H2 Hn; simpl; [constructor|]. apply NoDup_cons_iff in Hn as [Hx Hn]. apply NoDup_app_iff. split; [|split].
  - apply H1. simpl; auto.
  - apply IH; auto; [intros; apply H1; simpl; auto|intros u v z Hu Hv; apply H2; simpl; auto].
  - intros z Hz K. apply in_flat_map in K as (y & Hy & K). apply Hx. rewrite (H2 x y z); simpl; auto.
Qed.

Lemma edges_simple : no_parallel_edges (rim ++ spokes).
Proof.
  pose proof (r_len Hr) as HL. fold n in HL. pose proof (t_M Ht) as HM.
  assert (Hrf : forall a b, In (a, b) rim -> (a < nr)%Z /\ (b < nr)%Z).
  { intros a b K. apply in_rim in K as (i & Hi & -> & ->). split; apply vid_lt; auto using pred_lt. }
  assert (Hsf : forall a b, In (a, b) spokes -> (nr <= a)%Z).
  { intros a b K. apply in_spokes in K as (x & v & Hx & _ & -> & _). apply vid_ge. lia. }
  apply simple_pairs.
  - apply NoDup_app_iff. split; [|split].
    + apply NoDup_map_inj; [|apply seq_NoDup]. intros x y _ _ K. injection K as _ K. apply vid_inj in K. auto.
    + apply NoDup_flat_map; [| |apply seq_NoDup].
      * intros k Hk. apply in_seq in Hk. apply NoDup_map_inj; [|apply kids_nodup; lia]. intros x y _ _ K. injection K as K. apply vid_inj in K. auto.
      * intros i j [a b] _ _ K1 K2. apply in_map_iff in K1 as (x & K1 & _). apply in_map_iff in K2 as (y & K2 & _).
        injection K1 as <- <-. injection K2 as K2 _. apply vid_inj in K2. lia.
    + intros [a b] K1 K2. apply Hrf in K1. apply Hsf in K2. lia.
  - intros a b K1 K2. exfalso. apply in_app_iff in K1 as [K1|K1]; apply in_app_iff in K2 as [K2|K2].
    + apply in_rim in K1 as (i & Hi & -> & ->). apply in_rim in K2 as (j & Hj & K2 & K3). apply vid_inj in K2, K3. subst j. clear - n3 Hi Hj K2.
      assert (G : forall k, k < n -> (k + n - 1) mod n = if Nat.eqb k 0 then n - 1 else k - 1).
      { intros k Hk. destruct (Nat.eqb_spec k 0) as [->|]; [apply Nat.mod_small; lia|]. replace (k + n - 1) with (k - 1 + 1 * n) by lia.
        rewrite Nat.mod_add, Nat.mod_small; lia. }
      rewrite (G _ Hj) in K2. rewrite (G i Hi) in *. destruct (Nat.eqb_spec i 0); destruct (Nat.eqb_spec (if Nat.eqb i 0 then n - 1 else i - 1) 0); 
        repeat match goal with H : context [Nat.eqb ?u ?v] |- _ => destruct (Nat.eqb_spec u v) end; lia.
    + apply Hrf in K1. apply Hsf in K2. lia.
    + apply Hrf in K2. apply Hsf in K1. lia.
    + apply in_spokes in K1 as (x & v & Hx & Hv & -> & ->). apply in_spokes in K2 as (y & w & Hy & Hw & E1 & E2). apply vid_inj in E1, E2. subst y w.
      destruct (kids_up Hx Hv) as [_ U1]. destruct (kids_up Hy Hw) as [_ U2].
      destruct (t_node Ht Hx) as (A1 & A2 & _). destruct (t_node Ht Hy) as (A3 & A4 & _).
      assert (Hx' : x < M) by lia. destruct (t_up Ht Hx') as (_ & Ux & _).
      destruct (kids_in Hx Hv) as [G|[G|[G _]]]; destruct (kids_in Hy Hw) as [G'|[G'|[G' _]]]; lia.
Qed.

Lemma contour_graph : contour_graph_edges first (Z.of_nat n) = Ok rim.
Proof.
  unfold contour_graph_edges. assert (Hl : length (zrange first (first + Z.of_nat n)) = n) by (rewrite zrange_length; clear; lia).
  assert (Hne : zrange first (first + Z.of_nat n) <> []) by (intros K; rewrite K in Hl; simpl in Hl; clear - n3 Hl; lia).
  destruct (circ_prev_next_total Hne) as (pn & Hpn). rewrite Hpn. f_equal. pose proof (circ_prev_next_length _ Hpn) as Hlen. rewrite Hl in Hlen.
  apply nth_error_ext. intros i. unfold rim. rewrite nth_error_map. destruct (Nat.lt_ge_cases i n) as [L|L].
  - destruct (circ_prev_next_nth _ Hpn (i := i)) as (p & q & E1 & E2 & E3); [rewrite Hl; auto|]. rewrite Hl in E1.
    rewrite zrange_nth in E1 by (pose proof (pred_lt i); lia). rewrite zrange_nth in E2 by lia. injection E1 as <-. injection E2 as <-.
    rewrite E3. rewrite (nth_error_nth' _ 0) by (rewrite seq_length; auto). rewrite seq_nth by auto. cbn [option_map]. rewrite Nat.add_0_l.
    rewrite !vid_low by auto using pred_lt. auto.
  - rewrite (proj2 (nth_error_None _ _)) by lia. rewrite (proj2 (nth_error_None _ _)) by (rewrite seq_length; auto). auto.
Qed.

Lemma spokes_graph : skeleton_graph_edges c out nr = spokes.
Proof.
  unfold skeleton_graph_edges, spokes. rewrite (enumerate_seq out (@dummy_subtree RA)). rewrite !flat_map_concat_map, map_map. f_equal.
  apply map_ext_in. intros k Hk. apply in_seq in Hk. cbn [fst snd]. fold (get_arc out k). rewrite Kout by lia. rewrite map_map.
  pose proof (r_len Hr) as HL. fold n in HL. apply map_ext_in. intros v Hv. 
  rewrite sink_vid by (apply (kids_up (x := n + k)); [lia|auto]). rewrite (vid_high (v := n + k)) by lia. f_equal. lia.
Qed.

Lemma roof_graph sw : build_graph sw first (Z.of_nat n) [] c out nr = Ok (build sw (rim ++ spokes)).
Proof. unfold build_graph. rewrite contour_graph. cbn [bind mapM concat app]. rewrite spokes_graph. reflexivity. Qed.

(** ** the darts around a vertex turn the way the tree says *)
Lemma side i : i < n -> exists L, (0 < L)%R /\ P (S i mod n) = move (P i) L (wn c i).
Proof.
  intros Hi. destruct (edge_at_some Hc i) as (e & He). pose proof (edge_directed Hc He) as (D1 & D2 & D3).
  exists (euclid_dist (ep1 e) (ep2 e)). split.
  - destruct (Rle_lt_or_eq_dec 0 (euclid_dist (ep1 e) (ep2 e))) as [K|K]; auto; [unfold euclid_dist; apply sqrt_pos|].
    exfalso. apply D1. rewrite <- K in D2, D3. apply vec_ext; lra.
  - assert (Hm : S i mod n < n) by (apply Nat.mod_upper_bound; clear - n3; lia).
    destruct (r_base Hr Hi) as [-> _]. destruct (r_base Hr Hm) as [-> _]. rewrite (wn_edge He).
    assert (E2 : ep2 e = pnt c (S i mod n)).
    { rewrite (edge_at_succ Hc He). unfold pnt, edge_at. fold n. rewrite Nat.mod_mod by (clear - n3; lia). auto. }
    assert (E1 : ep1 e = pnt c i) by (unfold pnt; rewrite He; auto).
    rewrite <- E1, <- E2. unfold move. apply vec_ext; unfold rvec; cbn [vx vy]; lra.
Qed.

Lemma turn_wn i : i < n -> (0 < ncross (wn c ((i + n - 1) mod n)) (wn c i))%R.
Proof.
  intros Hi. destruct (edge_at_some Hc i) as (e & He). destruct (edge_at_some Hc ((i + n - 1) mod n)) as (f & Hf).
  rewrite (wn_edge He), (wn_edge Hf). apply (turn_left Hc Hf). rewrite <- He. unfold edge_at. fold n. f_equal.
  destruct i as [|i].
  - rewrite (Nat.mod_small (0 + n - 1)) by (clear - n3; lia). replace (S (0 + n - 1)) with n by (clear - n3; lia).
    rewrite Nat.mod_same, Nat.mod_0_l; clear - n3; lia.
  - replace (S i + n - 1) with (i + 1 * n) by (clear - n3; lia). rewrite Nat.mod_add by (clear - n3; lia). rewrite (Nat.mod_small i) by (clear - Hi; lia). auto.
Qed.

Lemma turns v : v < M -> (0 < ncross (sub (P (B v)) (P v)) (sub (P (U v)) (P v)))%R /\
  (0 < ncross (sub (P (U v)) (P v)) (sub (P (A v)) (P v)))%R /\ ncross (sub (P (B v)) (P v)) (sub (P (A v)) (P v)) <> 0%R /\
  (n <= v -> (0 < ncross (sub (P (A v)) (P v)) (sub (P (B v)) (P v)))%R).
Proof.
  intros Hv. destruct (r_link Hr Hv) as (t & Ht0 & Eu). rewrite Eu. destruct (Nat.lt_ge_cases v n) as [L|L].
  - destruct (t_base Ht L) as (EA & EB & El & Ep). destruct (side L) as (l & Hl & Es). rewrite EB, Es.
    destruct (side (pred_lt v)) as (l' & Hl' & Es').
    assert (Sp : S ((v + n - 1) mod n) mod n = v).
    { destruct v as [|v]; [rewrite (Nat.mod_small (0 + n - 1)) by (clear - n3; lia); replace (S (0 + n - 1)) with n by (clear - n3; lia); apply Nat.mod_same; clear - n3; lia|].
      replace (S v + n - 1) with (v + 1 * n) by (clear - n3; lia). rewrite Nat.mod_add by (clear - n3; lia). rewrite (Nat.mod_small v) by (clear - L; lia). apply Nat.mod_small; auto. }
    rewrite Sp in Es'. rewrite EA, Es'. unfold dir. rewrite El, Ep. pose proof (turn_wn L) as K.
    set (a := wn c ((v + n - 1) mod n)) in *. set (b := wn c v) in *. set (p := P ((v + n - 1) mod n)) in *.
    assert (K1 : (0 < t * l * ncross a b)%R) by (repeat apply Rmult_lt_0_compat; auto).
    assert (K2 : (0 < t * l' * ncross a b)%R) by (repeat apply Rmult_lt_0_compat; auto).
    assert (K3 : (0 < l * l' * ncross a b)%R) by (repeat apply Rmult_lt_0_compat; auto).
    revert K1 K2 K3. unfold ncross, sub, move, rvec. cbn [vx vy]. change (num RA) with R in *. clear - L. intros. split; [nra|split; [nra|split; [nra|lia]]].
  - assert (Hx : n <= v < M) by lia. destruct (t_node Ht Hx) as (LA & LB & _ & UA & UB & Ew & Ep & El).
    destruct (r_link Hr (v := A v)) as (ta & Hta & Ea); [lia|]. destruct (r_link Hr (v := B v)) as (tb & Htb & Eb); [lia|]. rewrite UA in Ea. rewrite UB in Eb.
    destruct (r_node Hr Hx) as (K & _). rewrite <- cross_dirs in K. unfold dir in *. rewrite Ep, El. rewrite <- Ew in *.
    set (a := wn c (wp (A v))) in *. set (b := wn c (wl (A v))) in *. set (d := wn c (wl (B v))) in *.
    assert (Xa : P (A v) = move (P v) (- ta) (sub b a)) by (rewrite Ea; unfold move, rvec; apply vec_ext; cbn [vx vy]; lra).
    assert (Xb : P (B v) = move (P v) (- tb) (sub d b)) by (rewrite Eb; unfold move, rvec; apply vec_ext; cbn [vx vy]; lra).
    rewrite Xa, Xb.
    assert (K1 : (0 < t * tb * ncross (sub b a) (sub d b))%R) by (repeat apply Rmult_lt_0_compat; auto).
    assert (K2 : (0 < t * ta * ncross (sub b a) (sub d b))%R) by (repeat apply Rmult_lt_0_compat; auto).
    assert (K3 : (0 < ta * tb * ncross (sub b a) (sub d b))%R) by (repeat apply Rmult_lt_0_compat; auto).
    clear - K1 K2 K3. generalize dependent (P v). intros q.
    revert K1 K2 K3. unfold ncross, sub, move, rvec. cbn [vx vy]. change (num RA) with R in *. intros. split; [nra|split; [nra|split; [nra|intros; nra]]].
Qed.

Lemma three_apart v : v < M -> A v <> B v /\ A v <> U v /\ B v <> U v.
Proof.
  intros Hv. destruct (turns Hv) as (K1 & K2 & K3 & _). split; [|split]; intros E; rewrite E in *; rewrite ncross_self in *; lra.
Qed.

(** ** the embedding and its faces *)
Variable vl : list (vec3 RA).
Variable o : pt.
Hypothesis Hvl : forall v, v < M -> exists w, py_get vl (vid v) = Ok w /\ loc o (ground w) = P v.

Lemma vid_rel u v : u < M -> v < M -> rel vl (vid u) (vid v) (V3 (A := RA) (vx (sub (P v) (P u))) (vy (sub (P v) (P u))) 0%R).
Proof.
  intros Hu Hv. destruct (Hvl Hu) as (w & G & E). destruct (Hvl Hv) as (w' & G' & E'). exists w, w'. split; auto. split; auto.
  rewrite <- E, <- E'. unfold loc, ground, sub, rvec. cbn [wx wy vx vy]. change (num RA) with R in *. split; ring.
Qed.

Lemma around v sw : v < M -> Permutation (neighbours (build sw (rim ++ spokes)) (vid v)) [vid (B v); vid (U v); vid (A v)].
Proof.
  intros Hv. destruct (three_apart Hv) as (N1 & N2 & N3). assert (I : forall a b, a <> b -> vid a <> vid b) by (intros a b K E; apply K, vid_inj, E).
  apply NoDup_Permutation.
  - apply NoDup_neighbours, edges_simple.
  - constructor; [simpl; intros [K|[K|[]]]; apply vid_inj in K; auto|]. constructor; [simpl; intros [K|[]]; apply vid_inj in K; auto|]. constructor; [simpl; tauto|constructor].
  - intros x. rewrite In_neighbours_build, edges_at by auto. simpl. split; [intros [->|[->| ->]]; auto|intros [<-|[<-|[<-|[]]]]; auto].
Qed.

Lemma tri_lt v : v < M -> A v < M /\ B v < M /\ U v < M.
Proof.
  intros Hv. pose proof (t_M Ht) as HM. split; [|split; [|apply (t_up Ht); auto]]; (destruct (Nat.lt_ge_cases v n) as [L|L];
    [destruct (t_base Ht L) as (EA & EB & _); first [rewrite EA|rewrite EB]; eapply Nat.lt_trans; [apply Nat.mod_upper_bound; clear - n3; lia|auto]
    |destruct (t_node Ht (conj L Hv)) as (LA & LB & _); lia]).
Qed.

Lemma sort_around v ns : v < M -> Permutation ns [vid (B v); vid (U v); vid (A v)] ->
  exists l, py_sorted (angle_lt vl (vid v)) ns = Ok l /\ rotation_succ l (vid (A v)) (vid (U v)) /\ rotation_succ l (vid (U v)) (vid (B v)) /\ rotation_succ l (vid (B v)) (vid (A v)).
Proof.
  intros Hv Hp. destruct (three_apart Hv) as (N1 & N2 & N3). assert (I : forall a b, a <> b -> vid a <> vid b) by (intros a b K E; apply K, vid_inj, E).
  destruct (turns Hv) as (K1 & K2 & K3 & _). destruct (tri_lt Hv) as (LA & LB & LU).
  destruct (@sorted_three vl (vid v) (vid (B v)) (vid (U v)) (vid (A v)) _ _ _ ns (I _ _ N3) (I _ _ (not_eq_sym N2)) (I _ _ (not_eq_sym N1))
    (vid_rel Hv LB) (vid_rel Hv LU) (vid_rel Hv LA) Hp) as (l & L1 & L2); cbn [wx wy]; auto.
  exists l. split; auto. apply rot3; auto.
Qed.

Definition roof_face i : list Z := map vid (face_of i (F i)).

Theorem roof_embedded sw sch : exists emb r, circular_embedding (build sw (rim ++ spokes)) vl true = Ok emb /\
  graph_faces sch (build sw (rim ++ spokes)) emb nr = Ok r /\ Permutation r (map roof_face (seq 0 n)).
Proof.
  set (g := build sw (rim ++ spokes)).
  assert (K : forall u ns, In (u, ns) g -> dict_find g u = Some ns) by (intros; apply In_dict_find; auto; apply keys_build).
  destruct (@emb_total g vl) as (emb & He).
  { intros u ns Hin. pose proof (K u ns Hin) as Hd. destruct ns as [|b ns]; [exists []; reflexivity|].
    assert (Hb : In b (neighbours g u)) by (unfold neighbours; rewrite Hd; simpl; auto). apply In_neighbours_build in Hb. apply edges_from in Hb as (v & Hv & ->).
    destruct (@sort_around v (b :: ns) Hv) as (l & L1 & _); eauto. pose proof (around sw Hv) as Hp. fold g in Hp. unfold neighbours in Hp. rewrite Hd in Hp. auto. }
  assert (Hs : forall v, v < M -> rotation_succ (neighbours emb (vid v)) (vid (A v)) (vid (U v)) /\
    rotation_succ (neighbours emb (vid v)) (vid (U v)) (vid (B v)) /\ rotation_succ (neighbours emb (vid v)) (vid (B v)) (vid (A v))).
  { intros v Hv. pose proof (around sw Hv) as Hp. fold g in Hp. destruct (dict_find g (vid v)) as [ns|] eqn:Hd.
    - unfold neighbours in Hp at 1. rewrite Hd in Hp. destruct (sort_around Hv Hp) as (l & L1 & L2). rewrite (emb_find He Hd L1). auto.
    - unfold neighbours in Hp. rewrite Hd in Hp. apply Permutation_nil in Hp. discriminate. }
  assert (Hl : lists_neighbours (rim ++ spokes) (neighbours emb)).
  { eapply perm_lists_neighbours; [apply edges_simple|]. apply (circular_embedding_perm _ _ _ He). }
  destruct (@faces_result n M wp wl A B U F n3 Ht vid nr) with (E := rim ++ spokes) (emb := emb) (sw := sw) (sch := sch) as (r & R1 & R2).
  - intros; apply vid_inj; auto.
  - apply vid_lt.
  - intros v Hv. apply vid_ge. lia.
  - intros v b Hv. apply edges_at; auto.
  - apply edges_from.
  - apply edges_simple.
  - auto.
  - intros; apply Hs; auto.
  - intros; apply Hs; auto.
  - intros; apply Hs; auto.
  - exists emb, r. auto.
Qed.

End Kids.
End Graph.
