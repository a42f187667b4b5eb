(** * ConvexClean: the clean-up passes leave the faces of a blunt convex roof alone (C49) *)

From Coq Require Import Permutation Reals Lra.
From Verif Require Import Py PyFacts Arith ArithR Euclid Graph GraphSpec GraphProofs Lav Cluster Poly PySort ClusterSpec GeoSpec GeoLines BisSpec BisProofs BisStart
  PatSpec TriSpec TriSkel TriRoof ConvexSpec ConvexGeo ConvexWave RoofSpec ConvexComb ConvexTree ConvexPost ConvexFaces ConvexGraph.
Set Implicit Arguments.
Unset Strict Implicit.
Local Open Scope nat_scope.

(** ** corners *)
Lemma spike_total (vl : list (vec3 RA)) a b d p v w : py_get vl a = Ok p -> py_get vl b = Ok v -> py_get vl d = Ok w ->
  exists r, is_spike vl (a, b, d) = Ok r.
Proof.
  intros Ga Gb Gd. unfold is_spike. rewrite Ga, Gb, Gd. cbn [bind]. rewrite !ntruth_R.
  destruct (Reqb_spec (vlen (w_xy (w_sub v p))) 0) as [E|E]; cbn [negb andb]; [eauto|].
  destruct (Reqb_spec (vlen (w_xy (w_sub w v))) 0) as [F|F]; cbn [negb andb]; [eauto|].
  rewrite pdiv_R. cbn [RA nmul]. match goal with |- context [Reqb ?z 0] => destruct (Reqb_spec z 0) as [G|G] end.
  { apply Rmult_integral in G as [G|G]; contradiction. }
  cbn [bind]. eauto.
Qed.

Lemma spike_wide (vl : list (vec3 RA)) a b d p v w : py_get vl a = Ok p -> py_get vl b = Ok v -> py_get vl d = Ok w ->
  wide (sub (ground p) (ground v)) (sub (ground w) (ground v)) -> is_spike vl (a, b, d) = Ok false.
Proof.
  intros Ga Gb Gd Hw. unfold is_spike. rewrite Ga, Gb, Gd. cbn [bind]. rewrite !ntruth_R. set (x := w_xy (w_sub v p)). set (y := w_xy (w_sub w v)).
  destruct (Reqb_spec (vlen x) 0) as [E|E]; cbn [negb andb]; auto. destruct (Reqb_spec (vlen y) 0) as [F|F]; cbn [negb andb]; auto.
  rewrite pdiv_R. cbn [RA nmul]. destruct (Reqb_spec (vlen x * vlen y)%R 0) as [G|G].
  { apply Rmult_integral in G as [G|G]; contradiction. }
  cbn [bind]. f_equal. apply andb_false_iff. left. unfold PARALLEL. rewrite oneN_R. cbn [RA nltb lit nadd nabs].
  assert (Px : (0 < vlen x)%R) by (rewrite vlen_R in *; pose proof (sqrt_pos (vx x * vx x + vy x * vy x)); simpl in *; lra).
  assert (Py : (0 < vlen y)%R) by (rewrite vlen_R in *; pose proof (sqrt_pos (vx y * vx y + vy y * vy y)); simpl in *; lra).
  assert (Hx : vlen (sub (ground p) (ground v)) = vlen x).
  { rewrite !vlen_R. unfold x. f_equal. unfold sub, ground, rvec, w_xy, w_sub, mkvec3. simpl. ring. }
  assert (Hy : vlen (sub (ground w) (ground v)) = vlen y).
  { rewrite !vlen_R. unfold y. f_equal. }
  unfold wide in Hw. rewrite Hx, Hy in Hw.
  assert (Hd : vdot (sub (ground p) (ground v)) (sub (ground w) (ground v)) = (- vdot x y)%R).
  { rewrite !vdot_R. unfold x, y. unfold sub, ground, rvec, w_xy, w_sub, mkvec3. simpl. ring. }
  rewrite Hd in Hw.
  assert (Hq : (- (1 - 1 / 100) <= vdot x y / (vlen x * vlen y))%R).
  { pose proof (Rmult_lt_0_compat _ _ Px Py) as Hm. apply (Rmult_le_reg_r (vlen x * vlen y)); auto.
    unfold Rdiv. rewrite (Rmult_assoc (vdot x y)), Rinv_l, Rmult_1_r by auto. change (num RA) with R in *. lra. }
  match goal with |- context [Rltb (Rabs ?z) ?w] => destruct (Rltb_spec (Rabs z) w) as [L|L]; auto end.
  exfalso. rewrite Rabs_right in L; simpl in *; lra.
Qed.

(** ** consecutive entries of a circular list *)
Lemma mod_back m i : 0 < m -> i < m -> ((i + m - 1) mod m + 1) mod m = i.
Proof.
  intros Hm Hi. destruct i as [|i].
  - rewrite (Nat.mod_small (0 + m - 1)) by lia. replace (0 + m - 1 + 1) with m by lia. apply Nat.mod_same. lia.
  - replace (S i + m - 1) with (i + 1 * m) by lia. rewrite Nat.mod_add, (Nat.mod_small i) by lia. rewrite Nat.mod_small; lia.
Qed.

Lemma mod_next m k : 0 < m -> k < m -> (k + 2) mod m = ((k + 1) mod m + 1) mod m.
Proof. intros Hm Hk. rewrite Nat.add_mod_idemp_l by lia. f_equal. lia. Qed.

Lemma ptn_turns (T : nat -> nat -> nat -> Prop) (id : nat -> Z) f ptn : ring T f -> circ_prev_this_next (map id f) = Ok ptn ->
  forall a b d, In (a, b, d) ptn -> exists u v w, a = id u /\ b = id v /\ d = id w /\ In u f /\ In v f /\ In w f /\ T u v w.
Proof.
  intros Hr Hp a b d Hin. apply In_nth_error in Hin as (i & Hi). pose proof (circ_prev_this_next_length _ Hp) as HL. rewrite map_length in HL.
  assert (Li : i < length f) by (rewrite <- HL; apply nth_error_Some; congruence).
  destruct (circ_prev_this_next_nth _ Hp (i := i)) as (x & y & z & K1 & K2 & K3 & K4); [rewrite map_length; auto|].
  rewrite Hi in K4. injection K4 as -> -> ->. rewrite map_length in *. rewrite nth_error_map in K1, K2, K3.
  set (m := length f) in *. set (j := (i + m - 1) mod m) in *. assert (Lj : j < m) by (apply Nat.mod_upper_bound; lia).
  assert (E1 : (j + 1) mod m = i) by (apply mod_back; lia). assert (E2 : (j + 2) mod m = (i + 1) mod m) by (rewrite mod_next, E1; auto; lia).
  destruct (nth_error f j) as [u|] eqn:Eu; [|discriminate]. destruct (nth_error f i) as [v|] eqn:Ev; [|discriminate].
  destruct (nth_error f ((i + 1) mod m)) as [w|] eqn:Ew; [|discriminate]. injection K1 as <-. injection K2 as <-. injection K3 as <-.
  exists u, v, w. split; auto. split; auto. split; auto. split; [eapply nth_error_In; eauto|]. split; [eapply nth_error_In; eauto|]. split; [eapply nth_error_In; eauto|].
  apply (ring_nth Hr Lj Eu); fold m; [rewrite E1; auto|rewrite E2; auto].
Qed.

Lemma pn_turns (T : nat -> nat -> nat -> Prop) (id : nat -> Z) f pn : ring T f -> circ_prev_next (map id f) = Ok pn ->
  forall a b, In (a, b) pn -> exists t u v, a = id u /\ b = id v /\ In t f /\ In u f /\ In v f /\ T t u v.
Proof.
  intros Hr Hp a b Hin. apply In_nth_error in Hin as (i & Hi). pose proof (circ_prev_next_length _ Hp) as HL. rewrite map_length in HL.
  assert (Li : i < length f) by (rewrite <- HL; apply nth_error_Some; congruence).
  destruct (circ_prev_next_nth _ Hp (i := i)) as (x & y & K1 & K2 & K4); [rewrite map_length; auto|].
  rewrite Hi in K4. injection K4 as -> ->. rewrite map_length in *. rewrite nth_error_map in K1, K2.
  set (m := length f) in *. set (j := (i + m - 1) mod m) in *. assert (Lj : j < m) by (apply Nat.mod_upper_bound; lia).
  assert (E1 : (j + 1) mod m = i) by (apply mod_back; lia).
  set (k := (j + m - 1) mod m). assert (Lk : k < m) by (apply Nat.mod_upper_bound; lia).
  assert (E2 : (k + 1) mod m = j) by (apply mod_back; lia). assert (E3 : (k + 2) mod m = i) by (rewrite mod_next, E2; auto; lia).
  destruct (nth_error f j) as [u|] eqn:Eu; [|discriminate]. destruct (nth_error f i) as [v|] eqn:Ev; [|discriminate].
  destruct (nth_error f k) as [t|] eqn:Et; [|apply nth_error_None in Et; fold m in Et; lia].
  injection K1 as <-. injection K2 as <-.
  exists t, u, v. split; auto. split; auto. split; [eapply nth_error_In; eauto|]. split; [eapply nth_error_In; eauto|]. split; [eapply nth_error_In; eauto|].
  apply (ring_nth Hr Lk Et); fold m; [rewrite E2; auto|rewrite E3; auto].
Qed.

Lemma cyc_func f u v w : NoDup f -> cyc f u v -> cyc f u w -> v = w.
Proof.
  intros Hn Hv Hw. apply cyc_nth in Hv as (i & V1 & V2). apply cyc_nth in Hw as (j & W1 & W2).
  assert (i = j) by (eapply NoDup_nth_error; [exact Hn|apply nth_error_Some; congruence|congruence]). subst j. congruence.
Qed.

(** ** searches *)
Lemma find_spike_ok (vl : list (vec3 RA)) ptn : (forall p, In p ptn -> exists b, is_spike vl p = Ok b) ->
  find_spike vl ptn = Ok None \/ exists p, In p ptn /\ is_spike vl p = Ok true /\ find_spike vl ptn = Ok (Some p).
Proof.
  induction ptn as [|p ptn IH]; intros H; [left; auto|]. cbn [find_spike]. destruct (H p (or_introl eq_refl)) as ([] & Hb); rewrite Hb; cbn [bind].
  - right. exists p. simpl; auto.
  - destruct IH as [->|(q & Q1 & Q2 & ->)]; [intros; apply H; right; auto|auto|]. right. exists q. simpl; auto.
Qed.

Lemma adjacent_total prev this nxt : forall faces i r l, (forall f, In f faces -> f <> []) ->
  exists r' l', adjacent_faces prev this nxt i faces r l = Ok (r', l').
Proof.
  induction faces as [|f faces IH]; intros i r l H; [simpl; eauto|]. cbn [adjacent_faces]. unfold has_edge.
  destruct (circ_prev_next_total (H f (or_introl eq_refl))) as (pn & ->). cbn [bind]. apply IH. intros; apply H; right; auto.
Qed.

Lemma adjacent_none_r prev this nxt : forall faces i r' l l', (forall f, In f faces -> has_edge this prev f = Ok false) ->
  adjacent_faces prev this nxt i faces None l = Ok (r', l') -> r' = None.
Proof.
  induction faces as [|f faces IH]; intros i r' l l' H E; [simpl in E; congruence|]. cbn [adjacent_faces] in E.
  rewrite (H f (or_introl eq_refl)) in E. cbn [bind] in E. apply bind_ok in E as (bl & _ & E). eapply IH; [|exact E]. intros; apply H; right; auto.
Qed.

Lemma adjacent_none_l prev this nxt : forall faces i r r' l', (forall f, In f faces -> has_edge nxt this f = Ok false) ->
  adjacent_faces prev this nxt i faces r None = Ok (r', l') -> l' = None.
Proof.
  induction faces as [|f faces IH]; intros i r r' l' H E; [simpl in E; congruence|]. cbn [adjacent_faces] in E.
  apply bind_ok in E as (br & _ & E). rewrite (H f (or_introl eq_refl)) in E. cbn [bind] in E. eapply IH; [|exact E]. intros; apply H; right; auto.
Qed.

(** ** counting *)
Lemma count_faces x (faces : list (list Z)) : length (filter (fun f => existsb (Z.eqb x) f) faces) <= count_b (Z.eqb x) (concat faces).
Proof.
  unfold count_b. induction faces as [|f faces IH]; simpl; auto. rewrite filter_app, app_length. destruct (existsb (Z.eqb x) f) eqn:E; simpl; [|lia].
  assert (0 < length (filter (Z.eqb x) f)); [|lia]. apply existsb_exists in E as (y & Hy & E). destruct (filter (Z.eqb x) f) eqn:K; [|simpl; lia].
  assert (In y []) by (rewrite <- K; apply filter_In; auto). tauto.
Qed.

Section Clean.
Variable c : list (@edge2 RA).
Hypothesis Hc : convex_contour c.
Hypothesis Hblunt : blunt c.
Let n := length c.
Variables (out : list (@subtree RA)) (M : nat) (wp wl A B U : nat -> nat) (F : nat -> list nat) (P : nat -> pt) (H : nat -> R).
Hypothesis Hr : roof c out M wp wl A B U F P H.
Variables first nr : Z.
Hypothesis Hnr : (first + Z.of_nat n <= nr)%Z.
Variable vl : list (vec3 RA).
Variable o : pt.
Let vid := vid c first nr.
Hypothesis Hvl : forall v, v < M -> exists w, py_get vl (vid v) = Ok w /\ loc o (ground w) = P v.
Variable faces : list (list Z).
Hypothesis Hf : Permutation faces (map (roof_face c F first nr) (seq 0 n)).

Let n3 : 3 <= n := n_pos Hc.
Let Ht : tree n M wp wl A B U F := r_tree Hr.
Let T := turn3 n A B U.

Lemma face_index f : In f faces -> exists i, i < n /\ f = map vid (face F i).
Proof.
  intros K. apply (Permutation_in _ Hf) in K. apply in_map_iff in K as (i & <- & Hi). apply in_seq in Hi. exists i. split; [lia|auto].
Qed.

Lemma vidinj u v : vid u = vid v -> u = v.
Proof. apply vid_inj; auto. Qed.

Lemma loc_sub p q : sub (loc o p) (loc o q) = sub p q.
Proof. unfold sub, loc, rvec. apply vec_ext; cbn [vx vy]; change (num RA) with R in *; ring. Qed.

(** a corner at a node is blunt *)
Lemma corner_wide u v w : n <= v < M -> T u v w -> wide (sub (P u) (P v)) (sub (P w) (P v)).
Proof.
  intros Hv Htu. destruct (node_walls Hr Hv) as (L1 & L2 & L3 & N1 & N2 & N3).
  destruct (t_node Ht Hv) as (LA & LB & _ & UA & UB & Ew & Ep & El).
  assert (Hva : A v < M) by lia. assert (Hvb : B v < M) by lia. assert (Hvm : v < M) by lia.
  destruct (r_link Hr Hva) as (ta & Hta & Ea). destruct (r_link Hr Hvb) as (tb & Htb & Eb). destruct (r_link Hr Hvm) as (t & Ht0 & Eu).
  rewrite UA in Ea. rewrite UB in Eb. unfold dir in *. rewrite Ep, El in Eu. rewrite <- Ew in Eb.
  set (a := wn c (wp (A v))) in *. set (b := wn c (wl (A v))) in *. set (d := wn c (wl (B v))) in *.
  assert (Xa : sub (P (A v)) (P v) = rvec (ta * vx (sub a b)) (ta * vy (sub a b))).
  { rewrite Ea. unfold sub, move, rvec. apply vec_ext; cbn [vx vy]; change (num RA) with R in *; ring. }
  assert (Xb : sub (P (B v)) (P v) = rvec (tb * vx (sub b d)) (tb * vy (sub b d))).
  { rewrite Eb. unfold sub, move, rvec. apply vec_ext; cbn [vx vy]; change (num RA) with R in *; ring. }
  assert (Xu : sub (P (U v)) (P v) = rvec (t * vx (sub d a)) (t * vy (sub d a))).
  { rewrite Eu. unfold sub, move, rvec. apply vec_ext; cbn [vx vy]; change (num RA) with R in *; ring. }
  destruct Htu as [[-> ->]|[[-> ->]|(_ & -> & ->)]].
  - rewrite Xa, Xu. apply wide_scale; [lra|lra|]. apply (bend Hc Hblunt); auto.
  - rewrite Xu, Xb. apply wide_scale; [lra|lra|]. apply (bend Hc Hblunt); auto.
  - rewrite Xb, Xa. apply wide_scale; [lra|lra|]. apply (bend Hc Hblunt); auto.
Qed.

Lemma corner_flat u v w : n <= v < M -> u < M -> w < M -> T u v w -> is_spike vl (vid u, vid v, vid w) = Ok false.
Proof.
  intros Hv Hu Hw Htu. destruct (Hvl Hu) as (pu & Gu & Eu). destruct (Hvl (proj2 Hv)) as (pv & Gv & Ev). destruct (Hvl Hw) as (pw & Gw & Ew).
  apply (spike_wide Gu Gv Gw). rewrite <- (loc_sub (ground pu)), <- (loc_sub (ground pw)), Eu, Ev, Ew. apply corner_wide; auto.
Qed.

(** the outer side of a wall is in no face *)
Lemma outer_edge v : v < n -> forall f, In f faces -> has_edge (vid v) (vid (A v)) f = Ok false.
Proof.
  intros Hv f Hin. destruct (face_index Hin) as (i & Hi & ->). unfold has_edge.
  pose proof (face_ring n3 Ht Hi) as Hrg. assert (Hne : map vid (face F i) <> []) by (destruct Hrg as (x & y & z & -> & _); discriminate).
  destruct (circ_prev_next_total Hne) as (pn & Hpn). rewrite Hpn. cbn [bind]. f_equal. apply not_true_is_false. intros K.
  apply existsb_exists in K as ([a b] & Hab & K). cbn [fst snd] in K. apply andb_true_iff in K as [K1 K2]. apply Z.eqb_eq in K1, K2. subst a b.
  destruct (pn_turns Hrg Hpn Hab) as (t & u & w & E1 & E2 & _ & _ & _ & HT). apply vidinj in E1, E2. subst u w.
  assert (HM : v < M) by (pose proof (t_M Ht); lia). destruct (three_apart Hc Hr HM) as (N1 & N2 & N3).
  destruct HT as [[_ E]|[[_ E]|(E & _)]]; [congruence|congruence|lia].
Qed.

Lemma back_A v : v < n -> A (S v mod n) = v.
Proof.
  intros Hv. assert (Hm : S v mod n < n) by (apply Nat.mod_upper_bound; lia). destruct (t_base Ht Hm) as (-> & _).
  destruct (Nat.eq_dec (S v) n) as [E|E]; [rewrite E, Nat.mod_same by lia; rewrite Nat.mod_small; lia|].
  rewrite (Nat.mod_small (S v)) by lia. replace (S v + n - 1) with (v + 1 * n) by lia. rewrite Nat.mod_add, Nat.mod_small; lia.
Qed.

Lemma faces_nonempty f : In f faces -> f <> [].
Proof. intros K. destruct (face_index K) as (i & Hi & ->). destruct (face_ring n3 Ht Hi) as (x & y & z & -> & _). discriminate. Qed.

Lemma pass_none fis : spike_pass vl nr faces fis = Ok None.
Proof.
  induction fis as [|fi fis IH]; [auto|]. cbn [spike_pass]. destruct (Nat.leb_spec (length (nth fi faces [])) 3) as [L|L]; auto.
  destruct (nth_in_or_default fi faces []) as [D|D]; [|rewrite D in L; simpl in L; lia].
  destruct (face_index D) as (i & Hi & E). rewrite E in *. clear E. pose proof (face_ring n3 Ht Hi) as Hrg.
  assert (Hp : exists ptn, circ_prev_this_next (map vid (face F i)) = Ok ptn).
  { destruct Hrg as (x & y & z & -> & _). simpl. eauto. }
  destruct Hp as (ptn & Hp). rewrite Hp. cbn [bind].
  assert (Hlt : forall x, In x (face F i) -> x < M) by (intros x; apply (face_lt n3 Ht Hi)).
  destruct (@find_spike_ok vl ptn) as [-> | ([[a b] d] & Q1 & Q2 & ->)]; cbn [bind]; auto.
  { intros [[a b] d] Hin. destruct (ptn_turns Hrg Hp Hin) as (u & v & w & -> & -> & -> & I1 & I2 & I3 & _).
    destruct (Hvl (Hlt _ I1)) as (? & ? & _). destruct (Hvl (Hlt _ I2)) as (? & ? & _). destruct (Hvl (Hlt _ I3)) as (? & ? & _). eapply spike_total; eauto. }
  destruct (ptn_turns Hrg Hp Q1) as (u & v & w & -> & -> & -> & I1 & I2 & I3 & HT).
  destruct (Nat.lt_ge_cases v n) as [Hv|Hv].
  2:{ rewrite corner_flat in Q2; auto. discriminate. }
  destruct (@adjacent_total (vid u) (vid v) (vid w) faces 0 None None faces_nonempty) as (r & l & Ea). rewrite Ea. cbn [bind].
  destruct HT as [[Eu Ew]|[[Eu Ew]|(E & _)]]; [| |lia].
  - assert (r = None); [|subst r; auto]. eapply adjacent_none_r; [|exact Ea]. rewrite Eu. apply outer_edge; auto.
  - assert (l = None); [|subst l; destruct r; auto]. eapply adjacent_none_l; [|exact Ea]. rewrite Ew. destruct (t_base Ht Hv) as (_ & EB & _). rewrite EB.
    assert (Hm : S v mod n < n) by (apply Nat.mod_upper_bound; lia). pose proof (outer_edge Hm) as K. rewrite back_A in K; auto.
Qed.

Lemma spikes_none : remove_spikes vl nr faces = Ok faces.
Proof. unfold remove_spikes. cbn [spike_loop]. rewrite pass_none. reflexivity. Qed.

(** every node is in three faces *)
Lemma node_faces x : n <= x < M -> 3 <= count_b (Z.eqb (vid x)) (concat faces).
Proof.
  intros Hx. eapply Nat.le_trans; [|apply count_faces]. destruct (t_node Ht Hx) as (LA & LB & _ & UA & UB & _).
  assert (Hva : A x < M) by lia. assert (Hvb : B x < M) by lia. assert (Hvm : x < M) by lia.
  destruct (t_dart Ht Hva) as (_ & j1 & _ & J1 & _ & D1). destruct (t_dart Ht Hvb) as (_ & j2 & _ & J2 & _ & D2). destruct (t_dart Ht Hvm) as (j3 & _ & J3 & _ & D3 & _).
  apply (proj2 (face_dart n3 Ht (A x) J1)) in D1. apply (proj2 (face_dart n3 Ht (B x) J2)) in D2. apply (proj1 (face_dart n3 Ht x J3)) in D3.
  rewrite UA in D1. rewrite UB in D2. destruct (three_apart Hc Hr Hvm) as (N1 & N2 & N3).
  assert (Hnd : forall i, i < n -> NoDup (face F i)) by (intros i Hi; destruct (face_shape n3 Ht Hi) as (? & ? & _ & _ & _ & _ & K); exact K).
  assert (E12 : j1 <> j2) by (intros ->; apply N1; eapply cyc_func; [apply (Hnd j2 J2)|exact D1|exact D2]).
  assert (E13 : j1 <> j3) by (intros ->; apply N2; eapply cyc_func; [apply (Hnd j3 J3)|exact D1|exact D3]).
  assert (E23 : j2 <> j3) by (intros ->; apply N3; eapply cyc_func; [apply (Hnd j3 J3)|exact D2|exact D3]).
  assert (Hinj : forall i j, i < n -> j < n -> roof_face c F first nr i = roof_face c F first nr j -> i = j).
  { intros i j Hi Hj E. unfold roof_face in E. change (map vid (face F i) = map vid (face F j)) in E.
    destruct (face_shape n3 Ht Hi) as (? & ? & _ & Ei & _). destruct (face_shape n3 Ht Hj) as (? & ? & _ & Ej & _). rewrite Ei, Ej in E. injection E as E _.
    apply vidinj; auto. }
  set (f := roof_face c F first nr) in *.
  apply (NoDup_incl_length (l := [f j1; f j2; f j3])).
  - constructor; [simpl; intros [K|[K|[]]]; apply Hinj in K; auto|]. constructor; [simpl; intros [K|[]]; apply Hinj in K; auto|]. constructor; [simpl; tauto|constructor].
  - assert (G : forall j v, j < n -> cyc (face F j) x v -> In (f j) (filter (fun g => existsb (Z.eqb (vid x)) g) faces)).
    { intros j v Hj K. apply filter_In. split.
      - eapply Permutation_in; [apply Permutation_sym, Hf|]. apply in_map, in_seq. lia.
      - apply existsb_exists. exists (vid x). split; [|apply Z.eqb_refl]. unfold f, roof_face. apply in_map. apply cyc_In in K. apply K. }
    intros g [<-|[<-|[<-|[]]]]; eauto.
Qed.

Lemma scan_none l acc : (forall a b d, In (a, b, d) l -> exists v, v < M /\ b = vid v) ->
  parallel_scan vl (fun v => count_b (Z.eqb v) (concat faces)) nr acc l = Ok acc.
Proof.
  induction l as [|[[a b] d] l IH]; intros Hl; [auto|]. cbn [parallel_scan]. destruct (Hl a b d (or_introl eq_refl)) as (v & Hv & ->).
  assert (E : parallel_at vl (fun v => count_b (Z.eqb v) (concat faces)) nr acc (a, vid v, d) = Ok acc).
  { unfold parallel_at. destruct (Nat.lt_ge_cases v n) as [L|L].
    - pose proof (vid_lt Hc Hnr L) as K. fold vid in K. destruct (Z.leb_spec nr (vid v)); [lia|]. rewrite andb_false_r. auto.
    - pose proof (@node_faces v ltac:(lia)) as K. destruct (Nat.ltb_spec (count_b (Z.eqb (vid v)) (concat faces)) 3); [lia|]. auto. }
  rewrite E. cbn [bind]. apply IH. intros a' b' d' Hin. apply (Hl a' b' d'). right; auto.
Qed.

Lemma identical_nodup (f : list Z) : f <> [] -> NoDup f -> 2 <= length f -> fix_identical f = Ok f.
Proof.
  intros Hne Hnd Hlen. unfold fix_identical. destruct (circ_prev_next_total Hne) as (pn & Hpn). rewrite Hpn. cbn [bind].
  assert (E : filter (fun p : Z * Z => (fst p =? snd p)%Z) pn = []); [|rewrite E; auto].
  destruct (filter _ pn) as [|[a b] l] eqn:E; auto. exfalso. assert (K : In (a, b) (filter (fun p : Z * Z => (fst p =? snd p)%Z) pn)) by (rewrite E; simpl; auto).
  apply filter_In in K as [K1 K2]. cbn [fst snd] in K2. apply Z.eqb_eq in K2. subst b. apply In_nth_error in K1 as (i & Hi).
  assert (Li : i < length f) by (rewrite <- (circ_prev_next_length _ Hpn); apply nth_error_Some; congruence).
  destruct (circ_prev_next_nth _ Hpn Li) as (x & y & G1 & G2 & G3). rewrite Hi in G3. injection G3 as <- <-.
  assert ((i + length f - 1) mod length f = i).
  { eapply NoDup_nth_error; [exact Hnd|apply nth_error_Some; congruence|congruence]. }
  pose proof (@mod_back (length f) i ltac:(lia) Li) as G. rewrite H0 in G. destruct (Nat.eq_dec (i + 1) (length f)) as [E'|E'].
  - rewrite E', Nat.mod_same in G; lia.
  - rewrite Nat.mod_small in G; lia.
Qed.

Theorem clean_none : (f1 <- remove_spikes vl nr faces ;; clean_faces vl nr f1) = Ok faces.
Proof.
  rewrite spikes_none. cbn [bind]. unfold clean_faces. cbv zeta. set (cn := fun v => count_b (Z.eqb v) (concat faces)).
  assert (G : forall fs, (forall f, In f fs -> In f faces) -> mapM (fun face => f1 <- fix_parallel vl cn nr face;; fix_identical f1) fs = Ok fs).
  { induction fs as [|f fs IH]; intros Hin; [auto|]. cbn [mapM]. destruct (face_index (Hin f (or_introl eq_refl))) as (i & Hi & Ef).
    pose proof (face_ring n3 Ht Hi) as Hrg. destruct (face_shape n3 Ht Hi) as (l1 & l2 & _ & E2 & _ & Hne & Hnd).
    assert (Hlt : forall x, In x (face F i) -> x < M) by (intros x; apply (face_lt n3 Ht Hi)).
    assert (E : fix_parallel vl cn nr f = Ok f).
    { unfold fix_parallel. destruct (Nat.ltb 3 (length f)); auto. rewrite Ef. 
      assert (Hp : exists ptn, circ_prev_this_next (map vid (face F i)) = Ok ptn) by (destruct Hrg as (x & y & z & -> & _); simpl; eauto).
      destruct Hp as (ptn & Hp). rewrite Hp. cbn [bind]. unfold cn. rewrite scan_none; [reflexivity|].
      intros a b d K. destruct (ptn_turns Hrg Hp K) as (u & v & w & _ & -> & _ & _ & I2 & _). exists v. auto. }
    rewrite E. cbn [bind]. rewrite identical_nodup.
    - cbn [bind]. rewrite IH; [reflexivity|]. intros; apply Hin; right; auto.
    - apply faces_nonempty, Hin. simpl; auto.
    - rewrite Ef. apply NoDup_map_inj; auto. intros; apply vidinj; auto.
    - rewrite Ef, map_length, E2. simpl. lia. }
  apply G. auto.
Qed.
End Clean.
