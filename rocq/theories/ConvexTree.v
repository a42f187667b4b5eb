(** * ConvexTree: the nodes of a convex contour form a tree with one face per edge (C49) *)

From Coq Require Import Permutation Reals Lra.
From Verif Require Import Py PyFacts Arith ArithR Euclid Heapq Lav Cluster LavSpec LavWalk LavWf LavRing LavInit LavNext LavGrow LavStep LavSplit
  LoopSpec LavLoop LoopStart QueueProofs HeapProofs WaveSpec LavWave ClusterSpec GeoSpec GeoR GeoLines BisSpec BisProofs BisStart UnitProofs PatSpec TriSkel
  ConvexSpec ConvexGeo ConvexLoop ConvexWave ConvexMerge ConvexOrder ConvexEnd ConvexStart ConvexSep RoofSpec ConvexComb ConvexStep.
Set Implicit Arguments.
Unset Strict Implicit.
Local Open Scope nat_scope.

Section Tree.
Variable c : list (@edge2 RA).
Hypothesis Hc : convex_contour c.
Hypothesis Hsep : separated c.
Hypothesis Hsimple : simple_roof c.
Implicit Type s : @slav RA.
Implicit Type st : @loop_state RA.
Notation event := (@event RA).
Let n := length c.
Let n3 : 3 <= n := n_pos Hc.

(** direction of wall i and distance from it *)
Definition wn i : pt := match edge_at c i with Some e => enorm e | None => dummy_vec end.
Definition wd i (p : pt) : R := match edge_at c i with Some e => ndist e p | None => 0%R end.
Definition dir (wp wl : nat -> nat) v : pt := sub (wn (wl v)) (wn (wp v)).

(** the finished tree *)
Record roof (out : list (@subtree RA)) M wp wl A B U F (P : nat -> pt) (H : nat -> R) : Prop := {
  r_tree : tree n M wp wl A B U F;
  r_base : forall i, i < n -> P i = pnt c i /\ H i = 0%R;
  r_link : forall v, v < M -> exists t, (0 < t)%R /\ P (U v) = move (P v) t (dir wp wl v);
  r_node : forall x, n <= x < M -> (0 < tri (wn (wp (A x))) (wn (wl (A x))) (wn (wl (B x))))%R /\ (0 < H x)%R /\ forall i, (H x <= wd i (P x))%R;
  r_point : forall x, n <= x < M -> roof_point c (P x) (H x);
  r_face : forall i x, i < n -> In x (F i) -> wd i (P x) = H x;
  r_dist : forall x y, x < M -> y < M -> P x = P y -> x = y;
  r_len : M = n + length out;
  r_out : forall k, S (n + k) < M -> nth_error out k = Some (Subtree (A := RA) (P (n + k)) (H (n + k)) [P (A (n + k)); P (B (n + k))]);
  r_peak : forall k, S (n + k) = M -> exists l, Permutation l [A (n + k); B (n + k); U (n + k)] /\
    nth_error out k = Some (Subtree (A := RA) (P (n + k)) (H (n + k)) (map P l)) }.

(** the tree while the wavefront shrinks *)
Record part st T wp wl A B U F (P : nat -> pt) (H : nat -> R) : Prop := {
  i_comb : comb n (length (s_vs (lo_slav st))) (V (lo_slav st)) (nx (lo_slav st)) wp wl A B U F;
  i_wl : forall v, v < length (s_vs (lo_slav st)) -> edge_at c (wl v) = Some (ens (lo_slav st) v) /\ edge_at c (wp v) = Some (eps (lo_slav st) v);
  i_P : forall v, v < length (s_vs (lo_slav st)) -> P v = Bs (lo_slav st) v;
  i_base : forall i, i < n -> P i = pnt c i /\ H i = 0%R;
  i_link : forall v, dead (length (s_vs (lo_slav st))) (V (lo_slav st)) v -> exists t, (0 < t)%R /\ P (U v) = move (P v) t (dir wp wl v);
  i_node : forall x, n <= x < length (s_vs (lo_slav st)) ->
    (0 < tri (wn (wp (A x))) (wn (wl (A x))) (wn (wl (B x))))%R /\ (0 < H x)%R /\ (forall i, (H x <= wd i (P x))%R) /\ wd (wl (A x)) (P x) = H x;
  i_point : forall x, n <= x < length (s_vs (lo_slav st)) -> roof_point c (P x) (H x);
  i_face : forall i x, i < n -> In x (F i) -> wd i (P x) = H x;
  i_dist : forall x y, x < length (s_vs (lo_slav st)) -> y < length (s_vs (lo_slav st)) -> P x = P y -> x = y;
  i_len : length (s_vs (lo_slav st)) = n + length (lo_out st);
  i_out : forall k, k < length (lo_out st) ->
    nth_error (lo_out st) k = Some (Subtree (A := RA) (P (n + k)) (H (n + k)) [P (A (n + k)); P (B (n + k))]);
  i_T : (0 <= T)%R /\ geo c (lo_slav st) T /\ forall x, x < length (s_vs (lo_slav st)) -> (H x <= T)%R }.

Lemma edge_in i e : edge_at c i = Some e -> In e c.
Proof. unfold edge_at. apply nth_error_In. Qed.
Lemma wd_edge i e p : edge_at c i = Some e -> wd i p = ndist e p.
Proof. unfold wd. intros ->. auto. Qed.
Lemma wn_edge i e : edge_at c i = Some e -> wn i = enorm e.
Proof. unfold wn. intros ->. auto. Qed.
Lemma wall_eq i j e : i < n -> j < n -> edge_at c i = Some e -> edge_at c j = Some e -> i = j.
Proof. intros Hi Hj Ei Ej. pose proof (edge_index Hc Ei Ej) as K. fold n in K. rewrite !Nat.mod_small in K by auto. auto. Qed.

(** ** the new node *)
Section New.
Variables (st : @loop_state RA) (T : R) (wp wl A B U : nat -> nat) (F : nat -> list nat) (P : nat -> pt) (H : nat -> R).
Hypothesis I : part st T wp wl A B U F P H.
Let s := lo_slav st.
Let N := length (s_vs s).
Variables (va vb : nat) (X : pt) (d : R).
Hypothesis Hb : before c s va vb X d.

Lemma new_walls : wd (wp va) X = d /\ wd (wl va) X = d /\ wd (wl vb) X = d.
Proof.
  destruct Hb as [(Rg & W) Ha Hr (T0 & HT0 & Hg) Va Vb Hn Hh Hm].
  destruct (i_wl I (V_rng Va)) as [W1 W2]. destruct (i_wl I (V_rng Vb)) as [W3 W4].
  rewrite (wd_edge _ W1), (wd_edge _ W2), (wd_edge _ W3). destruct Hh as (R1 & R2 & D). rewrite Hn in R2. fold s.
  split; [rewrite (ray_eq Hg Va R1); auto|]. split; auto. rewrite <- (ray_eq Hg Vb R2).
  destruct (ring_facts W Ha) as (_ & _ & chain & _). destruct (chain va Va) as [_ E]. rewrite Hn in E. rewrite E. auto.
Qed.

Lemma new_inside i : (d <= wd i X)%R.
Proof.
  destruct Hb as [(Rg & W) Ha Hr (T0 & HT0 & Hg) Va Vb Hn Hh Hm]. destruct (edge_at_some Hc i) as (e & He). rewrite (wd_edge _ He).
  exact (node_inside Hc W Ha Hg Va Hn Hh Hm He).
Qed.

Lemma new_late : (T <= d)%R.
Proof.
  destruct Hb as [(Rg & W) Ha Hr (T0 & HT0 & Hg) Va Vb Hn Hh Hm]. destruct (i_T I) as (I1 & I2 & _). exact (Hit_ge Hc W Ha I2 Va Hh).
Qed.

Lemma new_tri : (0 < tri (wn (wp va)) (wn (wl va)) (wn (wl vb)))%R.
Proof.
  destruct Hb as [(Rg & W) Ha Hr (T0 & HT0 & Hg) Va Vb Hn Hh Hm].
  destruct (i_wl I (V_rng Va)) as [W1 W2]. destruct (i_wl I (V_rng Vb)) as [W3 W4]. rewrite (wn_edge W1), (wn_edge W2), (wn_edge W3). rewrite <- Hn.
  destruct (ring_facts W Ha) as (_ & _ & chain & big & _). destruct Hg as (own & Hcov & _). exact (tri_big Hc chain big Hcov Va).
Qed.

Lemma new_on : (exists t, (0 <= t)%R /\ X = move (P va) t (dir wp wl va)) /\ exists t, (0 <= t)%R /\ X = move (P vb) t (dir wp wl vb).
Proof.
  destruct Hb as [(Rg & W) Ha Hr (T0 & HT0 & Hg) Va Vb Hn Hh Hm].
  destruct (i_wl I (V_rng Va)) as [W1 W2]. destruct (i_wl I (V_rng Vb)) as [W3 W4]. unfold dir.
  rewrite (wn_edge W1), (wn_edge W2), (wn_edge W3), (wn_edge W4). rewrite !(i_P I) by (apply V_rng; auto).
  destruct Hh as (R1 & R2 & D). rewrite Hn in R2. split; [exact R1|exact R2].
Qed.

Lemma new_pos : (0 < d)%R.
Proof.
  pose proof new_late as HT. pose proof (i_T I) as (I1 & _ & I3). fold s N in I3. pose proof (c_N (i_comb I)) as HN. fold s N in HN.
  destruct (Nat.eq_dec N n) as [En|En]; [|destruct (i_node I (x := n)) as (_ & K & _); [fold s N; lia|]; specialize (I3 n ltac:(lia)); lra].
  pose proof new_on as [(t & Ht & E1) (t' & Ht' & E2)]. pose proof new_walls as (D1 & D2 & D3). 
  destruct (Rlt_dec 0 d) as [|Hd]; auto. exfalso. assert (d = 0)%R by lra. 
  destruct Hb as [(Rg & W) Ha Hr (T0 & HT0 & Hg) Va Vb Hn Hh Hm].
  assert (Gz : forall v t, V s v -> (0 <= t)%R -> X = move (P v) t (dir wp wl v) -> wd (wl v) X = 0%R -> X = P v).
  { intros v r Hv Hr0 E Hw. assert (Hvn : v < n) by (rewrite <- En; apply (V_rng Hv)).
    destruct (c_base (i_comb I) Hvn) as (_ & _ & B3 & B4). destruct (i_base I Hvn) as (B1 & _).
    destruct (i_wl I (V_rng Hv)) as [W1 W2]. fold s in W1, W2.
    assert (W1' : edge_at c (S (v + n - 1)) = Some (ens s v)).
    { rewrite <- W1, B3. replace (S (v + n - 1)) with (v + n) by lia. apply edge_at_wrap. auto. }
    assert (W2' : edge_at c (v + n - 1) = Some (eps s v)).
    { rewrite <- W2, B4. unfold edge_at. fold n. rewrite Nat.mod_mod by lia. auto. }
    pose proof (turn_left Hc W2' W1') as Hx.
    rewrite E in Hw. rewrite (wd_edge _ W1), ndist_move in Hw. unfold dir in Hw. rewrite (wn_edge W1), (wn_edge W2), ncross_sub_r in Hw.
    assert (Hz : ndist (ens s v) (P v) = 0%R).
    { rewrite B1. rewrite <- (wd_edge (pnt c v) W1). rewrite B3. unfold wd, pnt. destruct (edge_at c v); [apply ndist_p1|auto]. }
    assert (r = 0)%R.
    { rewrite Hz in Hw. assert (Hw' : (r * ncross (enorm (eps s v)) (enorm (ens s v)) = 0)%R) by lra.
      apply Rmult_integral in Hw' as [|Hw']; auto. lra. }
    subst r. rewrite move_0 in E. auto. }
  assert (K1 : X = P va) by (apply (Gz va t); auto; congruence). assert (K2 : X = P vb) by (apply (Gz vb t'); auto; congruence).
  assert (va = vb) by (apply (i_dist I); [apply V_rng; auto|apply V_rng; auto|congruence]).
  destruct (ring_facts W Ha) as (_ & _ & _ & big & _). destruct (big va Va) as (B1 & _). congruence.
Qed.

Lemma new_prev : exists pv, V s pv /\ nx s pv = va /\ pv <> va /\ pv <> vb /\ va <> vb.
Proof.
  destruct Hb as [(Rg & W) Ha Hr (T0 & HT0 & Hg) Va Vb Hn Hh Hm]. destruct (ring_facts W Ha) as (_ & _ & _ & big & _ & prevs).
  destruct (prevs va Va) as [P1 P2]. exists (prv_of (s_vs s) va). destruct (big va Va) as (B1 & B2 & B3). split; auto. split; auto.
  split; [intros K; rewrite K in P2; auto|]. split; [intros K; rewrite K in P2; rewrite Hn in B2; auto|congruence].
Qed.

Lemma new_edges : NoDup [wl va; wl vb; wp va] /\ wl va < n /\ wl vb < n /\ wp va < n.
Proof.
  destruct new_prev as (pv & Vp & Np & P1 & P2 & P3). destruct Hb as [_ _ _ _ Va Vb Hn _ _].
  destruct (wallsd (i_comb I) Va Vb Vp Hn Np P3 P1 P2) as (W1 & W2 & W3 & W4 & W5).
  destruct (c_wl (i_comb I) (V_rng Va)) as [Q1 Q2]. destruct (c_wl (i_comb I) (V_rng Vb)) as [Q3 _]. split; auto.
  constructor; [simpl; intuition congruence|]. constructor; [simpl; intuition congruence|]. constructor; [simpl; tauto|constructor].
Qed.

Lemma wall_dist i e : edge_at c i = Some e -> edge_dist e X = wd i X.
Proof. intros He. rewrite (wd_edge _ He). apply edge_dist_n. eapply edge_directed; eauto. Qed.

Lemma new_roof_point : roof_point c X d.
Proof.
  pose proof new_pos as Hd. destruct new_walls as (D1 & D2 & D3). destruct new_edges as (Hnd & L1 & L2 & L3).
  destruct (edge_at_some Hc (wl va)) as (e1 & E1). destruct (edge_at_some Hc (wl vb)) as (e2 & E2). destruct (edge_at_some Hc (wp va)) as (e3 & E3).
  apply NoDup_cons_iff in Hnd as [N1 Hnd]. apply NoDup_cons_iff in Hnd as [N2 _]. simpl in N1, N2.
  split.
  - exists e1, e2, e3. rewrite (wall_dist E1), (wall_dist E2), (wall_dist E3). rewrite D1, D2, D3.
    split; [eapply edge_in; eauto|]. split; [eapply edge_in; eauto|]. split; [eapply edge_in; eauto|].
    split; [intros K; subst e2; apply N1; left; symmetry; eapply wall_eq; eauto|].
    split; [intros K; subst e3; apply N2; left; symmetry; eapply wall_eq; eauto|].
    split; [intros K; subst e3; apply N1; right; left; symmetry; eapply wall_eq; eauto|].
    split; auto. split; auto. rewrite Rabs_right; lra.
  - intros e He. apply In_nth_error in He as (i & Hi). assert (Li : i < n) by (apply nth_error_Some; congruence).
    assert (Ei : edge_at c i = Some e) by (unfold edge_at; fold n; rewrite Nat.mod_small by auto; auto).
    rewrite (wall_dist Ei). apply new_inside.
Qed.

Lemma new_apart y : y < N -> P y <> X.
Proof.
  intros Hy K. pose proof new_pos as Hd. destruct new_walls as (D1 & D2 & D3). destruct new_edges as (Hnd & L1 & L2 & L3).
  destruct (Nat.lt_ge_cases y n) as [Hlt|Hge].
  - destruct (i_base I Hlt) as [K1 _]. pose proof (new_inside y) as Hin. rewrite <- K, K1 in Hin. unfold wd, pnt in Hin.
    destruct (edge_at c y); [rewrite ndist_p1 in Hin|]; lra.
  - assert (Hy' : n <= y < length (s_vs (lo_slav st))) by (split; auto).
    destruct (i_node I Hy') as (_ & _ & Q1 & Q2). destruct (c_node (i_comb I) Hy') as (A1 & _ & _ & _ & _ & _ & _ & _ & _ & _ & A2).
    destruct new_prev as (pv & Vp & Np & P1 & P2 & P3). pose proof Hb as [_ _ _ _ Va Vb Hn _ _].
    destruct (wallsd (i_comb I) Va Vb Vp Hn Np P3 P1 P2) as (_ & _ & _ & W4 & _).
    set (f := wl (A y)) in *. assert (Lf : f < n) by (apply (c_wl (i_comb I)); lia).
    assert (Hf : wd f X = d). { apply Rle_antisym; [|apply new_inside]. rewrite <- K, Q2, <- D1, <- K. apply Q1. }
    assert (Hnd4 : NoDup [f; wl va; wl vb; wp va]).
    { constructor; auto. pose proof (A2 va Va) as F1. pose proof (A2 vb Vb) as F2. pose proof (A2 pv Vp) as F3. rewrite <- W4 in F3.
      simpl. intros [Q|[Q|[Q|[]]]]; congruence. }
    destruct (edge_at_some Hc f) as (e0 & E0).
    destruct (edge_at_some Hc (wl va)) as (e1 & E1). destruct (edge_at_some Hc (wl vb)) as (e2 & E2). destruct (edge_at_some Hc (wp va)) as (e3 & E3).
    apply (Hsimple new_roof_point (edge_in E0) (edge_in E1) (edge_in E2) (edge_in E3)).
    + assert (G : forall i j e e', i < n -> j < n -> edge_at c i = Some e -> edge_at c j = Some e' -> i <> j -> e <> e').
      { intros i j e e' Hi Hj Ei Ej Hij ->. apply Hij. eapply wall_eq; eauto. }
      apply NoDup_cons_iff in Hnd4 as [M1 Hnd4]. apply NoDup_cons_iff in Hnd4 as [M2 Hnd4]. apply NoDup_cons_iff in Hnd4 as [M3 _].
      simpl in M1, M2, M3.
      constructor; [simpl; intros [Q|[Q|[Q|[]]]]|constructor; [simpl; intros [Q|[Q|[]]]|constructor; [simpl; intros [Q|[]]|constructor; [simpl; tauto|constructor]]]].
      * revert Q. apply (@G (wl va) f); auto.
      * revert Q. apply (@G (wl vb) f); auto.
      * revert Q. apply (@G (wp va) f); auto. tauto.
      * revert Q. apply (@G (wl vb) (wl va)); auto.
      * revert Q. apply (@G (wp va) (wl va)); auto.
      * revert Q. apply (@G (wp va) (wl vb)); auto.
    + rewrite (wall_dist E0), (wall_dist E1), (wall_dist E2), (wall_dist E3). auto.
Qed.

Lemma new_links : (exists t, (0 < t)%R /\ X = move (P va) t (dir wp wl va)) /\ exists t, (0 < t)%R /\ X = move (P vb) t (dir wp wl vb).
Proof.
  pose proof Hb as [_ _ _ _ Va Vb _ _ _].
  assert (G : forall v, V s v -> (exists t, (0 <= t)%R /\ X = move (P v) t (dir wp wl v)) -> exists t, (0 < t)%R /\ X = move (P v) t (dir wp wl v)).
  { intros v Hv (t & Ht & E). exists t. split; auto. destruct Ht as [|Ht]; auto. exfalso. subst t. rewrite move_0 in E.
    apply (@new_apart v); auto. apply (V_rng Hv). }
  destruct new_on. split; apply G; auto.
Qed.

(** the third vertex of a triangle ends in the same point *)
Lemma new_third : nx s (nx s vb) = va -> exists t, (0 < t)%R /\ X = move (P (nx s vb)) t (dir wp wl (nx s vb)).
Proof.
  intros Hcyc. pose proof Hb as [(Rg & W) Ha Hr (T0 & HT0 & Hg) Va Vb Hn Hh Hm]. destruct (ring_facts W Ha) as (_ & _ & chain & big & _).
  destruct (chain vb Vb) as [Vc Ec]. set (vc := nx s vb) in *.
  assert (G : Ray s vc X).
  { destruct (time_now Hc W Ha Hg Va Hn Hh Hm) as (own & Hcov & [(Q & Hs & Q1 & Q2)|Hp]); [|apply Hp; auto].
    destruct Hs as [Hs _]. destruct (Hs vb Vb) as (_ & _ & _ & _ & L & HL & E1). destruct (Hs vc Vc) as (Hx & _ & _ & Hray & L' & HL' & E2).
    fold vc in E1. rewrite Hcyc, Q1 in E2. rewrite Q2 in E1. rewrite E1 in E2, Hray.
    rewrite Ec in Hx. set (a := enorm (ens s vb)) in *. set (b := enorm (ens s vc)) in *.
    assert (Z1 : (L * ncross a b = 0)%R).
    { assert (K : ncross X b = ncross (move (move X L a) L' b) b) by congruence. rewrite !ncross_move, ncross_self in K. lra. }
    assert (L = 0)%R by (apply Rmult_integral in Z1 as [|Z1]; auto; lra). subst L. rewrite move_0 in Hray. exact Hray. }
  destruct (i_wl I (V_rng Vc)) as [W1 W2]. unfold dir. rewrite (wn_edge W1), (wn_edge W2). rewrite (i_P I) by (apply V_rng; auto).
  destruct G as (t & Ht & E). exists t. split; [|exact E]. destruct Ht as [|Ht]; auto. exfalso. subst t. rewrite move_0 in E.
  apply (@new_apart vc); [apply (V_rng Vc)|]. rewrite (i_P I) by (apply V_rng; auto). auto.
Qed.

Lemma F_lt i x : i < n -> In x (F i) -> x < N.
Proof. apply (F_rng n3 (i_comb I)). Qed.

(** ** two vertices become one *)
Lemma part_step s' q' : s_act s' = [0] -> merged s s' va vb X -> geo c s' d -> length (s_vs s') = S (length (s_vs s)) -> grows (s_vs s) (s_vs s') ->
  exists wp wl A B U F P H, part (Loop s' q' (lo_out st ++ [Subtree (A := RA) X d [Bs s va; Bs s vb]])) d wp wl A B U F P H.
Proof.
  intros Ha' Hm Hg' Hlen Hgr. destruct new_prev as (pv & Vp & Np & P1 & P2 & P3). pose proof Hb as [_ _ _ _ Va Vb Hn _ _].
  pose proof Hm as [M1 M2 M3 M4 M5 M6 M7 M8 _ _].
  pose proof (comb_merge n3 (i_comb I) Va Vb Vp Hn Np P3 P1 P2 M2 M3 M4) as C'. fold s in C'.
  destruct (wallsd (i_comb I) Va Vb Vp Hn Np P3 P1 P2) as (W1 & W2 & W3 & W4 & W5).
  destruct new_walls as (D1 & D2 & D3). destruct new_links as [L1 L2]. pose proof new_pos as Hd. pose proof new_late as HT.
  pose proof (V_rng Va) as Ra. pose proof (V_rng Vb) as Rb. fold N in Ra, Rb.
  exists (upd wp N (wp va)), (upd wl N (wl vb)), (upd A N va), (upd B N vb), (upd (upd U va N) vb N), (F_merge N wp wl F va vb), (upd P N X), (upd H N d).
  pose proof (c_N (i_comb I)) as HN. fold s N in HN.
  assert (Hbody : forall v, v < N -> eps s' v = eps s v /\ ens s' v = ens s v /\ Bs s' v = Bs s v).
  { intros v Hv. destruct (getv_body Hgr Hv) as (_ & B1 & B2 & _ & B4). unfold eps, ens, Bs. rewrite B1, B2, B4. auto. }
  assert (Hcase : forall v, v < length (s_vs s') -> v < N \/ v = N) by (intros v Hv; rewrite Hlen in Hv; fold N in Hv; lia).
  split; cbn [lo_slav lo_out].
  - rewrite Hlen. exact C'.
  - intros v Hv. destruct (Hcase v Hv) as [Hv'| ->].
    + rewrite !upd_ne by lia. destruct (Hbody v Hv') as (-> & -> & _). apply (i_wl I Hv').
    + rewrite !upd_eq. fold N in M6, M7. rewrite M6, M7. split; [apply (i_wl I Rb)|apply (i_wl I Ra)].
  - intros v Hv. destruct (Hcase v Hv) as [Hv'| ->].
    + rewrite !upd_ne by lia. destruct (Hbody v Hv') as (_ & _ & ->). apply (i_P I Hv').
    + rewrite !upd_eq. auto.
  - intros i Hi. rewrite !upd_ne by lia. apply (i_base I Hi).
  - intros v Hv. rewrite Hlen in Hv. apply (dead' (i_comb I) Va Vb M2) in Hv.
    assert (Hdir : forall v, v < N -> dir (upd wp N (wp va)) (upd wl N (wl vb)) v = dir wp wl v) by (intros; unfold dir; rewrite !upd_ne by lia; auto).
    destruct Hv as [Hv|[->| ->]].
    + pose proof Hv as [Hv1 Hv2]. fold s N in Hv1. rewrite Hdir by auto. 
      rewrite (upd_ne (k := vb) (i := v)) by (intros ->; auto). rewrite (upd_ne (k := va) (i := v)) by (intros ->; auto).
      destruct (c_up (i_comb I) Hv) as [Hup _]. fold s N in Hup. rewrite !upd_ne by lia. apply (i_link I Hv).
    + rewrite Hdir by auto. rewrite (upd_ne (k := vb)), upd_eq by auto. rewrite upd_eq, upd_ne by lia. auto.
    + rewrite Hdir by auto. rewrite upd_eq. rewrite upd_eq, upd_ne by lia. auto.
  - intros x Hx. destruct (Hcase x) as [Hv'| ->]; [lia| |].
    + destruct (i_node I (x := x)) as (K1 & K2 & K3 & K4); [fold s N; lia|].
      destruct (c_node (i_comb I) (x := x)) as (A1 & A2 & _); [fold s N; lia|].
      rewrite !(upd_ne (f := A)), !(upd_ne (f := B)), !(upd_ne (f := H)), !(upd_ne (f := P)) by lia. rewrite !upd_ne by lia. auto.
    + rewrite (upd_eq A), (upd_eq B), (upd_eq H), (upd_eq P). rewrite !upd_ne by lia. split; [exact new_tri|]. split; auto. split; auto. apply new_inside.
  - intros x Hx. destruct (Hcase x) as [Hv'| ->]; [lia| |rewrite !upd_eq; exact new_roof_point]. rewrite !upd_ne by lia. apply (i_point I). fold s N; lia.
  - intros i x Hi Hx. 
    assert (G : x = N -> (i = wl va \/ i = wl vb \/ i = wp va) -> wd i (upd P N X x) = upd H N d x).
    { intros -> [->|[->| ->]]; rewrite !upd_eq; auto. }
    assert (G2 : In x (F i) -> wd i (upd P N X x) = upd H N d x).
    { intros Hx'. pose proof (F_lt Hi Hx'). rewrite !upd_ne by lia. apply (i_face I Hi Hx'). }
    unfold F_merge in Hx. destruct (Nat.eqb_spec i (wl va)) as [->|Na]; [destruct Hx as [<-|Hx]; auto|].
    destruct (Nat.eqb_spec i (wl vb)) as [->|Nb]; [destruct Hx as [<-|Hx]; auto|].
    destruct (Nat.eqb_spec i (wp va)) as [->|Nc]; [apply in_app_iff in Hx as [Hx|[<-|[]]]; auto|]. auto.
  - intros x y Hx Hy. destruct (Hcase x Hx) as [Hx'| ->]; destruct (Hcase y Hy) as [Hy'| ->]; auto.
    + rewrite !upd_ne by lia. apply (i_dist I); auto.
    + rewrite upd_eq, upd_ne by lia. intros K. exfalso. apply (new_apart Hx'). auto.
    + rewrite upd_eq, upd_ne by lia. intros K. exfalso. apply (new_apart Hy'). auto.
  - rewrite Hlen, app_length. pose proof (i_len I) as K. fold s in K. simpl. lia.
  - intros k Hk. rewrite app_length in Hk. simpl in Hk. pose proof (i_len I) as K. fold s N in K.
    destruct (Nat.eq_dec k (length (lo_out st))) as [->|Hne].
    + rewrite nth_error_app2, Nat.sub_diag by lia. cbn [nth_error]. rewrite <- K. rewrite !upd_eq. rewrite !upd_ne by lia.
      rewrite !(i_P I) by auto. auto.
    + rewrite nth_error_app1 by lia. rewrite (i_out I) by lia. destruct (c_node (i_comb I) (x := n + k)) as (A1 & A2 & _); [fold s N; lia|].
      rewrite !(upd_ne (f := A)), !(upd_ne (f := B)) by lia. rewrite !upd_ne by lia. auto.
  - split; [lra|]. split; auto. intros x Hx. destruct (Hcase x Hx) as [Hx'| ->]; [|rewrite upd_eq; lra].
    rewrite upd_ne by lia. destruct (i_T I) as (_ & _ & K). specialize (K x Hx'). lra.
Qed.

(** ** the last three vertices become the peak *)
Lemma part_peak ids : nx s (nx s vb) = va -> Permutation ids [va; vb; nx s vb] ->
  exists wp wl A B U F P H, roof (lo_out st ++ [Subtree (A := RA) X d (map (Bs s) ids)]) (S N) wp wl A B U F P H.
Proof.
  intros Hcyc Hids. pose proof Hb as [(Rg & W) Ha Hr (T0 & HT0 & Hg) Va Vb Hn Hh Hm].
  destruct (ring_facts W Ha) as (HV & _ & chain & big & inj & _). destruct (chain vb Vb) as [Vc Ec]. set (vc := nx s vb) in *.
  destruct (big va Va) as (Q1 & Q2 & Q3). destruct (big vb Vb) as (Q4 & _ & _). rewrite Hn in Q1, Q2, Q3. fold vc in Q2, Q3, Q4.
  assert (HV3 : forall v, V s v <-> v = va \/ v = vb \/ v = vc).
  { intros v. split; [|intros [->|[->| ->]]; auto]. intros Hv. apply HV in Hv.
    destruct W as [(_ & W2 & _) W4]. rewrite Ha in W2, W4. destruct (W2 0 (or_introl eq_refl)) as [Hok _].
    destruct (ring_pair Hok (W4 0 (or_introl eq_refl)) (proj1 (HV va) Va) Hn) as (rest & Hrest & Hr2 & Hp2 & PP1 & PP2 & _).
    pose proof (ring_NoDup Hr2) as Hnd. apply NoDup_cons_iff in Hnd as [Na Hnd1]. apply NoDup_cons_iff in Hnd1 as [Nb Hnd2].
    assert (Hpk : prv_of (s_vs s) va = nxt_of (s_vs s) vb).
    { destruct Hok as (Hok & _). pose proof (ring_next_prev Hok (x := vc) (proj1 (HV vc) Vc)) as K. fold (nx s) in K. unfold nx in *. rewrite Hcyc in K. exact K. }
    rewrite PP1, PP2 in Hpk. destruct (hd_last Hnd2 Hrest Hpk) as (x & ->).
    assert (x = vc) by (symmetry; exact PP2). subst x.
    apply (Permutation_in _ Hp2) in Hv as [<-|[<-|[<-|[]]]]; auto. }
  assert (Hcb : vc <> vb) by congruence. assert (Hca : vc <> va) by congruence. assert (Hab : va <> vb) by congruence.
  pose proof (comb_peak n3 (i_comb I) HV3 Hn eq_refl Hcyc Hab Hca Hcb) as C'. fold s N in C'.
  destruct (wallsd (i_comb I) Va Vb Vc Hn Hcyc Hab Hca Hcb) as (W1 & W2 & W3 & W4 & W5).
  destruct new_walls as (D1 & D2 & D3). destruct new_links as [L1 L2]. pose proof (new_third Hcyc) as L3. fold vc in L3.
  pose proof new_pos as Hd. pose proof new_late as HT.
  pose proof (V_rng Va) as Ra. pose proof (V_rng Vb) as Rb. pose proof (V_rng Vc) as Rc. fold N in Ra, Rb, Rc.
  exists (upd wp N (wp va)), (upd wl N (wl vb)), (upd A N va), (upd B N vb), (upd (upd (upd (upd U va N) vb N) vc N) N vc), (F_peak N wl F va vb vc), (upd P N X), (upd H N d).
  pose proof (c_N (i_comb I)) as HN. fold s N in HN.
  assert (Hcase : forall v, v < S N -> v < N \/ v = N) by (intros v Hv; lia).
  assert (Hdir : forall v, v < N -> dir (upd wp N (wp va)) (upd wl N (wl vb)) v = dir wp wl v) by (intros; unfold dir; rewrite !upd_ne by lia; auto).
  pose proof (i_len I) as Hlen. fold s N in Hlen.
  split.
  - exact C'.
  - intros i Hi. rewrite !upd_ne by lia. apply (i_base I Hi).
  - intros v Hv. destruct (Hcase v Hv) as [Hv'| ->].
    + rewrite Hdir by auto. rewrite (upd_ne (f := P) (i := v)) by lia. rewrite (upd_ne (k := N) (i := v)) by lia.
      destruct (Nat.eq_dec v vc) as [->|Nc]; [rewrite !upd_eq; auto|]. rewrite (upd_ne (k := vc)) by auto.
      destruct (Nat.eq_dec v vb) as [->|Nb]; [rewrite !upd_eq; auto|]. rewrite (upd_ne (k := vb)) by auto.
      destruct (Nat.eq_dec v va) as [->|Na]; [rewrite !upd_eq; auto|]. rewrite (upd_ne (k := va)) by auto.
      assert (Hdead : dead N (V s) v) by (split; auto; rewrite HV3; tauto).
      destruct (c_up (i_comb I) Hdead) as [Hup _]. fold s N in Hup. rewrite upd_ne by lia. apply (i_link I Hdead).
    + rewrite !upd_eq. rewrite upd_ne by lia. destruct L3 as (t & Ht & E). exists t. split; auto. rewrite E.
      unfold dir. rewrite !upd_eq. unfold vc at 2. destruct (c_chain (i_comb I) Vb) as [_ K1]. fold s vc in K1. 
      destruct (c_chain (i_comb I) Vc) as [_ K2]. fold s in K2. rewrite Hcyc in K2. fold vc. rewrite K1, <- K2.
      destruct (P vc) as [px py]. unfold move, sub, rvec. apply vec_ext; cbn [vx vy]; change (num RA) with R in *; ring.
  - intros x Hx. destruct (Hcase x) as [Hv'| ->]; [lia| |].
    + destruct (i_node I (x := x)) as (K1 & K2 & K3 & K4); [fold s N; lia|].
      destruct (c_node (i_comb I) (x := x)) as (A1 & A2 & _); [fold s N; lia|].
      rewrite !(upd_ne (f := A)), !(upd_ne (f := B)), !(upd_ne (f := H)), !(upd_ne (f := P)) by lia. rewrite !upd_ne by lia. auto.
    + rewrite (upd_eq A), (upd_eq B), (upd_eq H), (upd_eq P). rewrite !upd_ne by lia. split; [exact new_tri|]. split; auto. apply new_inside.
  - intros x Hx. destruct (Hcase x) as [Hv'| ->]; [lia| |rewrite !upd_eq; exact new_roof_point]. rewrite !upd_ne by lia. apply (i_point I). fold s N; lia.
  - intros i x Hi Hx. 
    assert (G : x = N -> (i = wl va \/ i = wl vb \/ i = wl vc) -> wd i (upd P N X x) = upd H N d x).
    { intros -> [->|[->| ->]]; rewrite !upd_eq; auto. rewrite <- W4. auto. }
    assert (G2 : In x (F i) -> wd i (upd P N X x) = upd H N d x).
    { intros Hx'. pose proof (F_lt Hi Hx'). rewrite !upd_ne by lia. apply (i_face I Hi Hx'). }
    unfold F_peak in Hx. destruct (Nat.eqb_spec i (wl va)) as [->|Na]; [destruct Hx as [<-|Hx]; auto|].
    destruct (Nat.eqb_spec i (wl vb)) as [->|Nb]; [destruct Hx as [<-|Hx]; auto|].
    destruct (Nat.eqb_spec i (wl vc)) as [->|Nc]; [destruct Hx as [<-|Hx]; auto|]. auto.
  - intros x y Hx Hy. destruct (Hcase x Hx) as [Hx'| ->]; destruct (Hcase y Hy) as [Hy'| ->]; auto.
    + rewrite !upd_ne by lia. apply (i_dist I); auto.
    + rewrite upd_eq, upd_ne by lia. intros K. exfalso. apply (new_apart Hx'). auto.
    + rewrite upd_eq, upd_ne by lia. intros K. exfalso. apply (new_apart Hy'). auto.
  - rewrite app_length. simpl. lia.
  - intros k Hk. rewrite nth_error_app1 by lia. rewrite (i_out I) by lia.
    destruct (c_node (i_comb I) (x := n + k)) as (A1 & A2 & _); [fold s N; lia|].
    rewrite !(upd_ne (f := A)), !(upd_ne (f := B)) by lia. rewrite !upd_ne by lia. auto.
  - intros k Hk. assert (E : n + k = N) by lia. rewrite E. rewrite !upd_eq. exists ids. split; auto.
    rewrite nth_error_app2 by lia. replace (k - length (lo_out st)) with 0 by lia. cbn [nth_error]. f_equal. f_equal.
    apply map_ext_in. intros i Hi. apply (Permutation_in _ Hids) in Hi.
    assert (Li : i < N) by (destruct Hi as [<-|[<-|[<-|[]]]]; auto). rewrite upd_ne by lia. symmetry. apply (i_P I Li).
Qed.
End New.

(** ** the loop *)
Definition grown st : Prop :=
  (s_act (lo_slav st) = [0] /\ exists T wp wl A B U F P H, part st T wp wl A B U F P H) \/
  (s_act (lo_slav st) = [] /\ exists M wp wl A B U F P H, roof (lo_out st) M wp wl A B U F P H).

Lemma part_start st0 : skeleton_start [c] = Ok st0 -> grown st0.
Proof.
  intros H. destruct (start_inv H) as (Hi & Ho & _).
  destruct (init_slav_ok (contours_ne Hc)) as (s & H1 & H2 & H3). rewrite Hi in H1. apply Ok_inj in H1. subst s.
  pose proof (start_cinv Hc H) as G. destruct st0 as [s q out]. cbn [lo_slav lo_queue lo_out] in *. subst out.
  assert (Hact : s_act s = [0]) by apply H2.
  assert (Hlen : length (s_vs s) = n) by (destruct H2 as (-> & _); simpl; rewrite app_nil_r; auto).
  pose proof n3 as L3.
  assert (HV : forall i, V s i <-> i < n).
  { intros i. split; [intros Hv; apply V_rng in Hv; lia|]. intros Hv. unfold V, is_valid.
    destruct (wavefront_wfL H2 (contours_ne Hc)) as (_ & Q2 & _). rewrite Hact in Q2.
    destruct (Q2 0 (or_introl eq_refl)) as [(_ & _ & _ & K) _]. apply (K i). unfold contour_ids. apply in_seq. unfold offset. simpl. fold n. lia. }
  left. split; auto. exists 0%R, (fun i => (i + n - 1) mod n), (fun i => i), (fun i => (i + n - 1) mod n), (fun i => S i mod n), (fun i => i),
    (fun i => [i; S i mod n]), (pnt c), (fun _ => 0%R).
  assert (Hnd : forall v, ~ dead (length (s_vs s)) (V s) v). { intros v [K1 K2]. apply K2, HV. lia. }
  assert (Hpnt : forall v, v < n -> pnt c v = Bs s v).
  { intros v Hv. destruct (start_vertex Hc H2 Hv) as (_ & _ & Q1 & Q2 & _). rewrite Q2. unfold pnt. rewrite Q1. auto. }
  split; cbn [lo_slav lo_out].
  - rewrite Hlen. apply comb_start; auto. intros i Hli. destruct (start_vertex Hc H2 Hli) as (Q & _). auto.
  - intros v Hv. rewrite Hlen in Hv. destruct (start_vertex Hc H2 Hv) as (_ & Q1 & Q2 & _). split; auto. rewrite <- Q1. unfold edge_at. fold n.
    rewrite Nat.mod_mod by lia. auto.
  - intros v Hv. apply Hpnt. lia.
  - auto.
  - intros v Hv. destruct (Hnd v Hv).
  - intros x Hx. lia.
  - intros x Hx. lia.
  - intros i x Hli [<-|[<-|[]]]; unfold wd.
    + unfold pnt. destruct (edge_at c i); auto. apply ndist_p1.
    + destruct (edge_at_some Hc i) as (e & He). rewrite He. assert (E : pnt c (S i mod n) = ep2 e).
      { rewrite (edge_at_succ Hc He). unfold pnt, edge_at. fold n. rewrite Nat.mod_mod by lia. auto. }
      rewrite E. apply ndist_p2. eapply edge_directed; eauto.
  - intros x y Hx Hy. apply pnt_distinct; auto; fold n; lia.
  - simpl. lia.
  - intros k Hk. simpl in Hk. lia.
  - split; [lra|]. split; [|intros; lra]. apply start_geo; auto.
Qed.

Lemma grown_event st e t s' arcs new : ginv c st (e :: t) ->
  (live (lo_slav st) e -> forall e', In e' (t ++ lo_queue st) -> live (lo_slav st) e' -> (ev_distance e <= ev_distance e')%R) ->
  handle_event (lo_slav st) e = Ok (s', arcs, new) -> grown st -> grown (Loop s' (put_all (lo_queue st) new) (lo_out st ++ arcs)).
Proof.
  intros G Hord Hh Hgr. destruct (step_cases Hc G Hord Hh) as [(-> & -> & ->)|(d & X & va & vb & _ & Hbef & Haft)].
  - rewrite app_nil_r. destruct Hgr as [(H1 & T & wp & wl & A & B & U & F & P & H & [])|Hgr]; [left|right; auto].
    split; auto. exists T, wp, wl, A, B, U, F, P, H. split; auto.
  - destruct Hgr as [(H1 & T & wp & wl & A & B & U & F & P & H & I)|[H1 _]]; [|rewrite (b_act Hbef) in H1; discriminate].
    destruct Haft as [(Hcyc & Ha' & ids & Hp & ->)|(Ha' & Hm & Hg' & Hlen & Hgr & ->)].
    + right. split; auto. cbn [lo_out]. destruct (part_peak I Hbef Hcyc Hp) as (wp' & wl' & A' & B' & U' & F' & P' & H' & K).
      exists (S (length (s_vs (lo_slav st)))), wp', wl', A', B', U', F', P', H'. exact K.
    + left. split; auto. destruct (part_step I Hbef (put_all (lo_queue st) new) Ha' Hm Hg' Hlen Hgr) as (wp' & wl' & A' & B' & U' & F' & P' & H' & K).
      exists d, wp', wl', A', B', U', F', P', H'. exact K.
Qed.

Lemma grown_reach st0 st pend : skeleton_start [c] = Ok st0 -> reach st0 st pend -> grown st.
Proof.
  intros H Hr. pose proof (separated_order Hc Hsep H) as Hord.
  induction Hr as [|st b q' Hr IH Hq Ha Hg|st e t s' arcs new Hr IH Hh].
  - apply part_start; auto.
  - destruct IH as [(H1 & T & wp & wl & A & B & U & F & P & HH & [])|IH]; [left|right; auto].
    split; auto. exists T, wp, wl, A, B, U, F, P, HH. split; auto.
  - eapply grown_event; eauto. exact (reach_ginv Hc (start_ginv Hc H) Hord Hr).
Qed.

Theorem convex_tree fuel : length c + 2 * (length c - 2) < fuel ->
  exists out wp wl A B U F P H, raw_skeleton fuel [c] = Ok out /\ length out = n - 2 /\ roof out (n + (n - 2)) wp wl A B U F P H.
Proof.
  intros Hf. destruct (convex_starts Hc) as (st0 & H). pose proof (separated_order Hc Hsep H) as Hord.
  destruct (convex_done Hc H Hord Hf) as (out & Hout & Hlen & _). pose proof Hout as Hout0.
  unfold raw_skeleton in Hout. rewrite H in Hout. cbn [bind] in Hout.
  destruct (event_loop fuel st0) as [st|x] eqn:El; [|discriminate]. cbn [bind] in Hout. apply Ok_inj in Hout. subst out.
  pose proof (event_loop_reach fuel (reach_start st0)) as Hr. rewrite El in Hr. destruct Hr as [Hr Hstop].
  pose proof (reach_ginv Hc (start_ginv Hc H) Hord Hr) as (G & Hrays & Hin & Hs).
  destruct (grown_reach H Hr) as [(Ha & _)|(_ & M & wp & wl & A & B & U & F & P & HH & K)].
  - exfalso. destruct Hs as [Hs|(_ & T & T0 & Hgeo & He & Hw)]; [congruence|]. destruct Hstop as [Hq|Hq]; [|congruence].
    destruct G as (_ & _ & R' & sp & W & _). destruct (first_event Hc W Ha Hgeo Hw) as (u & _ & (d & p & Hi) & _). rewrite Hq in Hi. destruct Hi.
  - assert (M = n + (n - 2)) by (rewrite (r_len K), Hlen; auto). subst M.
    exists (lo_out st), wp, wl, A, B, U, F, P, HH. auto.
Qed.
End Tree.
