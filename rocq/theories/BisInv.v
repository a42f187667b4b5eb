(** * BisInv: neighbours share an edge, and every vertex is equidistant from its two edges,
    in every state of the event loop (over the real numbers, without dormer events) *)

From Coq Require Import Reals Lra Psatz Permutation.
From Verif Require Import Py PyFacts Arith ArithR Euclid Heapq Lav Cluster LavSpec LavWalk LavWf LavInit LavNext LavGrow LoopSpec
  LavLoop LoopStart ClusterSpec GeoSpec GeoR GeoLines UnitProofs BisSpec BisProofs BisLoop.
Set Implicit Arguments.
Unset Strict Implicit.
Local Open Scope nat_scope.


Implicit Type vs : list (@lavertex RA).
Implicit Type s : @slav RA.

(** ** neighbours share an edge *)
Definition lkn vs (X : list nat) : Prop := forall i, i < length vs -> ~ In i X ->
  samel (v_enext (getv vs i)) (v_eprev (getv vs (nxt_of vs i))).
Definition lkp vs (X : list nat) : Prop := forall i, i < length vs -> ~ In i X ->
  samel (v_enext (getv vs (prv_of vs i))) (v_eprev (getv vs i)).
Definition lk vs : Prop := lkn vs [] /\ lkp vs [].

Lemma edges_modv i f vs j : (forall v, v_eprev (f v) = v_eprev v /\ v_enext (f v) = v_enext v) ->
  v_eprev (getv (modv i f vs) j) = v_eprev (getv vs j) /\ v_enext (getv (modv i f vs) j) = v_enext (getv vs j).
Proof. intros H. rewrite getv_modv. destruct (_ && _); auto. Qed.

Lemma edges_next i n vs j : v_eprev (getv (modv i (with_next n) vs) j) = v_eprev (getv vs j) /\
  v_enext (getv (modv i (with_next n) vs) j) = v_enext (getv vs j).
Proof. apply edges_modv. auto. Qed.
Lemma edges_prev i n vs j : v_eprev (getv (modv i (with_prev n) vs) j) = v_eprev (getv vs j) /\
  v_enext (getv (modv i (with_prev n) vs) j) = v_enext (getv vs j).
Proof. apply edges_modv. auto. Qed.

Lemma lkn_next vs X i n : lkn vs (i :: X) -> samel (v_enext (getv vs i)) (v_eprev (getv vs n)) ->
  lkn (modv i (with_next n) vs) X.
Proof.
  intros H Hn j Hj Hx. rewrite modv_length in Hj. rewrite !(proj1 (edges_next _ _ _ _)), !(proj2 (edges_next _ _ _ _)).
  rewrite nxt_with_next by auto. destruct (Nat.eqb_spec i j) as [->|Hne]; auto. apply H; auto. intros [?|?]; auto.
Qed.
Lemma lkn_weak vs X i : lkn vs X -> lkn vs (i :: X).
Proof. intros H j Hj Hx. apply H; auto. intros ?; apply Hx; right; auto. Qed.
Lemma lkp_weak vs X i : lkp vs X -> lkp vs (i :: X).
Proof. intros H j Hj Hx. apply H; auto. intros ?; apply Hx; right; auto. Qed.
Lemma lkp_next vs X i n : lkp vs X -> lkp (modv i (with_next n) vs) X.
Proof.
  intros H j Hj Hx. rewrite modv_length in Hj. rewrite !(proj1 (edges_next _ _ _ _)), !(proj2 (edges_next _ _ _ _)).
  rewrite prv_with_next. auto.
Qed.
Lemma lkp_prev vs X i n : lkp vs (i :: X) -> samel (v_enext (getv vs n)) (v_eprev (getv vs i)) ->
  lkp (modv i (with_prev n) vs) X.
Proof.
  intros H Hn j Hj Hx. rewrite modv_length in Hj. rewrite !(proj1 (edges_prev _ _ _ _)), !(proj2 (edges_prev _ _ _ _)).
  rewrite prv_with_prev by auto. destruct (Nat.eqb_spec i j) as [->|Hne]; auto. apply H; auto. intros [?|?]; auto.
Qed.
Lemma lkn_prev vs X i n : lkn vs X -> lkn (modv i (with_prev n) vs) X.
Proof.
  intros H j Hj Hx. rewrite modv_length in Hj. rewrite !(proj1 (edges_prev _ _ _ _)), !(proj2 (edges_prev _ _ _ _)).
  rewrite nxt_with_prev. auto.
Qed.

(** changes that keep links and edges *)
Definition links_kept vs vs' : Prop := length vs' = length vs /\
  (forall i, nxt_of vs' i = nxt_of vs i) /\ (forall i, prv_of vs' i = prv_of vs i) /\
  (forall i, v_eprev (getv vs' i) = v_eprev (getv vs i)) /\ (forall i, v_enext (getv vs' i) = v_enext (getv vs i)).
Lemma links_kept_refl vs : links_kept vs vs. Proof. repeat split; auto. Qed.
Lemma links_kept_trans vs vs1 vs2 : links_kept vs vs1 -> links_kept vs1 vs2 -> links_kept vs vs2.
Proof. intros (A1 & A2 & A3 & A4 & A5) (B1 & B2 & B3 & B4 & B5). repeat split; intros; congruence. Qed.
Lemma links_kept_lk vs vs' : links_kept vs vs' -> lk vs -> lk vs'.
Proof.
  intros (A1 & A2 & A3 & A4 & A5) [H1 H2]. split; intros i Hi Hx; rewrite A4, A5.
  - rewrite A2. apply H1; auto. lia.
  - rewrite A3. apply H2; auto. lia.
Qed.
Lemma links_kept_modv i f vs : (forall v, v_eprev (f v) = v_eprev v /\ v_enext (f v) = v_enext v /\
   v_next (f v) = v_next v /\ v_prev (f v) = v_prev v) -> links_kept vs (modv i f vs).
Proof.
  intros H. unfold links_kept, nxt_of, prv_of. rewrite modv_length. split; auto.
  repeat split; intros j; rewrite getv_modv; destruct (_ && _); auto; apply H.
Qed.
Lemma links_kept_fold_lav ids o vs : links_kept vs (fold_left (fun vs i => modv i (with_lav o) vs) ids vs).
Proof.
  revert vs. induction ids as [|i ids IH]; intros vs; simpl; [apply links_kept_refl|].
  eapply links_kept_trans; [|apply IH]. apply links_kept_modv. auto.
Qed.
Lemma links_kept_invalidate s i : links_kept (s_vs s) (s_vs (invalidate s i)).
Proof. unfold invalidate. destruct (v_lav _); simpl; apply links_kept_modv; auto. Qed.
Lemma links_kept_invalidate_all s ids : links_kept (s_vs s) (s_vs (invalidate_all s ids)).
Proof.
  unfold invalidate_all. revert s. induction ids as [|i ids IH]; intros s; simpl; [apply links_kept_refl|].
  eapply links_kept_trans; [apply links_kept_invalidate|apply IH].
Qed.
Lemma links_kept_from_chain s h s' l : from_chain s h = Ok (s', l) -> links_kept (s_vs s) (s_vs s').
Proof.
  unfold from_chain. destruct (lav_list _ _) as [ids|]; [|discriminate]. cbn [bind].
  intros H. apply Ok_inj in H. injection H as <- <-. simpl. apply links_kept_fold_lav.
Qed.
Lemma links_kept_remove s o s' : remove_lav s o = Ok s' -> links_kept (s_vs s) (s_vs s').
Proof. intros H. destruct (remove_lav_facts H) as (-> & _). apply links_kept_refl. Qed.
Lemma links_kept_settle ls acc s' verts snks s v0 k0 : acc = Ok (s, v0, k0) ->
  fold_left settle_lav ls acc = Ok (s', verts, snks) -> links_kept (s_vs s) (s_vs s').
Proof.
  revert acc s v0 k0. induction ls as [|l ls IH]; intros acc s v0 k0 ->; cbn [fold_left].
  - intros H. apply Ok_inj in H. injection H as <- _ _. apply links_kept_refl.
  - destruct (settle_lav (Ok (s, v0, k0)) l) as [[[s1 v1] k1]|x] eqn:E.
    2: { rewrite settle_all_err. discriminate. }
    intros H. eapply links_kept_trans; [|eapply IH; [reflexivity|exact H]].
    unfold settle_lav in E. cbn [bind] in E. destruct (_ <? _)%Z.
    + apply Ok_inj in E. injection E as <- _ _. apply links_kept_refl.
    + destruct (lav_list s l) as [ids|]; [|discriminate]. cbn [bind] in E. apply Ok_inj in E. injection E as <- _ _.
      apply links_kept_invalidate_all.
Qed.

(** adding vertices whose links are still to be set *)
Lemma lk_app vs new m : lk vs -> rvs m vs ->
  lkn (vs ++ new) (seq (length vs) (length new)) /\ lkp (vs ++ new) (seq (length vs) (length new)).
Proof.
  intros [H1 H2] Hr.
  assert (G : forall i, i < length (vs ++ new) -> ~ In i (seq (length vs) (length new)) -> i < length vs).
  { intros i Hi Hx. rewrite app_length in Hi. destruct (Nat.lt_ge_cases i (length vs)); auto. exfalso. apply Hx, in_seq. lia. }
  split; intros i Hi Hx; specialize (G i Hi Hx); destruct (Hr i G) as (N1 & N2 & _); unfold nxt_of, prv_of;
    rewrite !(getv_app1 _ G), !getv_app1 by auto; [apply H1|apply H2]; auto.
Qed.

Lemma lk_unify s l va vb ip s' nv : rng s -> va < length (s_vs s) -> vb < length (s_vs s) -> lk (s_vs s) ->
  unify s l va vb ip = (s', nv) -> lk (s_vs s').
Proof.
  intros Hrng Ha Hb Hlk. unfold unify. cbv zeta.
  set (r := with_lav (Some l) _). set (vs0 := s_vs s ++ [r]).
  set (id := length (s_vs s)).
  set (vs1 := modv (v_prev (getv vs0 va)) (with_next id) vs0).
  set (vs2 := modv (v_next (getv vs1 vb)) (with_prev id) vs1).
  set (vs3 := modv id (with_prev (v_prev (getv vs2 va))) vs2).
  set (vs4 := modv id (with_next (v_next (getv vs3 vb))) vs3).
  intros [= <- <-]. simpl.
  eapply links_kept_lk; [eapply links_kept_trans; apply links_kept_invalidate|]. simpl.
  destruct Hrng as (R1 & _). destruct (@lk_app (s_vs s) [r] _ Hlk R1) as [N0 P0]. simpl in N0, P0. fold vs0 id in N0, P0.
  assert (L0 : length vs0 = S id) by (unfold vs0; rewrite app_length; simpl; unfold id; lia).
  assert (L1 : length vs1 = S id) by (unfold vs1; rewrite !modv_length; auto).
  assert (L2 : length vs2 = S id) by (unfold vs2; rewrite !modv_length; auto).
  assert (L3 : length vs3 = S id) by (unfold vs3; rewrite !modv_length; auto).
  fold id in Ha, Hb.
  assert (Na : ~ In va [id]) by (intros [<-|[]]; lia). assert (Nb : ~ In vb [id]) by (intros [<-|[]]; lia).
  assert (Eid : getv vs0 id = r) by (unfold vs0, id; apply getv_app_new).
  assert (Er1 : v_eprev r = v_eprev (getv (s_vs s) va)) by reflexivity.
  assert (Er2 : v_enext r = v_enext (getv (s_vs s) vb)) by reflexivity.
  assert (Ea0 : getv vs0 va = getv (s_vs s) va) by (apply getv_app1; auto).
  assert (Eb0 : getv vs0 vb = getv (s_vs s) vb) by (apply getv_app1; auto).
  assert (N1 : lkn vs1 [id]).
  { apply lkn_next; [apply lkn_weak; auto|]. rewrite Eid, Er1, <- Ea0. apply P0; auto. lia. }
  assert (P1 : lkp vs1 [id]) by (apply lkp_next; auto).
  assert (Q1 : forall j, v_eprev (getv vs1 j) = v_eprev (getv vs0 j) /\ v_enext (getv vs1 j) = v_enext (getv vs0 j)) by (intros; apply edges_next).
  assert (P2 : lkp vs2 [id]).
  { apply lkp_prev; [apply lkp_weak; auto|]. rewrite (proj2 (Q1 id)), Eid, Er2, <- Eb0, <- (proj2 (Q1 vb)). apply N1; auto. lia. }
  assert (N2 : lkn vs2 [id]) by (apply lkn_prev; auto).
  assert (Q2 : forall j, v_eprev (getv vs2 j) = v_eprev (getv vs0 j) /\ v_enext (getv vs2 j) = v_enext (getv vs0 j)).
  { intros j. destruct (Q1 j) as [<- <-]. apply edges_prev. }
  assert (P3 : lkp vs3 []).
  { apply lkp_prev; auto. rewrite (proj1 (Q2 id)), Eid, Er1, <- Ea0, <- (proj1 (Q2 va)). apply P2; auto. lia. }
  assert (N3 : lkn vs3 [id]) by (apply lkn_prev; auto).
  assert (Q3 : forall j, v_eprev (getv vs3 j) = v_eprev (getv vs0 j) /\ v_enext (getv vs3 j) = v_enext (getv vs0 j)).
  { intros j. destruct (Q2 j) as [<- <-]. apply edges_prev. }
  split; [|apply lkp_next; auto].
  apply lkn_next; auto. rewrite (proj2 (Q3 id)), Eid, Er2, <- Eb0, <- (proj2 (Q3 vb)). apply N3; auto. lia.
Qed.

Lemma lk_edge s d ip va vb s' arcs evs : rng s -> va < length (s_vs s) -> vb < length (s_vs s) -> lk (s_vs s) ->
  handle_edge_event s d ip va vb = Ok (s', arcs, evs) -> lk (s_vs s').
Proof.
  intros Hr Ha Hb Hlk. unfold handle_edge_event. destruct (Nat.eqb _ _).
  - destruct (remove_lav s (v_lav (getv (s_vs s) va))) as [s1|x] eqn:E1; [|discriminate]. cbn [bind].
    destruct (v_lav (getv (s_vs s) va)) as [l|]; [|discriminate]. cbn [of_option bind].
    destruct (lav_list s1 l) as [ids|x]; [|discriminate]. cbn [bind]. intros H. apply Ok_inj, triple_inj in H.
    destruct H as (<- & _ & _). eapply links_kept_lk; [|exact Hlk].
    eapply links_kept_trans; [eapply links_kept_remove; eauto|apply links_kept_invalidate_all].
  - destruct (v_lav (getv (s_vs s) va)) as [l|]; [|discriminate]. cbn [of_option bind].
    destruct (unify s l va vb ip) as [s1 nv] eqn:Eu. pose proof (lk_unify Hr Ha Hb Hlk Eu) as H1.
    set (s2 := if _ || _ then _ else _).
    assert (E2 : s_vs s2 = s_vs s1) by (unfold s2; destruct (_ || _); auto).
    destruct (next_event s2 nv) as [o|x]; [|discriminate]. cbn [bind]. intros H. apply Ok_inj, triple_inj in H.
    destruct H as (<- & _ & _). rewrite E2. auto.
Qed.

Lemma find_split_same s ip opp ls x y : rng s -> lk (s_vs s) -> (forall l, In l ls -> l < length (s_ls s)) ->
  find_split_lavs s ip opp ls = Ok (Some (x, y)) ->
  samel opp (v_eprev (getv (s_vs s) x)) /\ samel (v_enext (getv (s_vs s) y)) opp.
Proof.
  intros Hr [Hn Hp] Hl H. destruct (find_split_lavs_in H) as (l & w & H1 & H2 & H3).
  pose proof (lav_iter_range Hr (Hl l H1) H2) as Hv.
  destruct H3 as [(-> & -> & E1 & E2)|(-> & -> & E1 & E2)]; apply veq_R in E1, E2.
  - assert (S : samel opp (v_eprev (getv (s_vs s) w))) by (split; auto). split; auto.
    apply samel_sym. eapply samel_trans; [exact S|]. apply samel_sym. apply Hp; auto.
  - assert (S : samel opp (v_enext (getv (s_vs s) w))) by (split; auto). split; [|apply samel_sym; auto].
    eapply samel_trans; [exact S|]. apply Hn; auto.
Qed.

Lemma lk_split s d ip v opp s' arcs evs : rng s -> v < length (s_vs s) -> lk (s_vs s) ->
  handle_split_event s d ip v opp = Ok (s', arcs, evs) -> lk (s_vs s').
Proof.
  intros Hr Hv Hlk. unfold handle_split_event. pose proof Hr as (R1 & R2 & R3).
  destruct (find_split_lavs s ip opp (s_act s)) as [[[x y]|]|ex] eqn:Ef; [| |discriminate]; cbn [bind].
  2: { intros H. apply Ok_inj, triple_inj in H. destruct H as (<- & <- & <-). auto. }
  destruct (@find_split_lavs_rng _ s ip opp (s_act s) x y) as [Hx Hy]; auto.
  destruct (@find_split_same s ip opp (s_act s) x y) as [Sx Sy]; auto.
  cbv zeta. set (n1 := length (s_vs s)).
  set (v1 := mk_vertex n1 ip (v_eprev (getv (s_vs s) v)) opp None true).
  set (v2 := mk_vertex (S n1) ip opp (v_enext (getv (s_vs s) v)) None true).
  set (vs0 := s_vs s ++ [v1; v2]).
  set (vs1 := modv n1 (with_prev (v_prev (getv vs0 v))) vs0).
  set (vs2 := modv n1 (with_next x) vs1).
  set (vs3 := modv (v_prev (getv vs2 v)) (with_next n1) vs2).
  set (vs4 := modv x (with_prev n1) vs3).
  set (vs5 := modv (S n1) (with_prev y) vs4).
  set (vs6 := modv (S n1) (with_next (v_next (getv vs5 v))) vs5).
  set (vs7 := modv (v_next (getv vs6 v)) (with_prev (S n1)) vs6).
  set (vs8 := modv y (with_next (S n1)) vs7).
  assert (L0 : length vs0 = S (S n1)) by (unfold vs0; rewrite app_length; simpl; unfold n1; lia).
  assert (L1 : length vs1 = S (S n1)) by (unfold vs1; rewrite modv_length; auto).
  assert (L2 : length vs2 = S (S n1)) by (unfold vs2; rewrite modv_length; auto).
  assert (L3 : length vs3 = S (S n1)) by (unfold vs3; rewrite modv_length; auto).
  assert (L4 : length vs4 = S (S n1)) by (unfold vs4; rewrite modv_length; auto).
  assert (L5 : length vs5 = S (S n1)) by (unfold vs5; rewrite modv_length; auto).
  assert (L6 : length vs6 = S (S n1)) by (unfold vs6; rewrite modv_length; auto).
  assert (L7 : length vs7 = S (S n1)) by (unfold vs7; rewrite modv_length; auto).
  destruct (@lk_app (s_vs s) [v1; v2] _ Hlk R1) as [N0 P0]. simpl in N0, P0. fold vs0 n1 in N0, P0.
  fold n1 in Hx, Hy, Hv.
  assert (Nv : forall X, (forall j, In j X -> j = n1 \/ j = S n1) -> ~ In v X).
  { intros X HX Hin. destruct (HX v Hin); lia. }
  assert (G1 : getv vs0 n1 = v1).
  { unfold getv, vs0, n1. rewrite app_nth2 by lia. rewrite Nat.sub_diag. reflexivity. }
  assert (G2 : getv vs0 (S n1) = v2).
  { unfold getv, vs0, n1. rewrite app_nth2 by lia. replace (S (length (s_vs s)) - length (s_vs s)) with 1 by lia. reflexivity. }
  assert (Gv : getv vs0 v = getv (s_vs s) v) by (apply getv_app1; auto).
  assert (Gx : getv vs0 x = getv (s_vs s) x) by (apply getv_app1; auto).
  assert (Gy : getv vs0 y = getv (s_vs s) y) by (apply getv_app1; auto).
  set (edges vs := forall j, v_eprev (getv vs j) = v_eprev (getv vs0 j) /\ v_enext (getv vs j) = v_enext (getv vs0 j)).
  assert (QP : forall vs i n, edges vs -> edges (modv i (with_prev n) vs)).
  { intros vs i n H j. destruct (H j) as [<- <-]. apply edges_prev. }
  assert (QN : forall vs i n, edges vs -> edges (modv i (with_next n) vs)).
  { intros vs i n H j. destruct (H j) as [<- <-]. apply edges_next. }
  assert (Q0 : edges vs0) by (intros j; auto).
  assert (Q1 : edges vs1) by (apply QP; auto). assert (Q2 : edges vs2) by (apply QN; auto).
  assert (Q3 : edges vs3) by (apply QN; auto). assert (Q4 : edges vs4) by (apply QP; auto).
  assert (Q5 : edges vs5) by (apply QP; auto). assert (Q6 : edges vs6) by (apply QN; auto).
  assert (Q7 : edges vs7) by (apply QP; auto).
  assert (PP : forall vs X, edges vs -> lkp vs X -> (forall j, In j X -> j = n1 \/ j = S n1) -> length vs = S (S n1) ->
     samel (v_enext (getv vs (v_prev (getv vs v)))) (v_eprev (getv (s_vs s) v))).
  { intros vs X Q H HX HL. rewrite <- Gv, <- (proj1 (Q v)). apply H; auto. lia. }
  assert (NN : forall vs X, edges vs -> lkn vs X -> (forall j, In j X -> j = n1 \/ j = S n1) -> length vs = S (S n1) ->
     samel (v_enext (getv (s_vs s) v)) (v_eprev (getv vs (v_next (getv vs v))))).
  { intros vs X Q H HX HL. rewrite <- Gv, <- (proj2 (Q v)). apply H; auto. lia. }
  assert (X2 : forall j, In j [n1; S n1] -> j = n1 \/ j = S n1) by (intros j [<-|[<-|[]]]; auto).
  assert (X1 : forall j, In j [S n1] -> j = n1 \/ j = S n1) by (intros j [<-|[]]; auto).
  assert (X0 : forall j, In j [] -> j = n1 \/ j = S n1) by (intros j []).
  assert (E1 : v_eprev v1 = v_eprev (getv (s_vs s) v) /\ v_enext v1 = opp) by (split; reflexivity).
  assert (E2 : v_eprev v2 = opp /\ v_enext v2 = v_enext (getv (s_vs s) v)) by (split; reflexivity).
  clearbody v1 v2. destruct E1 as [E11 E12], E2 as [E21 E22].
  assert (P1 : lkp vs1 [S n1]). { apply lkp_prev; auto. rewrite G1, E11. eapply PP; eauto. }
  assert (N1 : lkn vs1 [n1; S n1]) by (apply lkn_prev; auto).
  assert (N2 : lkn vs2 [S n1]). { apply lkn_next; auto. rewrite (proj2 (Q1 n1)), (proj1 (Q1 x)), G1, E12, Gx. auto. }
  assert (P2 : lkp vs2 [S n1]) by (apply lkp_next; auto).
  assert (N3 : lkn vs3 [S n1]). { apply lkn_next; [apply lkn_weak; auto|]. rewrite (proj1 (Q2 n1)), G1, E11. eapply PP; eauto. }
  assert (P3 : lkp vs3 [S n1]) by (apply lkp_next; auto).
  assert (P4 : lkp vs4 [S n1]). { apply lkp_prev; [apply lkp_weak; auto|]. rewrite (proj2 (Q3 n1)), (proj1 (Q3 x)), G1, E12, Gx. auto. }
  assert (N4 : lkn vs4 [S n1]) by (apply lkn_prev; auto).
  assert (P5 : lkp vs5 []). { apply lkp_prev; auto. rewrite (proj2 (Q4 y)), (proj1 (Q4 (S n1))), G2, E21, Gy. auto. }
  assert (N5 : lkn vs5 [S n1]) by (apply lkn_prev; auto).
  assert (N6 : lkn vs6 []). { apply lkn_next; auto. rewrite (proj2 (Q5 (S n1))), G2, E22. eapply NN; eauto. }
  assert (P6 : lkp vs6 []) by (apply lkp_next; auto).
  assert (P7 : lkp vs7 []). { apply lkp_prev; [apply lkp_weak; auto|]. rewrite (proj2 (Q6 (S n1))), G2, E22. eapply NN; eauto. }
  assert (N7 : lkn vs7 []) by (apply lkn_prev; auto).
  assert (K8 : lk vs8).
  { split; [|apply lkp_next; auto]. apply lkn_next; [apply lkn_weak; auto|].
    rewrite (proj2 (Q7 y)), (proj1 (Q7 (S n1))), G2, E21, Gy. auto. }
  clearbody vs8. clear - K8.
  destruct (remove_lav (with_vs vs8 s) (v_lav (getv (s_vs s) v))) as [s2|ex] eqn:E2; [|discriminate]. cbn [bind].
  pose proof (links_kept_remove E2) as H2. simpl in H2.
  match goal with |- bind ?p _ = _ -> _ => set (pick := p) end.
  assert (Hp : forall s3 new, pick = Ok (s3, new) -> links_kept (s_vs s2) (s_vs s3)).
  { intros s3 new. unfold pick. clear pick. match goal with |- (if ?c then _ else _) = _ -> _ => destruct c end.
    - destruct (remove_lav s2 (v_lav (getv vs8 x))) as [s2'|ex] eqn:E3; [|discriminate]. cbn [bind].
      destruct (from_chain s2' n1) as [[s4 l1]|ex] eqn:E4; [|discriminate]. cbn [bind].
      intros H. apply Ok_inj in H. injection H as <- <-.
      eapply links_kept_trans; [eapply links_kept_remove; eauto|eapply links_kept_from_chain; eauto].
    - destruct (from_chain s2 n1) as [[s4 l1]|ex] eqn:E4; [|discriminate]. cbn [bind].
      destruct (from_chain s4 (S n1)) as [[s5 l2]|ex] eqn:E5; [|discriminate]. cbn [bind].
      intros H. apply Ok_inj in H. injection H as <- <-.
      eapply links_kept_trans; eapply links_kept_from_chain; eauto. }
  destruct pick as [[s3 new]|ex]; [|discriminate]. cbn [bind]. specialize (Hp s3 new eq_refl).
  destruct (fold_left settle_lav new _) as [[[s4 verts] snks]|ex] eqn:Es; [|discriminate]. cbn [bind].
  pose proof (links_kept_settle eq_refl Es) as H4.
  destruct (next_events s4 verts) as [es|ex]; [|discriminate]. cbn [bind].
  intros H. apply Ok_inj, triple_inj in H. destruct H as (<- & _ & _).
  eapply links_kept_lk; [|exact K8].
  eapply links_kept_trans; [exact H2|]. eapply links_kept_trans; [exact Hp|].
  eapply links_kept_trans; [exact H4|]. apply links_kept_invalidate.
Qed.

(** ** the invariant *)
Section Inv.
Variable contours : list (list (@edge2 RA)).
Let E := concat contours.

(** what a reflex vertex needs for its split events to be exact *)
Definition plainv (v : @lavertex RA) : Prop :=
  ndist (v_eprev v) (v_point v) = 0%R /\
  (-1 + 1 / 100000 <= ncross (enorm (v_eprev v)) (enorm (v_enext v)) < 0)%R /\
  forall f q, In f E -> cross_in (v_eprev v) f q \/ cross_in (v_enext v) f q ->
     (q = v_point v \/ / 10 ^ 35 < (vx q - vx (v_point v)) * (vx q - vx (v_point v)) + (vy q - vy (v_point v)) * (vy q - vy (v_point v)))%R.

Definition vert_inv (v : @lavertex RA) : Prop :=
  equi v /\ In (v_eprev v) E /\ In (v_enext v) E /\ (v_reflex v = true -> plainv v).

Definition sinv s : Prop :=
  rng s /\ lk (s_vs s) /\ (forall i, i < length (s_vs s) -> vert_inv (getv (s_vs s) i)) /\
  (forall oe, In oe (s_orig s) -> In (oe_edge oe) E /\ directed (oe_edge oe)).

Definition einv s (e : @event RA) : Prop :=
  ev_rng s e /\
  match e with
  | EdgeEv d ip va vb => ndist (v_eprev (getv (s_vs s) va)) ip = ndist (v_enext (getv (s_vs s) vb)) ip /\ equidistant E ip d
  | SplitEv d ip v opp => In opp E /\ directed opp /\ ndist (v_eprev (getv (s_vs s) v)) ip = ndist opp ip /\
      ndist opp ip = ndist (v_enext (getv (s_vs s) v)) ip /\ equidistant E ip d
  | DormerEv _ _ _ _ _ _ _ _ _ => False
  end.

Lemma vert_inv_kept v w : body_kept v w -> vert_inv w -> vert_inv v.
Proof.
  intros Hb (H1 & H2 & H3 & H4). split; [eapply equi_kept; eauto|]. destruct Hb as (E0 & E1 & E2 & E3 & E4).
  unfold plainv. rewrite E0, E1, E2, E3. auto.
Qed.

Lemma einv_mono s s' e : grows (s_vs s) (s_vs s') -> einv s e -> einv s' e.
Proof.
  intros [Hl Hg] [H1 H2]. split; [eapply ev_rng_mono; eauto|].
  destruct e as [d ip va vb|d ip v opp|d dp vp dn vn de ipe va vb]; auto; simpl in H1.
  - destruct H1 as [Ha Hb]. destruct (Hg va Ha) as [(_ & -> & _) _]. destruct (Hg vb Hb) as [(_ & _ & -> & _) _]. auto.
  - destruct (Hg v H1) as [(_ & -> & -> & _) _]. auto.
Qed.

Lemma equidistant_intro e1 e2 e3 q d e : In e1 E -> In e2 E -> In e3 E -> e1 <> e2 -> e2 <> e3 -> e1 <> e3 ->
  directed e1 -> directed e2 -> directed e3 -> ndist e1 q = ndist e2 q -> ndist e2 q = ndist e3 q ->
  In e [e1; e2; e3] -> d = line_distance (Line2_edge e) q -> equidistant E q d.
Proof.
  intros. exists e1, e2, e3. rewrite !edge_dist_n by auto. do 6 (split; [auto|]). split; auto. split; auto.
  subst d. destruct H10 as [<-|[<-|[<-|[]]]]; rewrite line_distance_abs, edge_dist_n by auto; congruence.
Qed.

Lemma cand_einv s id e : sinv s -> id < length (s_vs s) -> candidate s id e -> einv s e.
Proof.
  intros (Hr & [Hn Hp] & Hv & Ho) Hid Hc. destruct Hr as (R1 & _). destruct (R1 id Hid) as (N1 & N2 & _).
  destruct Hc as [p v Hi|p v Hi|oe e' Hre Hoe He'].
  - apply line_intersect_R in Hi. destruct Hi as (Hi & O1 & O2). split; [simpl; auto|].
    destruct (Hv id Hid) as (Q1 & I11 & I12 & _). destruct (Hv _ N2) as (Q2 & I21 & I22 & _).
    pose proof (Hp id Hid (fun x => x)) as Hs. unfold prv_of in Hs.
    destruct (@edge_point (getv (s_vs s) (v_prev (getv (s_vs s) id))) (getv (s_vs s) id) p) as (D1 & D2 & D3 & D4 & D5); auto.
    { intros K. apply Hi. unfold v. simpl in *. lra. }
    unfold v in *. split; [congruence|]. pose proof (samel_ndist p Hs) as Hd. destruct Hs as [Hs1 Hs2].
    eapply equidistant_intro with (e1 := v_eprev (getv (s_vs s) (v_prev (getv (s_vs s) id))))
      (e2 := v_eprev (getv (s_vs s) id)) (e3 := v_enext (getv (s_vs s) id)); auto; try congruence;
      try (apply Q1); try (apply Q2). simpl; auto.
  - apply line_intersect_R in Hi. destruct Hi as (Hi & O1 & O2). split; [simpl; auto|].
    destruct (Hv id Hid) as (Q1 & I11 & I12 & _). destruct (Hv _ N1) as (Q2 & I21 & I22 & _).
    pose proof (Hn id Hid (fun x => x)) as Hs. unfold nxt_of in Hs.
    destruct (@edge_point (getv (s_vs s) id) (getv (s_vs s) (v_next (getv (s_vs s) id))) p) as (D1 & D2 & D3 & D4 & D5); auto.
    unfold v in *. split; [congruence|]. pose proof (samel_ndist p Hs) as Hd. destruct Hs as [Hs1 Hs2].
    eapply equidistant_intro with (e1 := v_eprev (getv (s_vs s) id))
      (e2 := v_enext (getv (s_vs s) id)) (e3 := v_enext (getv (s_vs s) (v_next (getv (s_vs s) id)))); auto; try congruence;
      try (apply Q1); try (apply Q2). simpl; auto.
  - destruct (Hv id Hid) as (Q1 & I11 & I12 & Hpl). destruct (Hpl Hre) as (P1 & P2 & P3). destruct (Ho oe Hoe) as [Ho1 Ho2].
    destruct (split_point (E := E) Q1 Hre P1 Ho2 Ho1 P2 P3 He') as (b & -> & B1 & B2 & B3 & B4).
    split; [simpl; auto|]. split; auto. split; auto. split; [congruence|]. split; [congruence|].
    eapply equidistant_intro with (e1 := v_eprev (getv (s_vs s) id)) (e2 := v_enext (getv (s_vs s) id)) (e3 := oe_edge oe); auto;
      try (apply Q1).
    + intros K. rewrite K in P2. unfold ncross in P2. destruct P2 as [_ P2]. simpl in P2. lra.
    + intros K. rewrite <- K in B4. unfold same_edge in B4. rewrite Nat.eqb_refl in B4. discriminate.
    + intros K. rewrite <- K in B3. unfold same_edge in B3. rewrite Nat.eqb_refl in B3. discriminate.
    + simpl; auto.
Qed.

(** all vertices but those of the contours are convex *)
Definition convex_new (n0 : nat) s : Prop := forall i, n0 <= i -> i < length (s_vs s) -> v_reflex (getv (s_vs s) i) = false.

Lemma step_sinv n0 s out e s' arcs new : n0 <= length (s_vs s) -> sinv s -> einv s e ->
  (forall a, In a out -> equidistant E (source a) (height a)) ->
  handle_event s e = Ok (s', arcs, new) -> convex_new n0 s' ->
  sinv s' /\ (forall a, In a (out ++ arcs) -> equidistant E (source a) (height a)) /\ (forall e', In e' new -> einv s' e').
Proof.
  intros Hn0 Hs He Hout Hh Hcv. pose proof Hs as (I1 & I2 & I3 & I4). pose proof He as [V1 V2].
  destruct (handle_event_grow I1 V1 Hh) as ((G1 & G2 & G3 & G4) & Ha & Hn).
  assert (Hlk : lk (s_vs s')).
  { destruct e as [d ip va vb|d ip v opp|d dp vp dn vn de ipe va vb]; [| |destruct V2]; cbn [handle_event] in Hh.
    - destruct (_ || _); [apply Ok_inj, triple_inj in Hh; destruct Hh as (<- & _); auto|].
      destruct V1 as [Va Vb]. exact (lk_edge I1 Va Vb I2 Hh).
    - destruct (negb _); [apply Ok_inj, triple_inj in Hh; destruct Hh as (<- & _); auto|].
      exact (lk_split I1 V1 I2 Hh). }
  assert (Hv : forall i, i < length (s_vs s') -> vert_inv (getv (s_vs s') i)).
  { intros i Hi. destruct (Nat.lt_ge_cases i (length (s_vs s))) as [Hlt|Hge].
    - destruct G1 as [_ G1]. destruct (G1 i Hlt) as [Hb _]. eapply vert_inv_kept; eauto.
    - pose proof (G3 i Hge Hi) as Hc. assert (Hcx : v_reflex (getv (s_vs s') i) = false) by (apply Hcv; auto; lia).
      destruct e as [d ip va vb|d ip v opp|d dp vp dn vn de ipe va vb]; cbn [created] in Hc; [| |destruct Hc].
      + destruct V1 as [Va Vb]. destruct V2 as [V2 _]. destruct (I3 va Va) as (Qa & Ia1 & Ia2 & _). destruct (I3 vb Vb) as (Qb & Ib1 & Ib2 & _).
        split; [eapply equi_kept; [exact Hc|]; apply mk_vertex_equi; auto; [apply Qa|apply Qb]|].
        rewrite Hcx. destruct Hc as (_ & -> & -> & _). simpl. split; auto. split; auto. discriminate.
      + destruct V2 as (W1 & W2 & W3 & W4 & _). simpl in V1. destruct (I3 v V1) as (Qa & Ia1 & Ia2 & _).
        destruct Hc as [Hc|Hc].
        * split; [eapply equi_kept; [exact Hc|]; apply mk_vertex_equi; auto; apply Qa|].
          rewrite Hcx. destruct Hc as (_ & -> & -> & _). simpl. split; auto. split; auto. discriminate.
        * split; [eapply equi_kept; [exact Hc|]; apply mk_vertex_equi; auto; apply Qa|].
          rewrite Hcx. destruct Hc as (_ & -> & -> & _). simpl. split; auto. split; auto. discriminate. }
  assert (Hs' : sinv s') by (split; auto; split; auto; split; auto; rewrite G2; auto).
  split; auto. split.
  - intros a Hin. apply in_app_iff in Hin as [Hin|Hin]; auto. destruct Ha as [[-> _]|Ha]; [destruct Hin|].
    destruct e as [d ip va vb|d ip v opp|d dp vp dn vn de ipe va vb]; [| |destruct V2].
    + destruct Ha as (ids & -> & _). destruct Hin as [<-|[]]. simpl. apply V2.
    + destruct Ha as (ids & -> & _). destruct Hin as [<-|[]]. simpl. apply V2.
  - intros e' He'. destruct (scheduled_candidate (Hn e' He')) as (s0 & id & H1 & H2 & H3 & H4 & H5 & H6 & H7 & H8).
    apply (einv_mono H2). eapply cand_einv; eauto. destruct H2 as [_ H2].
    assert (B : forall i, i < length (s_vs s0) -> body_kept (getv (s_vs s') i) (getv (s_vs s0) i)) by (intros i Hi; apply H2; auto).
    split; auto. split; [|split; [|rewrite H1, G2; auto]].
    + destruct Hlk as [K1 K2]. destruct H4 as (R1 & _). split; intros i Hi _; destruct (R1 i Hi) as (N1 & N2 & _).
      * destruct (B i Hi) as (_ & _ & <- & _). destruct (B (nxt_of (s_vs s0) i) N1) as (_ & <- & _).
        rewrite H7. apply K1; auto. lia.
      * destruct (B i Hi) as (_ & <- & _). destruct (B (prv_of (s_vs s0) i) N2) as (_ & _ & <- & _).
        rewrite H8. apply K2; auto. lia.
    + intros i Hi. eapply vert_inv_kept; [apply body_kept_sym, B; auto|]. apply Hv. lia.
Qed.
End Inv.
