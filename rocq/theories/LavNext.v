(** * LavNext: the event a vertex schedules (bpypolyskel.py:145-210; C30), and the initial
    wavefront in index form (C33) *)

From Coq Require Import Reals Lra.
From Verif Require Import Py PyFacts Arith Euclid Heapq Lav LavSpec LavWalk LavWf LavInit HeapSpec HeapProofs
  QueueProofs ArithR PolyProofs.
Set Implicit Arguments.
Unset Strict Implicit.
Local Open Scope nat_scope.

Section Next.
Context {A : arith}.
Implicit Type s : @slav A.

(** ** C30 (specification) *)
(** the events vertex [id] may schedule: the meeting point of its bisector with that of a
    neighbour, and, if the vertex is reflex, a hit of an original edge *)
Inductive candidate s (id : nat) : @event A -> Prop :=
| cand_prev p : let v := getv (s_vs s) id in
    line_intersect (v_bis v) (v_bis (getv (s_vs s) (v_prev v))) = Some p ->
    candidate s id (EdgeEv (line_distance (Line2_edge (v_eprev v)) p) p (v_prev v) id)
| cand_next p : let v := getv (s_vs s) id in
    line_intersect (v_bis v) (v_bis (getv (s_vs s) (v_next v))) = Some p ->
    candidate s id (EdgeEv (line_distance (Line2_edge (v_enext v)) p) p id (v_next v))
| cand_split oe e : v_reflex (getv (s_vs s) id) = true -> In oe (s_orig s) ->
    split_candidate id (getv (s_vs s) id) oe = Some e -> candidate s id e.

(** where an event takes place (dormer events are not scheduled by vertices) *)
Definition event_point (e : @event A) : option (vec A) :=
  match e with
  | EdgeEv _ ip _ _ => Some ip
  | SplitEv _ ip _ _ => Some ip
  | DormerEv _ _ _ _ _ _ _ _ _ => None
  end.

Definition is_split (e : @event A) : Prop := match e with SplitEv _ _ _ _ => True | _ => False end.

(** ** proofs *)
Lemma split_candidate_shape id v oe (e : @event A) : split_candidate id v oe = Some e ->
  exists b, e = SplitEv (line_distance (Line2_edge (oe_edge oe)) b) b id (oe_edge oe) /\
    same_edge (oe_edge oe) (v_eprev v) = false /\ same_edge (oe_edge oe) (v_enext v) = false.
Proof.
  unfold split_candidate.
  destruct (same_edge (oe_edge oe) (v_eprev v)) eqn:E1; [discriminate|].
  destruct (same_edge (oe_edge oe) (v_enext v)) eqn:E2; [discriminate|]. cbn [orb].
  destruct (line_intersect _ _) as [i|]; [|discriminate].
  destruct (approximately_equals _ _); [discriminate|]. cbv zeta.
  destruct (negb (ntruth _)); [discriminate|].
  destruct (line_intersect (Line2_pv _ _) _) as [b|]; [|discriminate].
  destruct (_ && _); [|discriminate]. intros [= <-]. exists b. auto.
Qed.

Lemma in_map_filter T U (f : T -> option U) l y : In y (map_filter f l) <-> exists x, In x l /\ f x = Some y.
Proof.
  unfold map_filter. rewrite in_flat_map. split; intros (x & Hx & H); exists x; split; auto.
  - destruct (f x) as [z|]; simpl in H; [|tauto]. destruct H as [<-|[]]; auto.
  - rewrite H. left; auto.
Qed.

Lemma in_edge_candidates vs id (e : @event A) : In e (edge_candidates vs id) <->
  (exists p, line_intersect (v_bis (getv vs id)) (v_bis (getv vs (v_prev (getv vs id)))) = Some p /\
     e = EdgeEv (line_distance (Line2_edge (v_eprev (getv vs id))) p) p (v_prev (getv vs id)) id) \/
  (exists p, line_intersect (v_bis (getv vs id)) (v_bis (getv vs (v_next (getv vs id)))) = Some p /\
     e = EdgeEv (line_distance (Line2_edge (v_enext (getv vs id))) p) p id (v_next (getv vs id))).
Proof.
  unfold edge_candidates. rewrite in_app_iff.
  destruct (line_intersect _ _) as [p|]; destruct (line_intersect (v_bis (getv vs id)) (v_bis (getv vs (v_next _)))) as [p'|];
    simpl; split.
  - intros [[<-|[]]|[<-|[]]]; eauto.
  - intros [(x & [= <-] & ->)|(x & [= <-] & ->)]; auto.
  - intros [[<-|[]]|[]]; eauto.
  - intros [(x & [= <-] & ->)|(x & H & _)]; [auto|discriminate].
  - intros [[]|[<-|[]]]; eauto.
  - intros [(x & H & _)|(x & [= <-] & ->)]; [discriminate|auto].
  - intros [[]|[]].
  - intros [(x & H & _)|(x & H & _)]; discriminate.
Qed.

Lemma candidates_spec s id : (v_reflex (getv (s_vs s) id) = true -> v_lav (getv (s_vs s) id) <> None) ->
  exists evs, candidates s id = Ok evs /\ forall e, In e evs <-> candidate s id e.
Proof.
  intros Hl. unfold candidates.
  assert (G : exists sp, (if v_reflex (getv (s_vs s) id) then
               match v_lav (getv (s_vs s) id) with
               | None => Err AttributeError
               | Some _ => Ok (map_filter (split_candidate id (getv (s_vs s) id)) (s_orig s))
               end
             else Ok []) = Ok sp /\
     forall e, In e sp <-> v_reflex (getv (s_vs s) id) = true /\
       exists oe, In oe (s_orig s) /\ split_candidate id (getv (s_vs s) id) oe = Some e).
  { destruct (v_reflex (getv (s_vs s) id)) eqn:Er.
    - destruct (v_lav (getv (s_vs s) id)) eqn:El; [|destruct (Hl eq_refl); auto].
      eexists; split; [reflexivity|]. intros e. rewrite in_map_filter. tauto.
    - exists []. split; auto. intros e. split; [intros []|intros [H _]; discriminate]. }
  destruct G as (sp & -> & Hsp). simpl. eexists; split; [reflexivity|].
  intros e. rewrite in_app_iff, Hsp, in_edge_candidates. split.
  - intros [(Hr & oe & Ho & He)|[(p & Hp & ->)|(p & Hp & ->)]].
    + eapply cand_split; eauto.
    + apply cand_prev; auto.
    + apply cand_next; auto.
  - intros [p v Hp|p v Hp|oe e' Hr Ho He]; eauto 8.
Qed.

Lemma candidate_point s id e : candidate s id e -> exists p, event_point e = Some p.
Proof.
  intros [p v Hp|p v Hp|oe e' Hr Ho He]; try (eexists; reflexivity).
  destruct (split_candidate_shape He) as (b & -> & _). eexists; reflexivity.
Qed.

Lemma first_best_spec T (better : T -> T -> bool) (ok : T -> Prop) :
  (forall x y, better x y = true -> better y x = false) ->
  (forall x y z, ok x -> ok y -> ok z -> better y x = false -> better z y = false -> better z x = false) ->
  forall l b, (forall x, In x (b :: l) -> ok x) ->
  In (first_best better b l) (b :: l) /\
  forall x, In x (b :: l) -> better x (first_best better b l) = false.
Proof.
  intros Has Htr. assert (Hir : forall x, better x x = false).
  { intros x. destruct (better x x) eqn:E; auto. rewrite (Has _ _ E) in E. auto. }
  induction l as [|y l IH]; intros b Hok; simpl.
  - split; auto. intros x [<-|[]]. auto.
  - destruct (better y b) eqn:E.
    + destruct (IH y) as [I1 I2]. { intros x Hx. apply Hok. right; auto. }
      split; [destruct I1; auto|]. intros x [<-|Hx]; [|apply I2; auto].
      apply (Htr _ y). * apply Hok. right; auto. * apply Hok. right; left; auto. * apply Hok. left; auto.
      * apply I2. left; auto.
      * apply Has; auto.
    + destruct (IH b) as [I1 I2]. { intros x Hx. apply Hok. destruct Hx; [left|right; right]; auto. }
      split; [destruct I1; auto|]. intros x [<-|[<-|Hx]]; try (apply I2; simpl; auto; fail).
      apply (Htr _ b). * apply Hok. destruct I1; [left|right; right]; auto. * apply Hok. left; auto.
      * apply Hok. right; left; auto.
      * apply I2. left; auto.
      * auto.
Qed.

Lemma first_best_in T (better : T -> T -> bool) l b : In (first_best better b l) (b :: l).
Proof.
  revert b. induction l as [|y l IH]; intros b; simpl; auto.
  destruct (better y b); [destruct (IH y)|destruct (IH b)]; auto.
Qed.

Lemma nearest_in p (evs : list (@event A)) : 
  match nearest p evs with Some e => In e evs | None => evs = [] end.
Proof. destruct evs as [|e t]; simpl; auto. apply first_best_in. Qed.

(** every arithmetic: the event is a candidate, and it exists iff there is one *)
Lemma next_event_candidate s id : (v_reflex (getv (s_vs s) id) = true -> v_lav (getv (s_vs s) id) <> None) ->
  exists o, next_event s id = Ok o /\
    (o = None <-> forall e, ~ candidate s id e) /\
    (forall e, o = Some e -> candidate s id e /\
       (is_split e -> v_reflex (getv (s_vs s) id) = true)).
Proof.
  intros Hl. destruct (candidates_spec Hl) as (evs & He & Hc). unfold next_event. rewrite He. simpl.
  eexists; split; [reflexivity|]. split.
  - split.
    + intros Hn e Hx. apply Hc in Hx. pose proof (nearest_in (v_point (getv (s_vs s) id)) evs) as Hne.
      rewrite Hn in Hne. subst. destruct Hx.
    + intros Hno. destruct evs as [|e t]; auto. destruct (Hno e). apply Hc. left; auto.
  - intros e Hn. pose proof (nearest_in (v_point (getv (s_vs s) id)) evs) as Hne. rewrite Hn in Hne.
    apply Hc in Hne. split; auto. intros Hs. destruct Hne as [p v Hp|p v Hp|oe e' Hr Ho He']; auto; destruct Hs.
Qed.

(** if "<" orders the distances between the vertex and its candidates, no candidate is nearer *)
Lemma next_event_nearest s id (D : num A -> Prop) o : ordered_distances D ->
  let dist p := vlen (vsub (v_point (getv (s_vs s) id)) p) in
  (forall e p, candidate s id e -> event_point e = Some p -> D (dist p)) ->
  next_event s id = Ok o ->
  forall e p, o = Some e -> event_point e = Some p ->
  forall e' p', candidate s id e' -> event_point e' = Some p' -> nltb (dist p') (dist p) = false.
Proof.
  intros [Has Htr] dist HD Hn e p -> Hp e' p' Hc Hp'. unfold next_event in Hn.
  destruct (candidates s id) as [evs|x] eqn:E; [|discriminate]. simpl in Hn. apply Ok_inj in Hn.
  assert (Hl : v_reflex (getv (s_vs s) id) = true -> v_lav (getv (s_vs s) id) <> None).
  { intros Hr Hnone. unfold candidates in E. rewrite Hr, Hnone in E. discriminate. }
  destruct (candidates_spec Hl) as (evs' & He & Hin). rewrite E in He. apply Ok_inj in He. subst evs'.
  apply Hin in Hc. destruct evs as [|e0 t]; [destruct Hc|].
  set (q := v_point (getv (s_vs s) id)) in *.
  set (key := fun x => vlen (vsub q (ev_ip q x))).
  assert (Hk : forall x y, In x (e0 :: t) -> event_point x = Some y -> key x = dist y).
  { intros x y _ Hy. unfold key. destruct x; simpl in Hy; try discriminate; injection Hy as ->; reflexivity. }
  assert (Hn' : first_best (fun x best => nltb (key x) (key best)) e0 t = e).
  { assert (Hsome : Some (first_best (fun x best => nltb (key x) (key best)) e0 t) = Some e) by exact Hn.
    congruence. }
  destruct (@first_best_spec _ (fun x best => nltb (key x) (key best)) (fun x => D (key x))) with (l := t) (b := e0) as [G1 G2].
  - intros x y. apply Has.
  - intros x y z. apply Htr.
  - intros x Hx. pose proof (proj1 (Hin x) Hx) as Hcx. destruct (candidate_point Hcx) as [y Hy].
    rewrite (Hk x y Hx Hy). eapply HD; eauto.
  - rewrite Hn' in G1, G2. rewrite <- (Hk e p), <- (Hk e' p'); auto.
Qed.

End Next.

Lemma next_event_nearest_R (s : @slav RA) id o :
  next_event s id = Ok o -> forall e p, o = Some e -> event_point e = Some p ->
  forall e' p', candidate s id e' -> event_point e' = Some p' ->
  let v := v_point (getv (s_vs s) id) in
  (sqrt (Rsqr (vx v - vx p) + Rsqr (vy v - vy p)) <= sqrt (Rsqr (vx v - vx p') + Rsqr (vy v - vy p')))%R.
Proof.
  intros Hn e p He Hp e' p' Hc Hp' v.
  pose proof (@next_event_nearest RA s id (fun _ => True) o RA_ordered (fun _ _ _ _ => I) Hn e p He Hp e' p' Hc Hp') as G.
  apply Rltb_ge in G. rewrite !vlen_R, !vsub_R in G. simpl in G. exact G.
Qed.

(** ** C33 in index form *)
Section Init33.
Context {A : arith}.
Notation edge2 := (@edge2 A).

(** vertex j of the contour c, whose vertices are numbered from [off] on *)
Definition contour_vertex (c : list edge2) (k off j : nat) (v : @lavertex A) : Prop :=
  let m := length c in
  exists e_prev e, nth_error c ((j + m - 1) mod m) = Some e_prev /\ nth_error c j = Some e /\
    v_point v = ep1 e /\ v_eprev v = e_prev /\ v_enext v = e /\
    v_next v = off + (j + 1) mod m /\ v_prev v = off + (j + m - 1) mod m /\
    v_lav v = Some k /\ v_valid v = true.

Definition initial_wavefront (contours : list (list edge2)) (s : @slav A) : Prop :=
  length (s_vs s) = length (concat contours) /\ length (s_ls s) = length contours /\
  s_act s = seq 0 (length contours) /\
  (forall k c, nth_error contours k = Some c ->
     let off := length (concat (firstn k contours)) in
     l_head (getl (s_ls s) k) = off /\ l_len (getl (s_ls s) k) = Z.of_nat (length c) /\
     ring (fun i => v_next (getv (s_vs s) i)) (fun i => v_prev (getv (s_vs s) i)) (seq off (length c)) /\
     forall j, j < length c -> contour_vertex c k off j (getv (s_vs s) (off + j))) /\
  (length (s_orig s) = length (s_vs s) /\
   forall i, i < length (s_vs s) -> exists oe, nth_error (s_orig s) i = Some oe /\
     let v := getv (s_vs s) i in
     oe_edge oe = v_eprev v /\ oe_bprev oe = v_bis (getv (s_vs s) (v_prev v)) /\ oe_bnext oe = v_bis v).

Lemma init_slav_spec contours :
  (forall c, In c contours -> c <> []) ->
  exists s, init_slav contours = Ok s /\ initial_wavefront contours s.
Proof.
  intros Hne. destruct (init_slav_ok Hne) as (s & Hi & Hw & Ho). exists s. split; auto.
  pose proof Hw as (W1 & W2 & W3 & W4). split; auto. split; auto. split; auto. split.
  - intros k c Hk off. destruct (W4 k c Hk) as (G & pns & Hp & Hb). rewrite G. split; [auto|]. split; [auto|].
    assert (Hc : nth k contours [] = c) by (apply nth_error_nth; auto).
    assert (Hcne : c <> []) by (apply Hne; eapply nth_error_In; eauto).
    assert (Hk' : k < length contours) by (apply nth_error_Some; congruence).
    split.
    { assert (H0 : nth k contours [] <> []) by (rewrite Hc; auto).
      destruct (wavefront_lav_ok Hw Hk' H0) as ((R1 & _) & _). unfold contour_ids in R1. rewrite Hc in R1. exact R1. }
    intros j Hj. destruct (circ_prev_next_spec c) as (_ & Hs). destruct (Hs Hcne) as (pn & Hpn & Hlen & Hnth).
    assert (pn = pns) by congruence. subst pn.
    destruct (Hnth j Hj) as (ep & e & N1 & N2 & N3).
    destruct (Hb j _ N3) as (B1 & B2 & B3). destruct B3 as (S1 & S2 & S3 & S4 & S5 & S6 & S7).
    simpl in S1, S2, S3, S4, S5, S6, S7.
    fold off in B1, B2, S1, S2, S3, S4, S5, S6, S7. change (offset contours k) with off in *.
    exists ep, e. split; auto. split; auto. split; auto. split; auto. split; auto. 
    unfold nxt_of, prv_of in *. rewrite B1, B2. split; [|split; [|split; auto]].
    + f_equal. destruct (Nat.eqb_spec (S j) (length c)).
      * replace (j + 1) with (length c) by lia. rewrite Nat.mod_same; lia.
      * rewrite Nat.mod_small; lia.
    + f_equal. destruct (Nat.eqb_spec j 0).
      * subst. rewrite Nat.mod_small; lia.
      * replace (j + length c - 1) with (j - 1 + 1 * length c) by lia. rewrite Nat.mod_add, Nat.mod_small; lia.
  - rewrite Ho, map_length, seq_length, W1. split; auto. intros i Hlt.
    rewrite nth_error_map. rewrite (nth_error_nth' _ 0) by (rewrite seq_length; auto).
    rewrite seq_nth by auto. simpl. eexists; split; [reflexivity|]. auto.
Qed.
End Init33.
