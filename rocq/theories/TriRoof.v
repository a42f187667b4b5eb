(** * TriRoof: the faces over a triangle (C39) *)

From Coq Require Import Permutation Sorting.Sorted Reals Lra.
From Verif Require Import Py PyFacts Arith ArithR PySort SortProofs Euclid Lav Cluster GraphSpec Graph GraphProofs AngleSpec AngleProofs
  Poly PolyFaces PolyR ClusterSpec GeoSpec BisSpec BisProofs UnitProofs TriSpec TriSkel.
Set Implicit Arguments.
Unset Strict Implicit.
Local Open Scope R_scope.

(** ** three neighbours in circular order *)

(** a positive cross product: the angle grows by less than pi, or wraps around *)
Lemma cross_angle (d1 d2 : vec3 RA) t1 t2 : polar d1 t1 -> polar d2 t2 -> 0 < wx d1 * wy d2 - wy d1 * wx d2 ->
  t1 < t2 < t1 + PI \/ t2 < t1 - PI.
Proof.
  intros ((A1 & A2) & r1 & R1 & X1 & Y1) ((B1 & B2) & r2 & R2 & X2 & Y2) H. rewrite X1, Y1, X2, Y2 in H.
  assert (E : r1 * cos t1 * (r2 * sin t2) - r1 * sin t1 * (r2 * cos t2) = r1 * r2 * sin (t2 - t1)) by (rewrite sin_minus; ring).
  change (0 < r1 * cos t1 * (r2 * sin t2) - r1 * sin t1 * (r2 * cos t2)) in H. rewrite E in H.
  assert (P : 0 < r1 * r2) by (apply Rmult_lt_0_compat; auto).
  assert (S : 0 < sin (t2 - t1)) by (apply Rmult_lt_reg_l with (r1 * r2); lra).
  pose proof PI_RGT_0 as HP.
  destruct (Rlt_dec 0 (t2 - t1)) as [L|L].
  - left. split; [lra|]. apply Rnot_le_lt. intros K. pose proof (@sin_le_0 (t2 - t1)). lra.
  - right. apply Rnot_le_lt. intros K. pose proof (@sin_ge_0 (t1 - t2)) as G. replace (t1 - t2) with (- (t2 - t1)) in G by ring.
    rewrite sin_neg in G. lra.
Qed.

(** the position of v seen from c *)
Definition rel (vl : list (vec3 RA)) (c v : Z) (d : vec3 RA) : Prop :=
  exists pc pv, py_get vl c = Ok pc /\ py_get vl v = Ok pv /\ wx d = wx pv - wx pc /\ wy d = wy pv - wy pc.

Lemma sorted_three (vl : list (vec3 RA)) v x y z dx dy dz ns : x <> y -> y <> z -> x <> z ->
  rel vl v x dx -> rel vl v y dy -> rel vl v z dz -> Permutation ns [x; y; z] ->
  0 < wx dx * wy dy - wy dx * wx dy -> 0 < wx dy * wy dz - wy dy * wx dz -> wx dx * wy dz - wy dx * wx dz <> 0 ->
  exists l, py_sorted (angle_lt vl v) ns = Ok l /\ (l = [z; y; x] \/ l = [y; x; z] \/ l = [x; z; y]).
Proof.
  intros Nxy Nyz Nxz (pc & px & Gc & Gx & X1 & X2) (pc' & py & Gc' & Gy & Y1 & Y2) (pc'' & pz & Gc'' & Gz & Z1 & Z2) Hp Cxy Cyz Cxz.
  rewrite Gc in Gc', Gc''. apply Ok_inj in Gc', Gc''. subst pc' pc''.
  assert (Tx : exists t, polar dx t).
  { apply polar_exists. destruct (Req_dec (wx dx) 0) as [H|H]; auto. right. intros H'. rewrite H, H' in Cxy. simpl in Cxy. lra. }
  assert (Ty : exists t, polar dy t).
  { apply polar_exists. destruct (Req_dec (wx dy) 0) as [H|H]; auto. right. intros H'. rewrite H, H' in Cxy. simpl in Cxy. lra. }
  assert (Tz : exists t, polar dz t).
  { apply polar_exists. destruct (Req_dec (wx dz) 0) as [H|H]; auto. right. intros H'. rewrite H, H' in Cyz. simpl in Cyz. lra. }
  destruct Tx as (tx & Tx), Ty as (ty & Ty), Tz as (tz & Tz).
  set (ang := fun w => if (w =? x)%Z then tx else if (w =? y)%Z then ty else tz).
  assert (Ax : ang x = tx) by (unfold ang; rewrite Z.eqb_refl; auto).
  assert (Ay : ang y = ty).
  { unfold ang. destruct (Z.eqb_spec y x); [congruence|]. rewrite Z.eqb_refl; auto. }
  assert (Az : ang z = tz).
  { unfold ang. destruct (Z.eqb_spec z x); [congruence|]. destruct (Z.eqb_spec z y); [congruence|]. auto. }
  clearbody ang.
  pose proof (cross_angle Tx Ty Cxy) as Exy. pose proof (cross_angle Ty Tz Cyz) as Eyz.
  assert (Exz : (tx < tz < tx + PI \/ tz < tx - PI) \/ (tz < tx < tz + PI \/ tx < tz - PI)).
  { destruct (Rlt_dec 0 (wx dx * wy dz - wy dx * wx dz)) as [L|L]; [left; exact (cross_angle Tx Tz L)|right].
    apply (cross_angle Tz Tx). simpl in *. lra. }
  assert (Rx : 0 <= tx < 2 * PI) by apply Tx. assert (Ry : 0 <= ty < 2 * PI) by apply Ty. assert (Rz : 0 <= tz < 2 * PI) by apply Tz.
  pose proof PI_RGT_0 as HP.
  assert (Dir : forall w, In w ns -> direction vl v w (ang w)).
  { intros w Hw. eapply Permutation_in in Hw; [|exact Hp]. destruct Hw as [<-|[<-|[<-|[]]]].
    - exists pc, px, dx. rewrite Ax. auto.
    - exists pc, py, dy. rewrite Ay. auto.
    - exists pc, pz, dz. rewrite Az. auto. }
  assert (ND : NoDup (map ang ns)).
  { eapply Permutation_NoDup; [apply Permutation_map, Permutation_sym; exact Hp|]. simpl. rewrite Ax, Ay, Az.
    repeat constructor; simpl; intuition lra. }
  destruct (sorted_neighbours Dir ND) as (l & Hl & Hpl & Hs). exists l. split; auto.
  assert (Hp' : Permutation [x; y; z] l) by (eapply Permutation_trans; [apply Permutation_sym; exact Hp|exact Hpl]).
  pose proof (Permutation_length Hp') as Hlen. destruct l as [|l1 [|l2 [|l3 [|]]]]; try discriminate.
  inversion Hs as [|? ? S1 F1]; subst. inversion S1 as [|? ? S2 F2]; subst. inversion F1 as [|? ? F3 F4]; subst.
  inversion F4 as [|? ? F5 _]; subst. inversion F2 as [|? ? F6 _]; subst.
  assert (I1 : In l1 [x; y; z]) by (eapply Permutation_in; [apply Permutation_sym; exact Hp'|simpl; auto]).
  assert (I2 : In l2 [x; y; z]) by (eapply Permutation_in; [apply Permutation_sym; exact Hp'|simpl; auto]).
  assert (I3 : In l3 [x; y; z]) by (eapply Permutation_in; [apply Permutation_sym; exact Hp'|simpl; auto]).
  destruct I1 as [<-|[<-|[<-|[]]]], I2 as [<-|[<-|[<-|[]]]], I3 as [<-|[<-|[<-|[]]]];
    rewrite ?Ax, ?Ay, ?Az in *; try lra; auto; exfalso; lra.
Qed.

Lemma rot3 (l : list Z) x y z : l = [z; y; x] \/ l = [y; x; z] \/ l = [x; z; y] ->
  rotation_succ l z y /\ rotation_succ l y x /\ rotation_succ l x z.
Proof.
  intros [-> | [-> | ->]]; (split; [|split]); unfold rotation_succ;
    (exists 0%nat; split; reflexivity) || (exists 1%nat; split; reflexivity) || (exists 2%nat; split; reflexivity).
Qed.

Lemma rotation3 (T : Type) (x y z : T) f : rotation_of [x; y; z] f -> f = [x; y; z] \/ f = [y; z; x] \/ f = [z; x; y].
Proof.
  intros (l1 & l2 & E & ->). destruct l1 as [|a1 [|a2 [|a3 [|]]]]; simpl in E.
  - subst l2. simpl. auto.
  - injection E as <- <-. simpl. auto.
  - injection E as <- <- <-. simpl. auto.
  - injection E as <- <- <- <-. simpl. auto.
  - discriminate.
Qed.

Lemma map_fst_dart_list z f : map fst (dart_list z f) = f.
Proof. induction f as [|x [|y t] IH]; auto. change (dart_list z (x :: y :: t)) with ((x, y) :: dart_list z (y :: t)). cbn [map fst]. f_equal. exact IH. Qed.

Lemma map_fst_darts f : map fst (darts_of f) = f.
Proof. destruct f as [|x t]; auto. unfold darts_of. apply map_fst_dart_list. Qed.

Lemma darts_of_from f v : In v f -> exists w, In (v, w) (darts_of f).
Proof. intros H. rewrite <- (map_fst_darts f) in H. apply in_map_iff in H as ((x & w) & <- & H). eauto. Qed.

Lemma NoDup_app_disj (T : Type) (l1 l2 : list T) x : NoDup (l1 ++ l2) -> In x l1 -> In x l2 -> False.
Proof. induction l1 as [|y l1 IH]; simpl; intros H H1 H2; [auto|]. inversion H; subst. destruct H1 as [->|H1]; auto. apply H4, in_or_app; auto. Qed.

Section Wheel.
Variables a b c n nr : Z.
Hypothesis Ha : (a < nr)%Z.
Hypothesis Hb : (b < nr)%Z.
Hypothesis Hc : (c < nr)%Z.
Hypothesis Hn : (nr <= n)%Z.
Hypothesis Hab : a <> b.
Hypothesis Hbc : b <> c.
Hypothesis Hac : a <> c.
Definition wheel : list dart := [(c, a); (a, b); (b, c); (n, a); (n, b); (n, c)].

Ltac zeq := repeat match goal with |- context [Z.eqb ?u ?v] =>
  first [rewrite (Z.eqb_refl u) | rewrite (proj2 (Z.eqb_neq u v)) by (lia || congruence)] end.

Lemma wheel_simple : no_parallel_edges wheel.
Proof.
  apply simpleb_ok. unfold simpleb, wheel, multiplicity, joins. cbn [forallb fst snd filter length].
  zeq. cbn [andb orb length Nat.leb]. reflexivity.
Qed.

Lemma wheel_nb sw : neighbours (build sw wheel) a = [c; b; n] /\ neighbours (build sw wheel) b = [a; c; n] /\
  neighbours (build sw wheel) c = [a; b; n] /\ neighbours (build sw wheel) n = [a; b; c].
Proof.
  rewrite !neighbours_build. unfold wheel, contrib. cbn [flat_map fst snd]. repeat split; zeq; reflexivity.
Qed.

Lemma wheel_other sw v : v <> a -> v <> b -> v <> c -> v <> n -> neighbours (build sw wheel) v = [].
Proof. intros. rewrite neighbours_build. unfold wheel, contrib. cbn [flat_map fst snd]. zeq. reflexivity. Qed.

Lemma wheel_edge x y : has_edge_between wheel x y <-> In (x, y) [(c, a); (a, b); (b, c); (n, a); (n, b); (n, c)] \/ In (y, x) [(c, a); (a, b); (b, c); (n, a); (n, b); (n, c)].
Proof.
  unfold has_edge_between. split; [intros [_ H]; exact H|]. intros H. split; [|exact H]. intros <-.
  assert (G : In (x, x) [(c, a); (a, b); (b, c); (n, a); (n, b); (n, c)]) by tauto. simpl in G.
  repeat destruct G as [G|G]; try (injection G; intros; subst; (lia || congruence)); auto.
Qed.

(** *** faces, from the circular orders at the vertices *)
Variable emb : gdict.
Hypothesis Hl : lists_neighbours wheel (neighbours emb).
Let nb := neighbours emb.
Hypothesis Sa : rotation_succ (nb a) c n /\ rotation_succ (nb a) n b /\ rotation_succ (nb a) b c.
Hypothesis Sb : rotation_succ (nb b) a n /\ rotation_succ (nb b) n c /\ rotation_succ (nb b) c a.
Hypothesis Sc : rotation_succ (nb c) b n /\ rotation_succ (nb c) n a /\ rotation_succ (nb c) a b.
Hypothesis Sn : rotation_succ (nb n) c b /\ rotation_succ (nb n) b a /\ rotation_succ (nb n) a c.

Lemma face_traced x y : rotation_succ (nb y) x n -> rotation_succ (nb n) y x -> rotation_succ (nb x) n y ->
  traced_face nb [(x, y); (y, n); (n, x)].
Proof.
  intros H1 H2 H3. split; [discriminate|]. intros [|[|[|i]]] d Hd; simpl in Hd; try discriminate;
    [injection Hd as <-; exists (y, n) | injection Hd as <-; exists (n, x) | injection Hd as <-; exists (x, y) | destruct i; discriminate];
    (split; [reflexivity|]); simpl; auto.
Qed.

Definition wheel_faces : list (list Z) := [[a; b; n]; [b; c; n]; [c; a; n]].

Theorem wheel_result sw sch : exists r, graph_faces sch (build sw wheel) emb nr = Ok r /\ Permutation r wheel_faces.
Proof.
  destruct (@graph_faces_api sw wheel emb wheel_simple Hl sch nr) as (r & Hr & Hf & Hnd & Hall). exists r. split; auto.
  assert (Hcov : forall x y, x <> y -> (x < nr)%Z -> (y < nr)%Z -> traced_face nb [(x, y); (y, n); (n, x)] ->
            (forall u v, In (u, v) [(x, y); (y, n); (n, x)] -> has_edge_between wheel u v) -> In [x; y; n] r).
  { intros x y Hxy Hx Hy Ht He. destruct (Hall _ Ht) as (f & Hfin & Hrot).
    - repeat constructor; simpl; intros G; repeat destruct G as [G|G]; try (injection G; intros; subst; lia); auto.
    - exact He.
    - exists n. split; [simpl; auto|lia].
    - destruct (Hf f Hfin) as (_ & _ & _ & Hst).
      assert (S : starts_on_footprint nr f).
      { apply Hst. exists (x, y). split; [|split; simpl; lia]. eapply Permutation_in; [apply rotation_of_perm; exact Hrot|simpl; auto]. }
      destruct S as (d & t & Hd & F1 & F2).
      assert (E : darts_of f = [(x, y); (y, n); (n, x)]).
      { destruct (rotation3 Hrot) as [E|[E|E]]; auto; rewrite E in Hd; injection Hd as <- _; simpl in *; lia. }
      replace [x; y; n] with f; auto. rewrite <- (map_fst_darts f), E. reflexivity. }
  assert (In1 : In [a; b; n] r).
  { apply Hcov; [congruence|auto|auto|apply face_traced; tauto|]. intros u v [E|[E|[E|[]]]]; injection E as <- <-; apply wheel_edge; simpl; auto 10. }
  assert (In2 : In [b; c; n] r).
  { apply Hcov; [congruence|auto|auto|apply face_traced; tauto|]. intros u v [E|[E|[E|[]]]]; injection E as <- <-; apply wheel_edge; simpl; auto 10. }
  assert (In3 : In [c; a; n] r).
  { apply Hcov; [congruence|auto|auto|apply face_traced; tauto|]. intros u v [E|[E|[E|[]]]]; injection E as <- <-; apply wheel_edge; simpl; auto 10. }
  assert (Hnn : forall f, In f r -> darts_of f <> []).
  { intros f Hfin. destruct (Hf f Hfin) as ((Hne & _) & _). exact Hne. }
  assert (Huniq : forall f g d, In f r -> In g r -> In d (darts_of f) -> In d (darts_of g) -> f = g).
  { clear - Hnd. induction r as [|h r IH]; intros f g d Hfr Hgr Hdf Hdg; [destruct Hfr|]. simpl in Hnd.
    assert (Hsep : forall k d, In k r -> In d (darts_of h) -> In d (darts_of k) -> False).
    { intros k d' Hk H1 H2. apply (NoDup_app_disj Hnd H1). apply in_concat. exists (darts_of k). split; auto. apply in_map; auto. }
    assert (Hnd' : NoDup (concat (map darts_of r))).
    { clear - Hnd. induction (darts_of h); simpl in *; auto. inversion Hnd; auto. }
    destruct Hfr as [<-|Hfr], Hgr as [<-|Hgr]; auto; [exfalso; eauto|exfalso; eauto|eapply IH; eauto]. }
  apply NoDup_Permutation.
  - clear - Hnd Hnn. induction r as [|h r IH]; [constructor|]. simpl in Hnd. constructor.
    + intros Hin. destruct (darts_of h) as [|d t] eqn:Ed; [apply (Hnn h (or_introl eq_refl)); auto|].
      apply (@NoDup_app_disj _ _ _ d Hnd); [simpl; auto|]. apply in_concat. exists (darts_of h). split; [apply in_map; auto|rewrite Ed; simpl; auto].
    + apply IH; [|intros f Hf; apply Hnn; right; auto]. clear - Hnd. induction (darts_of h); simpl in *; auto. inversion Hnd; auto.
  - unfold wheel_faces. repeat constructor; simpl; intros G; repeat destruct G as [G|G]; try (injection G; intros; congruence); auto.
  - intros f. split.
    + intros Hfin. destruct (Hf f Hfin) as (Ht & (v & Hv & Hvn) & He & _).
      assert (Hd : exists w, In (v, w) (darts_of f)) by (apply darts_of_from; auto).
      destruct Hd as (w & Hw). pose proof (He _ _ Hw) as Hew. apply wheel_edge in Hew.
      assert (Hvw : v = n /\ (w = a \/ w = b \/ w = c)).
      { simpl in Hew. destruct Hew as [[E|[E|[E|[E|[E|[E|[]]]]]]]|[E|[E|[E|[E|[E|[E|[]]]]]]]]; injection E; intros; subst; (lia || auto). }
      destruct Hvw as [-> [-> |[-> | ->]]].
      * left. eapply Huniq; [exact In1|exact Hfin| |exact Hw]. simpl. auto.
      * right. left. eapply Huniq; [exact In2|exact Hfin| |exact Hw]. simpl. auto.
      * right. right. left. eapply Huniq; [exact In3|exact Hfin| |exact Hw]. simpl. auto.
    + intros [<-|[<-|[<-|[]]]]; auto.
Qed.
End Wheel.

(** ** the embedding *)
Lemma emb_total g (vl : list (vec3 RA)) : (forall v ns, In (v, ns) g -> exists l, py_sorted (angle_lt vl v) ns = Ok l) ->
  exists emb, circular_embedding g vl true = Ok emb.
Proof.
  induction g as [|[v ns] g IH]; intros H; [exists []; auto|]. destruct IH as (emb & He); [intros; apply H; right; auto|].
  destruct (H v ns (or_introl eq_refl)) as (l & Hl). unfold circular_embedding in *. cbn [mapM fst snd]. rewrite Hl. cbn [bind]. rewrite He.
  cbn [bind]. eauto.
Qed.

Lemma emb_find g (vl : list (vec3 RA)) : forall emb v ns l, circular_embedding g vl true = Ok emb -> dict_find g v = Some ns ->
  py_sorted (angle_lt vl v) ns = Ok l -> neighbours emb v = l.
Proof.
  induction g as [|[k ks] g IH]; intros emb v ns l He Hf Hs; [discriminate|].
  unfold circular_embedding in He. cbn [mapM fst snd] in He. destruct (py_sorted (angle_lt vl k) ks) as [kl|] eqn:Ek; [|discriminate].
  cbn [bind] in He. apply bind_ok in He as (rest & Hr & He). apply Ok_inj in He. subst emb. simpl in Hf. unfold neighbours. simpl.
  destruct (Z.eqb_spec k v) as [->|Hk].
  - injection Hf as ->. rewrite Hs in Ek. apply Ok_inj in Ek. auto.
  - apply (IH rest v ns l); auto.
Qed.

Section Place.
Variables a b c n nr : Z.
Hypothesis Ha : (a < nr)%Z.
Hypothesis Hb : (b < nr)%Z.
Hypothesis Hc : (c < nr)%Z.
Hypothesis Hn : (nr <= n)%Z.
Hypothesis Hab : a <> b.
Hypothesis Hbc : b <> c.
Hypothesis Hac : a <> c.
Variable vl : list (vec3 RA).
Variables pa pb pc pn : vec3 RA.
Hypothesis Ga : py_get vl a = Ok pa.
Hypothesis Gb : py_get vl b = Ok pb.
Hypothesis Gc : py_get vl c = Ok pc.
Hypothesis Gn : py_get vl n = Ok pn.
Hypothesis O1 : 0 < orient (ground pa) (ground pb) (ground pn).
Hypothesis O2 : 0 < orient (ground pb) (ground pc) (ground pn).
Hypothesis O3 : 0 < orient (ground pc) (ground pa) (ground pn).

Definition off (p q : vec3 RA) : vec3 RA := V3 (A := RA) (wx q - wx p) (wy q - wy p) 0.

Lemma rel_off u v pu pv : py_get vl u = Ok pu -> py_get vl v = Ok pv -> rel vl u v (off pu pv).
Proof. intros Hu Hv. exists pu, pv. repeat split; auto. Qed.

Ltac lr1 := revert O1 O2 O3; unfold orient, ground, off, rvec; simpl; intros; lra.
Ltac lr := solve [lr1 | apply Rgt_not_eq; unfold Rgt; lr1 | apply Rlt_not_eq; lr1].

Lemma sort_at v ns : In (v, ns) [(a, [c; b; n]); (b, [a; c; n]); (c, [a; b; n]); (n, [a; b; c])] ->
  exists l x y z, py_sorted (angle_lt vl v) ns = Ok l /\ (l = [z; y; x] \/ l = [y; x; z] \/ l = [x; z; y]) /\
    In (v, (x, y, z)) [(a, (b, n, c)); (b, (c, n, a)); (c, (a, n, b)); (n, (a, b, c))].
Proof.
  intros H.
  assert (Na : a <> n) by lia. assert (Nb : b <> n) by lia. assert (Nc : c <> n) by lia.
  destruct H as [H|[H|[H|[H|[]]]]]; injection H as <- <-.
  - destruct (@sorted_three vl a b n c (off pa pb) (off pa pn) (off pa pc) [c; b; n]) as (l & L1 & L2); auto using rel_off; try lr.
    + rewrite perm_swap. apply perm_skip. apply perm_swap.
    + exists l, b, n, c. simpl; auto.
  - destruct (@sorted_three vl b c n a (off pb pc) (off pb pn) (off pb pa) [a; c; n]) as (l & L1 & L2); auto using rel_off; try lr.
    + rewrite perm_swap. apply perm_skip. apply perm_swap.
    + exists l, c, n, a. simpl; auto.
  - destruct (@sorted_three vl c a n b (off pc pa) (off pc pn) (off pc pb) [a; b; n]) as (l & L1 & L2); auto using rel_off; try lr.
    + apply perm_skip. apply perm_swap.
    + exists l, a, n, b. simpl; auto 10.
  - destruct (@sorted_three vl n a b c (off pn pa) (off pn pb) (off pn pc) [a; b; c]) as (l & L1 & L2); auto using rel_off; try lr.
    + exists l, a, b, c. simpl; auto 10.
Qed.

Theorem wheel_embedded sw sch : exists emb r, circular_embedding (build sw (wheel a b c n)) vl true = Ok emb /\
  graph_faces sch (build sw (wheel a b c n)) emb nr = Ok r /\ Permutation r (wheel_faces a b c n).
Proof.
  set (g := build sw (wheel a b c n)).
  assert (Na : a <> n) by lia. assert (Nb : b <> n) by lia. assert (Nc : c <> n) by lia.
  destruct (@wheel_nb a b c n nr Ha Hb Hc Hn Hab Hbc Hac sw) as (W1 & W2 & W3 & W4). fold g in W1, W2, W3, W4.
  assert (K : forall v ns, In (v, ns) g -> In (v, ns) [(a, [c; b; n]); (b, [a; c; n]); (c, [a; b; n]); (n, [a; b; c])] \/ ns = []).
  { intros v ns Hin. pose proof (In_dict_find _ _ _ (keys_build sw (wheel a b c n)) Hin) as Hd. fold g in Hd.
    assert (Hv : neighbours g v = ns) by (unfold neighbours; rewrite Hd; auto).
    destruct (Z.eq_dec v a) as [->|Va]; [left; left; congruence|]. destruct (Z.eq_dec v b) as [->|Vb]; [left; right; left; congruence|].
    destruct (Z.eq_dec v c) as [->|Vc]; [left; right; right; left; congruence|].
    destruct (Z.eq_dec v n) as [->|Vn]; [left; right; right; right; left; congruence|]. right. rewrite <- Hv.
    eapply wheel_other; eauto. }
  destruct (@emb_total g vl) as (emb & He).
  { intros v ns Hin. destruct (K v ns Hin) as [H|H]; [|subst ns; exists []; reflexivity].
    destruct (sort_at H) as (l & x & y & z & L & _). eauto. }
  assert (Hd : forall v ns, neighbours g v = ns -> ns <> [] -> dict_find g v = Some ns).
  { intros v ns H Hne. unfold neighbours in H. destruct (dict_find g v); congruence. }
  assert (Nb4 : forall v ns, In (v, ns) [(a, [c; b; n]); (b, [a; c; n]); (c, [a; b; n]); (n, [a; b; c])] -> neighbours g v = ns ->
    exists x y z, In (v, (x, y, z)) [(a, (b, n, c)); (b, (c, n, a)); (c, (a, n, b)); (n, (a, b, c))] /\
      rotation_succ (neighbours emb v) z y /\ rotation_succ (neighbours emb v) y x /\ rotation_succ (neighbours emb v) x z).
  { intros v ns Hin Hv. destruct (sort_at Hin) as (l & x & y & z & L1 & L2 & L3). exists x, y, z. split; auto.
    assert (Hne : ns <> []) by (destruct Hin as [E|[E|[E|[E|[]]]]]; injection E as <- <-; discriminate).
    rewrite (emb_find He (Hd _ _ Hv Hne) L1). apply rot3; auto. }
  assert (Four : forall v x y z x' y' z', v = a \/ v = b \/ v = c \/ v = n ->
     In (v, (x, y, z)) [(a, (b, n, c)); (b, (c, n, a)); (c, (a, n, b)); (n, (a, b, c))] ->
     In (v, (x', y', z')) [(a, (b, n, c)); (b, (c, n, a)); (c, (a, n, b)); (n, (a, b, c))] -> x = x' /\ y = y' /\ z = z').
  { clear - Hab Hbc Hac Na Nb Nc. intros v x y z x' y' z' _ H H'. 
    destruct H as [E|[E|[E|[E|[]]]]], H' as [F|[F|[F|[F|[]]]]]; injection E; injection F; intros; subst; try congruence; auto. }
  destruct (Nb4 a _ (or_introl eq_refl) W1) as (xa & ya & za & Ia & Sa).
  destruct (Nb4 b _ (or_intror (or_introl eq_refl)) W2) as (xb & yb & zb & Ib & Sb).
  destruct (Nb4 c _ (or_intror (or_intror (or_introl eq_refl))) W3) as (xc & yc & zc & Ic & Sc).
  destruct (Nb4 n _ (or_intror (or_intror (or_intror (or_introl eq_refl)))) W4) as (xn & yn & zn & In_ & Sn).
  destruct (Four a _ _ _ b n c (or_introl eq_refl) Ia) as (-> & -> & ->); [simpl; auto|].
  destruct (Four b _ _ _ c n a (or_intror (or_introl eq_refl)) Ib) as (-> & -> & ->); [simpl; auto|].
  destruct (Four c _ _ _ a n b (or_intror (or_intror (or_introl eq_refl))) Ic) as (-> & -> & ->); [simpl; auto|].
  destruct (Four n _ _ _ a b c (or_intror (or_intror (or_intror eq_refl))) In_) as (-> & -> & ->); [simpl; auto|].
  assert (Hl : lists_neighbours (wheel a b c n) (neighbours emb)).
  { eapply perm_lists_neighbours; [eapply wheel_simple; eauto|]. apply (circular_embedding_perm _ _ _ He). }
  destruct (@wheel_result a b c n nr Ha Hb Hc Hn Hab Hbc Hac emb Hl) with (sw := sw) (sch := sch) as (r & R1 & R2); try tauto.
  exists emb, r. auto.
Qed.
End Place.

(** ** faces of three corners pass the clean-up *)
Lemma spike_pass_short (vl : list (vec3 RA)) fs faces : forall fis, (forall f, In f faces -> (length f <= 3)%nat) ->
  spike_pass vl fs faces fis = Ok None.
Proof.
  intros fis H. induction fis as [|i t IH]; simpl; auto. destruct (Nat.leb_spec (length (nth i faces [])) 3) as [K|K]; auto.
  destruct (nth_in_or_default i faces []) as [D|D]; [apply H in D; lia|rewrite D in K; simpl in K; lia].
Qed.

Lemma identical_three x y z : x <> y -> y <> z -> x <> z -> fix_identical [x; y; z] = Ok [x; y; z].
Proof.
  intros H1 H2 H3. unfold fix_identical. cbn [circ_prev_next bind last removelast combine filter fst snd].
  destruct (Z.eqb_spec z x); [congruence|]. destruct (Z.eqb_spec x y); [congruence|]. destruct (Z.eqb_spec y z); [congruence|]. reflexivity.
Qed.

Lemma clean_three (vl : list (vec3 RA)) fs faces :
  (forall f, In f faces -> exists x y z, f = [x; y; z] /\ x <> y /\ y <> z /\ x <> z) ->
  (f1 <- remove_spikes vl fs faces ;; clean_faces vl fs f1) = Ok faces.
Proof.
  intros H. unfold remove_spikes. cbn [spike_loop]. rewrite spike_pass_short.
  2:{ intros f Hf. destruct (H f Hf) as (x & y & z & -> & _). simpl; lia. }
  cbn [bind]. unfold clean_faces. cbv zeta. generalize (fun v => count_b (Z.eqb v) (concat faces)). intros cn.
  induction faces as [|f t IH]; [reflexivity|]. cbn [mapM].
  destruct (H f (or_introl eq_refl)) as (x & y & z & -> & H1 & H2 & H3). unfold fix_parallel at 1. cbn [length Nat.ltb Nat.leb bind].
  rewrite identical_three by auto. cbn [bind]. rewrite IH; [reflexivity|]. intros f Hf. apply H; right; auto.
Qed.

(** ** moving a triangle *)
Definition loc (c p : vec RA) : vec RA := rvec (vx p - vx c) (vy p - vy c).

Lemma loc_inj c p q : loc c p = loc c q -> p = q.
Proof.
  intros K. destruct p as [p1 p2], q as [q1 q2], c as [c1 c2]. unfold loc, rvec in K. cbn [vx vy] in K. change (num RA) with R in *.
  injection K as K1 K2. f_equal; match goal with |- @eq _ ?a ?b => change (@eq R a b) end; lra.
Qed.

Lemma dist_loc c p q : euclid_dist (loc c p) (loc c q) = euclid_dist p q.
Proof. unfold euclid_dist, loc, rvec. cbn [vx vy]. f_equal. unfold Rsqr. simpl. ring. Qed.

Lemma orient_loc c p q r : orient (loc c p) (loc c q) (loc c r) = orient p q r.
Proof. unfold orient, loc, rvec. simpl. ring. Qed.

Lemma perimeter_loc c p q r : perimeter (loc c p) (loc c q) (loc c r) = perimeter p q r.
Proof. unfold perimeter. rewrite !dist_loc. auto. Qed.

Lemma incenter_loc c p q r : perimeter p q r <> 0 -> incenter (loc c p) (loc c q) (loc c r) = loc c (incenter p q r).
Proof.
  intros H. unfold incenter. rewrite !dist_loc, perimeter_loc. unfold loc, rvec. cbn [vx vy].
  f_equal; match goal with |- @eq _ ?a ?b => change (@eq R a b) end; revert H; unfold perimeter;
  generalize (euclid_dist p q) (euclid_dist q r) (euclid_dist r p); simpl; intros; field; auto.
Qed.

Lemma orient_incenter p q r : perimeter p q r <> 0 -> orient p q (incenter p q r) = euclid_dist p q / perimeter p q r * orient p q r.
Proof.
  intros H. unfold orient, incenter, rvec. cbn [vx vy]. revert H. unfold perimeter.
  generalize (euclid_dist p q) (euclid_dist q r) (euclid_dist r p); simpl; intros; field; auto.
Qed.

Lemma long_dist p q : long_enough p q -> p <> q /\ 0 < euclid_dist p q.
Proof.
  intros H. assert (N : p <> q). { intros ->. unfold long_enough in H. pose proof tiny_pos. simpl in H. lra. }
  split; auto. apply dist_pos; auto.
Qed.

Lemma edge_directed id i j (verts : list (vec3 RA)) center a b : py_get verts i = Ok a -> py_get verts j = Ok b -> long_enough (ground a) (ground b) ->
  exists e, Edge2_idx id i j None verts center = Ok e /\ ep1 e = loc (ground center) (ground a) /\ ep2 e = loc (ground center) (ground b) /\
    ei1 e = i /\ directed e.
Proof.
  intros Ha Hb Hl. unfold Edge2_idx. rewrite Ha, Hb. cbn [bind]. cbv zeta. eexists. split; [reflexivity|]. cbn [ep1 ep2 ei1].
  assert (E1 : forall w : vec3 RA, mkvec (A := RA) (wx (w_sub w center)) (wy (w_sub w center)) = loc (ground center) (ground w)) by reflexivity.
  rewrite !E1. split; auto. split; auto. split; auto. unfold directed. cbn [ep1 ep2 enorm].
  set (p := ground a) in *. set (q := ground b) in *. set (c := ground center).
  destruct (long_dist Hl) as (Hne & Hd). split.
  - intros K. apply Hne. apply (loc_inj K).
  - rewrite dist_loc. rewrite vnormalized_R.
    + assert (L : vlen (vsub (loc c q) (loc c p)) = euclid_dist p q).
      { rewrite vlen_R. unfold euclid_dist, loc, rvec, vsub, mkvec. simpl. f_equal. unfold Rsqr. ring. }
      rewrite L. cbn [vx vy]. unfold loc, rvec, vsub, mkvec. simpl. split; field; lra.
    + unfold long_enough in Hl. unfold loc, rvec, vsub, mkvec. simpl. simpl in Hl. 
      match goal with |- _ < ?e => replace e with ((vx q - vx p) * (vx q - vx p) + (vy q - vy p) * (vy q - vy p)) by (simpl; ring) end. exact Hl.
Qed.

Lemma zrange3 f : zrange f (f + 3) = [f; f + 1; f + 2]%Z.
Proof. unfold zrange. replace (Z.to_nat (f + 3 - f)) with 3%nat by lia. simpl. rewrite Z.add_0_r. auto. Qed.

Section Roof.
Variable verts : list (vec3 RA).
Variable first : Z.
Hypothesis Hf : (0 <= first)%Z.
Variables w0 w1 w2 : vec3 RA.
Hypothesis G0 : py_get verts first = Ok w0.
Hypothesis G1 : py_get verts (first + 1) = Ok w1.
Hypothesis G2 : py_get verts (first + 2) = Ok w2.
Notation p := (ground w0).
Notation q := (ground w1).
Notation r := (ground w2).
Hypothesis Ho : 0 < orient p q r.
Hypothesis L0 : long_enough p q.
Hypothesis L1 : long_enough q r.
Hypothesis L2 : long_enough r p.

Lemma perimeter_pos : 0 < perimeter p q r.
Proof. destruct (long_dist L0), (long_dist L1), (long_dist L2). unfold perimeter. lra. Qed.

Lemma tri_prepare holes : holes = None \/ holes = Some [] ->
  exists c e0 e1 e2, prepare verts first 3 holes None = Ok (wz w0, c, [[e0; e1; e2]]) /\ wz c = 0 /\
    triangle_contour [e0; e1; e2] (loc (ground c) p) (loc (ground c) q) (loc (ground c) r) /\
    ei1 e0 = first /\ ei1 e1 = (first + 1)%Z /\ ei1 e2 = (first + 2)%Z.
Proof.
  intros Hh. unfold prepare. rewrite G0. cbn [bind]. unfold poly_center. rewrite zrange3. cbn [sum_verts]. rewrite G0, G1, G2. cbn [bind]. cbv zeta.
  rewrite nofZ_R. cbn [RA rnd neqb]. destruct (Reqb_spec 3 (@zeroN RA)) as [K|K].
  { rewrite zeroN_R in K. lra. }
  cbn [bind]. match goal with |- context [V3 ?x ?y ?z] => set (c := V3 x y z) end.
  assert (Hz : wz c = 0) by (unfold c; cbn [wz]; apply zeroN_R). clearbody c.
  destruct (@edge_directed 0%nat first (first + 1) verts c w0 w1) as (e0 & E0 & A0 & B0 & I0 & D0); auto.
  destruct (@edge_directed 1%nat (first + 1) (first + 2) verts c w1 w2) as (e1 & E1 & A1 & B1 & I1 & D1); auto.
  destruct (@edge_directed 2%nat (first + 2) first verts c w2 w0) as (e2 & E2 & A2 & B2 & I2 & D2); auto.
  exists c, e0, e1, e2. split.
  - cbn [truthy_list]. unfold contour_edges. change (Z.to_nat (3 - 1)) with 2%nat. cbn [seq mapM opt_unit bind]. cbv zeta.
    change (Z.of_nat 0) with 0%Z. change (Z.of_nat 1) with 1%Z. rewrite Z.add_0_r. cbn [plus].
    rewrite E0. cbn [bind]. replace (first + 1 + 1)%Z with (first + 2)%Z by lia. rewrite E1. cbn [bind].
    replace (first + 3 - 1)%Z with (first + 2)%Z by lia. rewrite E2. cbn [bind app].
    destruct Hh as [-> | ->]; reflexivity.
  - split; auto. split; auto. split; [rewrite orient_loc; auto|]. split; [simpl; congruence|]. split; [simpl; congruence|].
    intros e [<-|[<-|[<-|[]]]]; auto.
Qed.

Lemma index_lt i (w : vec3 RA) : (0 <= i)%Z -> py_get verts i = Ok w -> (i < Z.of_nat (length verts))%Z.
Proof.
  intros Hi H. rewrite py_get_nonneg in H by auto. apply of_option_ok in H.
  assert (nth_error verts (Z.to_nat i) <> None) by congruence. apply nth_error_Some in H0. lia.
Qed.

Theorem tri_roof fuel sw sch dbg holes hgt tan faces h : (2 <= fuel)%nat -> holes = None \/ holes = Some [] ->
  hgt <> 0 /\ h = hgt \/ hgt = 0 /\ h = inradius p q r * tan ->
  let n := Z.of_nat (length verts) in
  let o := polygonize fuel sw sch dbg verts first 3 holes hgt tan faces None in
  o_verts o = verts ++ [apex (incenter p q r) (wz w0) h] /\
  exists fs, Permutation fs [[first; first + 1; n]; [first + 1; first + 2; n]; [first + 2; first; n]]%Z /\
    o_faces o = option_map (fun old => old ++ fs) faces /\
    o_result o = Ok (match faces with Some old => old ++ fs | None => fs end).
Proof.
  intros Hfu Hh Hhgt n o. destruct (tri_prepare Hh) as (c & e0 & e1 & e2 & Hp & Hz & Ht & I0 & I1 & I2).
  pose proof perimeter_pos as PP. set (cc := ground c) in *.
  assert (Hs : skeletonize fuel [[e0; e1; e2]] = Ok [Subtree (A := RA) (loc cc (incenter p q r)) (inradius p q r) [loc cc p; loc cc q; loc cc r]]).
  { rewrite (tri_skeleton Ht Hfu). rewrite incenter_loc by lra. unfold inradius. rewrite perimeter_loc, orient_loc. auto. }
  destruct (incenter_dist Ht) as (Hr & _). assert (Hr' : 0 < inradius p q r) by (unfold inradius in *; rewrite perimeter_loc, orient_loc in Hr; auto).
  set (node := Subtree (A := RA) (loc cc (incenter p q r)) (inradius p q r) [loc cc p; loc cc q; loc cc r]) in *.
  assert (Hta : exists ta, slope [node] hgt tan = Ok ta /\ inradius p q r * ta = h).
  { unfold slope. rewrite ntruth_R. destruct (Reqb_spec hgt 0) as [E|E]; cbn [negb].
    - exists tan. split; auto. destruct Hhgt as [[K _]|[_ K]]; [contradiction|]. symmetry; auto.
    - destruct Hhgt as [[_ K]|[K _]]; [|contradiction]. cbn [max_height map first_best bind]. unfold node. cbn [height].
      unfold max_height. cbn [map height first_best bind]. rewrite pdiv_R. destruct (Reqb_spec (inradius p q r) 0) as [E'|E']; [lra|].
      eexists. split; [reflexivity|]. rewrite K. simpl. field. lra. }
  destruct Hta as (ta & Hsl & Hta).
  assert (Hv : skeleton_node3D c ta (wz w0) node = apex (incenter p q r) (wz w0) h).
  { rewrite skeleton_node3D_R, <- Hta. unfold apex, node, cc, loc, rvec, ground. cbn [source height vx vy wx wy]. rewrite Hz.
    f_equal; match goal with |- @eq _ ?a ?b => change (@eq R a b) end; simpl; ring. }
  set (top := apex (incenter p q r) (wz w0) h) in *.
  assert (B0 := index_lt Hf G0). assert (B1 := @index_lt (first + 1) w1 ltac:(lia) G1). assert (B2 := @index_lt (first + 2) w2 ltac:(lia) G2). fold n in B0, B1, B2.
  assert (Hpts : p <> q /\ q <> r /\ r <> p) by (split; [apply long_dist; auto|split; apply long_dist; auto]).
  assert (Lne : forall x y, x <> y -> veq (loc cc x) (loc cc y) = false).
  { intros x y Hxy. apply not_true_is_false. intros K. apply veq_R in K. apply Hxy. apply (loc_inj K). }
  assert (Leq : forall x, veq (loc cc x) (loc cc x) = true) by (intros; apply veq_R; auto).
  destruct Ht as (_ & Tp & _ & _). injection Tp as T0 T1 T2.
  assert (Hg : build_graph sw first 3 [] [e0; e1; e2] [node] n = Ok (build sw (wheel first (first + 1) (first + 2) n))).
  { unfold build_graph, contour_graph_edges. rewrite zrange3. cbn [circ_prev_next bind last removelast combine mapM concat app].
    unfold build, wheel, skeleton_graph_edges, sink_index, node. f_equal. f_equal.
    cbn [enumerate length seq combine flat_map map fst snd sinks app find]. rewrite T0, T1, T2. rewrite !Leq.
    destruct Hpts as (N1 & N2 & N3). rewrite (Lne p q N1), (Lne q r N2), (Lne p r (not_eq_sym N3)). rewrite I0, I1, I2. simpl. auto. }
  destruct (@wheel_embedded first (first + 1) (first + 2) n n ltac:(lia) ltac:(lia) ltac:(lia) ltac:(lia) ltac:(lia) ltac:(lia) ltac:(lia) (verts ++ [top]) w0 w1 w2 top) with (sw := sw) (sch := sch)
    as (emb & fs & F1 & F2 & F3).
  - apply py_get_app_l; auto.
  - apply py_get_app_l; auto. lia.
  - apply py_get_app_l; auto. lia.
  - replace n with (Z.of_nat (length verts) + Z.of_nat 0)%Z by (unfold n; lia). rewrite py_get_app_node by (simpl; lia). reflexivity.
  - replace (ground top) with (incenter p q r) by reflexivity. rewrite orient_incenter by lra.
    apply Rmult_lt_0_compat; auto. apply Rdiv_lt_0_compat; auto. apply long_dist; auto.
  - replace (ground top) with (incenter p q r) by reflexivity. rewrite <- (incenter_rot p q r). rewrite orient_incenter by (rewrite perimeter_rot; lra).
    rewrite orient_rot3. apply Rmult_lt_0_compat; auto. apply Rdiv_lt_0_compat; auto; [apply long_dist; auto|rewrite perimeter_rot; auto].
  - replace (ground top) with (incenter p q r) by reflexivity. rewrite <- (incenter_rot p q r), <- (incenter_rot q r p).
    rewrite orient_incenter by (rewrite (perimeter_rot q r p), perimeter_rot; lra).
    rewrite (orient_rot3 q r p), orient_rot3. apply Rmult_lt_0_compat; auto. apply Rdiv_lt_0_compat; auto; [apply long_dist; auto|rewrite (perimeter_rot q r p), perimeter_rot; auto].
  - assert (Hrf : roof_faces sw sch (verts ++ [top]) first 3 (match holes with Some l => l | None => [] end) (concat [[e0; e1; e2]]) [node] n = Ok fs).
    { unfold roof_faces. replace (match holes with Some l => l | None => [] end) with (@nil (Z * Z)) by (destruct Hh as [-> | ->]; auto).
      cbn [concat app]. rewrite Hg. cbn [bind]. rewrite F1. cbn [bind]. rewrite F2. cbn [bind]. apply clean_three.
      intros f Hin. apply (Permutation_in _ F3) in Hin. destruct Hin as [<-|[<-|[<-|[]]]]; do 3 eexists; (split; [reflexivity|lia]). }
    unfold o, polygonize. rewrite Hp. cbn [bind]. rewrite Hs. cbn [bind]. rewrite Hsl. cbn [map]. rewrite Hv. fold n. rewrite Hrf.
    destruct faces as [old|]; cbn [o_verts o_faces o_result option_map]; (split; [auto|exists fs; auto]).
Qed.
End Roof.
