(** * TurnRing: the circular order of the neighbours does not depend on the orientation *)

From Coq Require Import ZArith List Lia Bool Reals Lra Psatz Permutation Sorting.Sorted.
From Verif Require Import Py PyFacts Arith ArithR PySort SortProofs GraphSpec Graph GraphProofs AngleSpec AngleProofs Euclid Lav TurnSpec SymLav TurnBase.
Set Implicit Arguments.
Unset Strict Implicit.
Local Open Scope R_scope.

Lemma turn_exists a b : 0 <= a < 2 * PI -> 0 <= b < 2 * PI -> exists t, clockwise_turn a b t.
Proof.
  intros Ha Hb. destruct (Rle_dec b a) as [H|H].
  - exists (a - b). split; [lra|]. exists 0%Z. lra.
  - exists (a - b + 2 * PI). split; [lra|]. exists (-1)%Z. lra.
Qed.

Section Order.
Variables ang ang' : Z -> R.
Variable al : R.
Variable ns : list Z.
Hypothesis range : forall w, In w ns -> 0 <= ang w < 2 * PI.
Hypothesis range' : forall w, In w ns -> 0 <= ang' w < 2 * PI.
Hypothesis inj : NoDup (map ang ns).
Hypothesis by_al : forall w, In w ns -> exists k : Z, ang' w = ang w + al + IZR k * (2 * PI).

Lemma same_turn u w t : In u ns -> In w ns -> clockwise_turn (ang u) (ang w) t -> clockwise_turn (ang' u) (ang' w) t.
Proof.
  intros Hu Hw [Ht [k Hk]]. split; auto. destruct (by_al Hu) as [i Hi], (by_al Hw) as [j Hj]. exists (k + i - j)%Z. rewrite minus_IZR, plus_IZR, Hi, Hj. lra.
Qed.

Lemma succ_same l l' u w w' : Permutation ns l -> Permutation ns l' -> StronglySorted (fun x y => ang y < ang x) l -> StronglySorted (fun x y => ang' y < ang' x) l' ->
  rotation_succ l u w -> rotation_succ l' u w' -> w = w'.
Proof.
  intros P P' S S' R1 R2.
  assert (Hin : forall x, In x l <-> In x ns) by (intros x; split; apply Permutation_in; auto using Permutation_sym).
  assert (Hin' : forall x, In x l' <-> In x ns) by (intros x; split; apply Permutation_in; auto using Permutation_sym).
  assert (Nn : NoDup ns) by (apply NoDup_map_inv in inj; auto). assert (Nl : NoDup l) by (apply (Permutation_NoDup P); auto). assert (Nl' : NoDup l') by (apply (Permutation_NoDup P'); auto).
  assert (Len : length l = length l') by (rewrite <- (Permutation_length P), <- (Permutation_length P'); auto).
  assert (Iu : In u ns) by (destruct R1 as (i & Hi & _); apply Hin; eapply nth_error_In; eauto).
  assert (Iw : In w ns) by (destruct R1 as (i & _ & Hi); apply Hin; eapply nth_error_In; eauto).
  assert (Iw' : In w' ns) by (destruct R2 as (i & _ & Hi); apply Hin'; eapply nth_error_In; eauto).
  assert (one : forall m x y, NoDup m -> rotation_succ m x y -> (length m >= 2)%nat -> y <> x).
  { intros m x y Nm (i & Hi & Hj) L ->. assert (Bi : (i < length m)%nat) by (apply nth_error_Some; congruence).
    assert (E : i = ((i + 1) mod length m)%nat) by (apply (proj1 (NoDup_nth_error m) Nm); auto; congruence).
    destruct (Nat.eq_dec (i + 1) (length m)) as [K|K]; [rewrite K, Nat.mod_same in E by lia; lia|rewrite Nat.mod_small in E by lia; lia]. }
  destruct (le_lt_dec 2 (length l)) as [L|L].
  - assert (Nw : w <> u) by (apply (one l); auto). assert (Nw' : w' <> u) by (apply (one l'); auto; lia).
    destruct (turn_exists (range Iu) (range Iw)) as [tw Tw]. destruct (turn_exists (range Iu) (range Iw')) as [tw' Tw'].
    assert (A1 : 0 < tw <= tw') by (apply (@clockwise_next ang l u w w'); auto; [intros y Hy; apply range, Hin; auto|apply Hin; auto]).
    assert (A2 : 0 < tw' <= tw).
    { apply (@clockwise_next ang' l' u w' w); auto; [intros y Hy; apply range', Hin'; auto|apply Hin'; auto|apply same_turn; auto|apply same_turn; auto]. }
    assert (tw = tw') by lra. subst tw'. apply (map_NoDup_inj inj); auto. pose proof (range Iw). pose proof (range Iw'). pose proof (range Iu).
    apply turn_value in Tw; auto. apply turn_value in Tw'; auto. rewrite Tw in Tw'. destruct (Rle_dec (ang w) (ang u)), (Rle_dec (ang w') (ang u)); lra.
  - assert (O : forall x y, In x ns -> In y ns -> x = y).
    { intros x y Hx Hy. apply Hin in Hx, Hy. destruct l as [|a [|b m]]; cbn [length] in L; [destruct Hx| |lia]. destruct Hx as [<-|[]], Hy as [<-|[]]. auto. }
    apply O; auto.
Qed.
End Order.

Section Turn.
Variables c s : R.
Hypothesis unit_cs : c * c + s * s = 1.
Notation t3 := (turned3 c s).

Lemma al_exists : exists al, 0 <= al < 2 * PI /\ c = cos al /\ s = sin al.
Proof.
  destruct (@polar_exists (V3 (A := RA) c s 0)) as (al & Hr & r & Hp & Ec & Es).
  - cbn [wx wy]. destruct (Req_dec c 0) as [K|K]; auto. right. intros K2. rewrite K, K2 in unit_cs. lra.
  - cbn [wx wy] in Ec, Es. exists al. split; auto. assert (r = 1).
    { assert (r * r = 1). { pose proof (sin2_cos2 al) as Q. unfold Rsqr in Q. rewrite Ec, Es in unit_cs. replace (r * r) with (r * cos al * (r * cos al) + r * sin al * (r * sin al)) by nra. auto. }
      assert ((r - 1) * (r + 1) = 0) by lra. apply Rmult_integral in H0 as [|]; lra. }
    subst r. split; lra.
Qed.

(** the neighbours of v are seen in different directions *)
Definition fan (V : list (vec3 RA)) (v : Z) (ns : list Z) : Prop :=
  NoDup ns /\ (forall w, In w ns -> exists th, direction V v w th) /\ forall a b, In a ns -> In b ns -> a <> b -> ~ same_ray V v a b.

Lemma angles_exist V v ns : (forall w, In w ns -> exists th, direction V v w th) -> exists ang : Z -> R, forall w, In w ns -> direction V v w (ang w).
Proof.
  induction ns as [|x ns IH]; intros H; [exists (fun _ => 0); intros w []|]. destruct IH as [ang Ha]; [intros w Hw; apply H; simpl; auto|].
  destruct (H x (or_introl eq_refl)) as [th Hx]. exists (fun w => if Z.eq_dec w x then th else ang w). intros w [<-|Hw].
  - destruct (Z.eq_dec x x); [auto|congruence].
  - destruct (Z.eq_dec w x) as [->|]; auto.
Qed.

Definition shifted (al th : R) : R := if Rlt_dec (th + al) (2 * PI) then th + al else th + al - 2 * PI.

Lemma turned_direction V v w th al : c = cos al -> s = sin al -> 0 <= al < 2 * PI -> direction V v w th -> direction (map t3 V) v w (shifted al th).
Proof.
  intros Ec Es Hal (pc & pv & d & G1 & G2 & D1 & D2 & [Hth (r & Hr & X & Y)]).
  exists (t3 pc), (t3 pv), (V3 (A := RA) (c * wx d - s * wy d) (s * wx d + c * wy d) 0). rewrite !get_map, G1, G2. cbn [res_map].
  repeat split; auto; cbn [turned3 wx wy].
  - rewrite D1, D2. change (num RA) with R in *. ring.
  - rewrite D1, D2. change (num RA) with R in *. ring.
  - unfold shifted. destruct (Rlt_dec _ _); lra.
  - unfold shifted. destruct (Rlt_dec _ _); lra.
  - exists r. split; auto. assert (E : cos (shifted al th) = cos (th + al) /\ sin (shifted al th) = sin (th + al)).
    { unfold shifted. destruct (Rlt_dec _ _); auto. replace (th + al - 2 * PI) with ((th + al) + 2 * INR 1 * PI - 2 * (2 * PI)) by (simpl; lra).
      split; [rewrite cos_minus|rewrite sin_minus]; rewrite cos_period, sin_period; replace (2 * (2 * PI)) with (0 + 2 * INR 2 * PI) by (simpl; lra); rewrite cos_period, sin_period, cos_0, sin_0; ring. }
    destruct E as [-> ->]. rewrite cos_plus, sin_plus, <- Ec, <- Es. change (num RA) with R in *. rewrite X, Y. split; ring.
Qed.

Lemma fan_angles V v ns (ang : Z -> R) : fan V v ns -> (forall w, In w ns -> direction V v w (ang w)) -> NoDup (map ang ns).
Proof.
  intros (N & _ & F) H. induction ns as [|x ns IH]; cbn [map]; constructor.
  - intros K. apply in_map_iff in K as (y & E & Hy). assert (x <> y) by (inversion N; subst; intros ->; auto). apply (F x y); simpl; auto.
    destruct (H x (or_introl eq_refl)) as (pc & px & dx & G1 & G2 & X1 & X2 & _ & r & Hr & X3 & X4).
    destruct (H y (or_intror Hy)) as (pc' & py & dy & G1' & G3 & Y1 & Y2 & _ & q & Hq & Y3 & Y4). rewrite G1 in G1'. apply Ok_inj in G1'. subst pc'.
    exists pc, px, py, (r / q). split; [apply Rdiv_lt_0_compat; auto|]. repeat split; auto; change (num RA) with R in *.
    + rewrite <- X1, <- Y1, X3, Y3, E. field. lra.
    + rewrite <- X2, <- Y2, X4, Y4, E. field. lra.
  - apply IH; [inversion N; auto|intros a b Ha Hb; apply F; simpl; auto|intros w Hw; apply H; simpl; auto].
Qed.

Lemma embedded_at g V ang emb v : NoDup (map fst g) ->
  Forall2 (fun a b => fst b = fst a /\ Permutation (snd a) (snd b) /\ StronglySorted (fun x y => ang (fst a) y < ang (fst a) x) (snd b)) g emb ->
  (forall ns, In (v, ns) g -> fan V v ns) ->
  dict_find g v = None /\ neighbours emb v = [] \/
  exists ns l, In (v, ns) g /\ neighbours emb v = l /\ Permutation ns l /\ StronglySorted (fun x y => ang v y < ang v x) l.
Proof.
  intros _ HF _. unfold neighbours. induction HF as [|[a na] [b nb] g emb (H1 & H2 & H3) HF IH]; [left; auto|]. cbn [fst snd] in *. subst b. cbn [dict_find]. destruct (Z.eqb_spec a v) as [->|K].
  - right. exists na, nb. simpl; auto.
  - destruct IH as [[E1 E2]|(ns & l & I & E & P & S)]; [left; auto|right; exists ns, l; simpl; auto].
Qed.

Lemma turned_embedding g V : NoDup (map fst g) -> (forall v ns, In (v, ns) g -> fan V v ns) ->
  exists emb emb', circular_embedding g V true = Ok emb /\ circular_embedding g (map t3 V) true = Ok emb' /\ forall u v, next_node emb' u v = next_node emb u v.
Proof.
  intros ND HF. destruct al_exists as (al & Hal & Ec & Es).
  assert (A : exists ang : Z -> Z -> R, forall v ns, In (v, ns) g -> forall w, In w ns -> direction V v w (ang v w)).
  { clear - HF ND. induction g as [|[v ns] g IH]; [exists (fun _ _ => 0); intros v ns []|].
    inversion ND as [|? ? Hv ND']; subst. destruct IH as [ang Ha]; [auto|intros; apply HF; simpl; auto|].
    destruct (@angles_exist V v ns) as [f Hf]; [apply HF; simpl; auto|]. exists (fun x => if Z.eq_dec x v then f else ang x).
    intros x m [E|Hm] w Hw.
    - injection E as <- <-. destruct (Z.eq_dec v v); [auto|congruence].
    - destruct (Z.eq_dec x v) as [->|]; [exfalso; apply Hv; change v with (fst (v, m)); apply in_map; auto|eauto]. }
  destruct A as [ang Ha]. set (ang' := fun v w => shifted al (ang v w)).
  assert (Ha' : forall v ns, In (v, ns) g -> forall w, In w ns -> direction (map t3 V) v w (ang' v w)) by (intros; apply turned_direction; eauto).
  assert (Rg : forall v ns w, In (v, ns) g -> In w ns -> 0 <= ang v w < 2 * PI) by (intros v ns w Hv Hw; destruct (Ha v ns Hv w Hw) as (? & ? & ? & _ & _ & _ & _ & B & _); auto).
  assert (Rg' : forall v ns w, In (v, ns) g -> In w ns -> 0 <= ang' v w < 2 * PI) by (intros v ns w Hv Hw; destruct (Ha' v ns Hv w Hw) as (? & ? & ? & _ & _ & _ & _ & B & _); auto).
  assert (N : forall v ns, In (v, ns) g -> NoDup (map (ang v) ns)) by (intros v ns Hv; apply (@fan_angles V v ns); eauto).
  assert (N' : forall v ns, In (v, ns) g -> NoDup (map (ang' v) ns)).
  { intros v ns Hv. pose proof (N v ns Hv) as K. pose proof (fun w => Rg v ns w Hv) as B. clear - K B Hal. induction ns as [|x ns IH]; cbn [map] in *; constructor.
    - inversion K as [|? ? K1 K2]; subst. intros G. apply K1. apply in_map_iff in G as (y & E & Hy). apply in_map_iff. exists y. split; auto.
      pose proof (B x (or_introl eq_refl)). pose proof (B y (or_intror Hy)). unfold ang', shifted in E. destruct (Rlt_dec _ _), (Rlt_dec _ _); lra.
    - inversion K; subst. apply IH; auto. intros w Hw. apply B; simpl; auto. }
  destruct (@embedding_sorted g V ang) as (emb & E & _ & F); [intros v ns Hv; split; eauto|].
  destruct (@embedding_sorted g (map t3 V) ang') as (emb' & E' & _ & F'); [intros v ns Hv; split; eauto|].
  exists emb, emb'. repeat split; auto. intros u v.
  destruct (embedded_at ND F (fun ns => HF v ns)) as [[D1 D2]|(ns & l & I & El & P & S)]; destruct (@embedded_at g V ang' emb' v ND F' (fun ns => HF v ns)) as [[D1' D2']|(ns' & l' & I' & El' & P' & S')].
  - unfold next_node. rewrite D2, D2'. auto.
  - exfalso. apply In_dict_find in I'; auto. congruence.
  - exfalso. apply In_dict_find in I; auto. congruence.
  - assert (ns' = ns) by (apply In_dict_find in I; auto; apply In_dict_find in I'; auto; congruence). subst ns'.
    assert (Nn : NoDup ns) by (apply (HF v ns I)). assert (Nl : NoDup l) by (apply (Permutation_NoDup P); auto). assert (Nl' : NoDup l') by (apply (Permutation_NoDup P'); auto).
    destruct (in_dec Z.eq_dec u ns) as [Iu|Iu].
    + assert (K : In u (neighbours emb v)) by (rewrite El; apply (Permutation_in _ P); auto). assert (K' : In u (neighbours emb' v)) by (rewrite El'; apply (Permutation_in _ P'); auto).
      destruct (@next_node_ok emb u v) as (w & W1 & W2 & _); [rewrite El; auto|auto|]. destruct (@next_node_ok emb' u v) as (w' & W1' & W2' & _); [rewrite El'; auto|auto|].
      rewrite W1, W1'. f_equal. symmetry. rewrite El in W2. rewrite El' in W2'. apply (@succ_same (ang v) (ang' v) al ns) with (l := l) (l' := l') (u := u); eauto.
      intros x Hx. unfold ang', shifted. destruct (Rlt_dec _ _); [exists 0%Z; lra|exists (-1)%Z; lra].
    + unfold next_node. rewrite El, El'.
      assert (Q : forall m, Permutation ns m -> find_pos (fun x => (x =? u)%Z) m = None).
      { intros m Pm. destruct (find_pos _ m) as [i|] eqn:Ei; auto. exfalso. apply Iu. apply find_pos_some in Ei as (x & Hx & Ex & _).
        apply Z.eqb_eq in Ex. subst x. apply (Permutation_in _ (Permutation_sym Pm)). eapply nth_error_In; eauto. }
      rewrite (Q l P), (Q l' P'). auto.
Qed.
End Turn.

(** faces only depend on the successor of each neighbour *)
Lemma trace_ext emb emb' sch : (forall u v, next_node emb' u v = next_node emb u v) ->
  forall fuel n es path faces, trace fuel sch n emb' es path faces = trace fuel sch n emb es path faces.
Proof.
  intros H. induction fuel as [|f IH]; intros n es path faces; cbn [trace]; auto. destruct es as [|e es]; auto. destruct path as [|p0 path]; auto.
  destruct (last (p0 :: path) p0) as [u v]. rewrite H. destruct (next_node emb u v); cbn [bind]; auto. destruct (dart_eqb _ _).
  - destruct (start_path _ _ _). apply IH.
  - destruct (py_in _ _ _); auto.
Qed.

Lemma graph_faces_ext emb emb' sch g nr : (forall u v, next_node emb' u v = next_node emb u v) -> graph_faces sch g emb' nr = graph_faces sch g emb nr.
Proof. intros H. unfold graph_faces, face_paths. cbv zeta. destruct (start_path sch 0 _). rewrite (@trace_ext emb emb' sch H). auto. Qed.
