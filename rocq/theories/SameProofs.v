(** * SameProofs: the roof over a convex footprint follows from its walls (C63) *)

From Coq Require Import Permutation Reals Lra.
From Verif Require Import Py PyFacts Arith ArithR Euclid Graph Lav Cluster Poly PySort ClusterSpec GeoSpec GeoLines BisSpec BisProofs
  PatSpec PolyR PolyFaces TriSpec TriSkel TriRoof ConvexSpec ConvexGeo RoofSpec ConvexMove ConvexTile ConvexPoly SameSpec SameRing.
Set Implicit Arguments.
Unset Strict Implicit.
Local Open Scope nat_scope.
Notation edges := (list (@edge2 RA)).

(** ** the same walls *)
Lemma same_sym (c d : edges) : same_walls c d -> same_walls d c.
Proof. intros K p q. symmetry. apply K. Qed.

Lemma twin (c d : edges) e : same_walls c d -> In e c -> exists e', In e' d /\ ep1 e' = ep1 e /\ ep2 e' = ep2 e.
Proof. intros K He. apply (K (ep1 e) (ep2 e)). eauto. Qed.

Lemma twin_dist (e f : @edge2 RA) p : ep1 f = ep1 e -> ep2 f = ep2 e -> edge_dist f p = edge_dist e p.
Proof. intros E1 E2. unfold edge_dist. rewrite E1, E2. auto. Qed.

Lemma twin_norm (e f : @edge2 RA) : directed e -> directed f -> ep1 f = ep1 e -> ep2 f = ep2 e -> enorm f = enorm e.
Proof.
  intros (N & X & Y) (_ & X' & Y') E1 E2. rewrite E1, E2 in *. pose proof (dist_pos N) as D.
  apply vec_ext; change (num RA) with R in *; apply (Rmult_eq_reg_r (euclid_dist (ep1 e) (ep2 e))); lra.
Qed.

Section Same.
Variables c d : edges.
Hypothesis Hc : convex_contour c.
Hypothesis Hd : convex_contour d.
Hypothesis Hsame : same_walls c d.

Lemma twin_ne e1 e2 f1 f2 : In e1 c -> In e2 c -> ep1 f1 = ep1 e1 -> ep1 f2 = ep1 e2 -> e1 <> e2 -> f1 <> f2.
Proof. intros I1 I2 E1 E2 N ->. apply N, (starts_differ Hc); auto. congruence. Qed.

Lemma same_equidistant x h : equidistant c x h -> equidistant d x h.
Proof.
  intros (e1 & e2 & e3 & I1 & I2 & I3 & N1 & N2 & N3 & D1 & D2 & D3).
  destruct (twin Hsame I1) as (f1 & F1 & A1 & B1). destruct (twin Hsame I2) as (f2 & F2 & A2 & B2). destruct (twin Hsame I3) as (f3 & F3 & A3 & B3).
  exists f1, f2, f3. rewrite !(twin_dist x A1 B1), !(twin_dist x A2 B2), !(twin_dist x A3 B3).
  do 3 (split; [auto|]). split; [apply (twin_ne I1 I2); auto|]. split; [apply (twin_ne I2 I3); auto|]. split; [apply (twin_ne I1 I3); auto|]. auto.
Qed.

Lemma same_point x h : roof_point c x h -> roof_point d x h.
Proof.
  intros [E L]. split; [apply same_equidistant; auto|]. intros f Hf. destruct (twin (same_sym Hsame) Hf) as (e & He & A & B). rewrite <- (twin_dist x A B). auto.
Qed.
End Same.

Section Carry.
Variables c d : edges.
Hypothesis Hc : convex_contour c.
Hypothesis Hd : convex_contour d.
Hypothesis Hsame : same_walls c d.
Let Hback := same_sym Hsame.

Lemma same_separated : separated c -> separated d.
Proof. intros K x h y k Hx Hy. apply (K x h y k); apply (same_equidistant Hd Hback); auto. Qed.

Lemma same_apart : apart c -> apart d.
Proof. intros K x h y k Hx Hy. apply (K x h y k); apply (same_point Hd Hback); auto. Qed.

Lemma same_simple : simple_roof c -> simple_roof d.
Proof.
  intros K x h e1 e2 e3 e4 Hx I1 I2 I3 I4 Hn (D1 & D2 & D3 & D4). apply nodup4 in Hn as (N1 & N2 & N3 & N4 & N5 & N6).
  destruct (twin Hback I1) as (f1 & F1 & A1 & B1). destruct (twin Hback I2) as (f2 & F2 & A2 & B2). destruct (twin Hback I3) as (f3 & F3 & A3 & B3). destruct (twin Hback I4) as (f4 & F4 & A4 & B4).
  apply (K x h f1 f2 f3 f4); auto; [apply (same_point Hd Hback); auto| |rewrite (twin_dist x A1 B1), (twin_dist x A2 B2), (twin_dist x A3 B3), (twin_dist x A4 B4); auto].
  pose proof (twin_ne Hd I1 I2 A1 A2 N1). pose proof (twin_ne Hd I1 I3 A1 A3 N2). pose proof (twin_ne Hd I1 I4 A1 A4 N3).
  pose proof (twin_ne Hd I2 I3 A2 A3 N4). pose proof (twin_ne Hd I2 I4 A2 A4 N5). pose proof (twin_ne Hd I3 I4 A3 A4 N6).
  repeat constructor; simpl; intuition congruence.
Qed.

Lemma same_blunt : blunt c -> blunt d.
Proof.
  intros K e1 e2 e3 I1 I2 I3 Hn. apply nodup3 in Hn as (N1 & N2 & N3).
  destruct (twin Hback I1) as (f1 & F1 & A1 & B1). destruct (twin Hback I2) as (f2 & F2 & A2 & B2). destruct (twin Hback I3) as (f3 & F3 & A3 & B3).
  assert (Dc : forall e, In e c -> directed e) by apply Hc. assert (Dd : forall e, In e d -> directed e) by apply Hd.
  rewrite <- (twin_norm (Dd e1 I1) (Dc f1 F1) A1 B1), <- (twin_norm (Dd e2 I2) (Dc f2 F2) A2 B2), <- (twin_norm (Dd e3 I3) (Dc f3 F3) A3 B3). apply K; auto.
  pose proof (twin_ne Hd I1 I2 A1 A2 N1) as M1. pose proof (twin_ne Hd I1 I3 A1 A3 N2) as M2. pose proof (twin_ne Hd I2 I3 A2 A3 N3) as M3.
  repeat constructor; simpl; intuition congruence.
Qed.

Lemma same_slope hgt tan s s' : roof_slope c hgt tan s -> roof_slope d hgt tan s' -> s = s'.
Proof.
  intros [[Z E]|(Nz & x & m & Rx & Em & Max)] [[Z' E']|(Nz' & y & k & Ry & Ek & Max')]; try congruence.
  assert (m = k). { apply Rle_antisym; [apply (Max' x), (same_point Hc Hsame); auto|apply (Max y), (same_point Hd Hback); auto]. }
  subst k. assert (m <> 0%R) by (intros ->; apply Nz; lra). apply (Rmult_eq_reg_r m); auto. lra.
Qed.
End Carry.

(** ** one run *)
Section Run.
Variable verts : list (vec3 RA).
Variable first : Z.
Hypothesis Hfirst : (0 <= first)%Z.
Variable c : edges.
Hypothesis Hfoot : footprint verts first c.
Hypothesis Hc : convex_contour c.
Let n := length c.
Let n3 : 3 <= n := n_pos Hc.
Variables (z s : R) (nodes : list (vec3 RA)).
Hypothesis Hapart : NoDup (map ground nodes).
Hypothesis Hon : forall v, In v nodes -> on_roof c z s v.
Hypothesis Hall : forall x h, roof_point c x h -> exists v, In v nodes /\ ground v = x.
Let vl := verts ++ nodes.

Lemma own_dist e : In e c -> edge_dist e (ep1 e) = 0%R /\ edge_dist e (ep2 e) = 0%R.
Proof. intros He. unfold edge_dist, signed_dist, orient, Rdiv. change (num RA) with R in *. split; ring. Qed.

Lemma pnt_nth k e : nth_error c k = Some e -> k < n /\ edge_at c k = Some e /\ ep1 e = pnt c k /\ ep2 e = pnt c (S k mod n).
Proof.
  intros He. assert (L : k < n) by (apply nth_error_Some; congruence). assert (E : edge_at c k = Some e) by (unfold edge_at; fold n; rewrite Nat.mod_small; auto).
  split; auto. split; auto. split; [unfold pnt; rewrite E; auto|]. rewrite (edge_at_succ Hc E). unfold pnt, edge_at. fold n. rewrite Nat.mod_mod by (pose proof n3; lia). auto.
Qed.

(** the vertices of the footprint are not outside *)
Lemma vertex_in e m : In e c -> m < n -> (0 <= edge_dist e (pnt c m))%R.
Proof.
  intros He Lm. apply In_nth_error in He as (j & Hj). destruct (pnt_nth Hj) as (Lj & E & P1 & P2).
  assert (Dd : directed e) by (apply Hc; eapply nth_error_In; eauto). pose proof (dist_pos (proj1 Dd)) as Dp.
  assert (O : (0 <= orient (ep1 e) (ep2 e) (pnt c m))%R).
  { rewrite P1, P2. replace (pnt c (S j mod n)) with (pnt c (j + 1)) by (rewrite Nat.add_1_r; unfold pnt, edge_at; fold n; rewrite Nat.mod_mod by (pose proof n3; lia); auto).
    assert (G : exists t, t < n /\ pnt c m = pnt c (j + t)).
    { exists ((m + n - j) mod n). split; [apply Nat.mod_upper_bound; pose proof n3; lia|]. unfold pnt, edge_at. fold n.
      rewrite Nat.add_mod_idemp_r by (pose proof n3; lia). replace (j + (m + n - j)) with (m + 1 * n) by lia. rewrite Nat.mod_add by (pose proof n3; lia). auto. }
    destruct G as (t & Lt & ->). destruct t as [|[|t]].
    - rewrite Nat.add_0_r. unfold orient. change (num RA) with R in *. lra.
    - unfold orient. change (num RA) with R in *. lra.
    - pose proof (@pnt_orient c Hc j 0 1 (S (S t)) ltac:(lia) ltac:(lia) Lt) as Q. rewrite Nat.add_0_r in Q. lra. }
  unfold edge_dist, signed_dist. unfold Rdiv. apply Rmult_le_pos; auto. apply Rlt_le, Rinv_0_lt_compat. auto.
Qed.

Definition place (i : Z) : option pt := match py_get vl i with Ok v => Some (ground v) | Err _ => None end.

Lemma place_base i : i < n -> place (first + Z.of_nat i) = Some (pnt c i).
Proof.
  intros Hi. destruct (foot_vert Hc Hfoot Hi) as (e & w & E & G & K & _). unfold place, vl. assert (F0 : (0 <= first + Z.of_nat i)%Z) by lia. rewrite (@py_get_app_l _ verts nodes _ w F0 G).
  destruct (pnt_nth E) as (_ & _ & <- & _). congruence.
Qed.

Lemma place_node i v : nth_error nodes i = Some v -> place (Z.of_nat (length verts) + Z.of_nat i) = Some (ground v).
Proof.
  intros Hv. unfold place, vl. rewrite py_get_app_node by (apply nth_error_Some; congruence). rewrite Hv. auto.
Qed.

Section Face.
Variables (k : nat) (e : @edge2 RA) (f : list Z).
Hypothesis He : nth_error c k = Some e.
Hypothesis Hface : wall_face verts nodes first n k c e f.
Hypothesis Hunder : forall p, under vl f p <-> nearest_wall c e p.

(** the corners of the face *)
Definition corner_at (p : pt) : Prop := p = ep1 e \/ p = ep2 e \/ roof_point c p (edge_dist e p).

Lemma corner_near p : corner_at p -> nearest_wall c e p.
Proof.
  destruct (pnt_nth He) as (Lk & E & P1 & P2). pose proof (nth_error_In _ _ He) as Ie. destruct (own_dist Ie) as [D1 D2].
  intros [-> |[-> | Rp]].
  - split; [rewrite D1; lra|]. intros e' He'. rewrite D1, P1. apply vertex_in; auto.
  - split; [rewrite D2; lra|]. intros e' He'. rewrite D2, P2. apply vertex_in; auto. apply Nat.mod_upper_bound. pose proof n3. lia.
  - destruct (Rp) as [(e1 & e2 & e3 & _ & _ & _ & _ & _ & _ & _ & _ & Eh) L]. split; auto. rewrite Eh. apply Rabs_pos.
Qed.

Lemma not_node v : In v nodes -> ground v <> ep1 e /\ ground v <> ep2 e \/ ~ roof_point c (ground v) (edge_dist e (ground v)).
Proof.
  intros Iv. destruct (Hon Iv) as (h & Hp & Rp & _). pose proof (nth_error_In _ _ He) as Ie. destruct (own_dist Ie) as [D1 D2]. left.
  destruct Rp as [(e1 & e2 & e3 & _ & _ & _ & _ & _ & _ & _ & _ & Eh) L]. specialize (L e Ie).
  split; intros E; rewrite E in L; [rewrite D1 in L|rewrite D2 in L]; lra.
Qed.

Lemma ring_of : exists l, map place f = map Some l /\ 3 <= length l /\ nth_error l 0 = Some (ep1 e) /\ NoDup l /\ left_ring l /\ forall p, In p l <-> corner_at p.
Proof.
  destruct Hface as (rest & Ef & Nd & Hne & Hrest & Hcorner). destruct (pnt_nth He) as (Lk & E & P1 & P2). pose proof (nth_error_In _ _ He) as Ie.
  assert (Ls : S k mod n < n) by (apply Nat.mod_upper_bound; pose proof n3; lia).
  assert (Hpl : forall i, In i f -> exists p, place i = Some p).
  { intros i. rewrite Ef. intros [<-|[<-|Hi]]; [rewrite place_base; eauto|rewrite place_base; eauto|]. apply Hrest in Hi as (j & v & -> & Hv & _). rewrite (place_node Hv). eauto. }
  assert (Hl : exists l, map place f = map Some l).
  { clear - Hpl. induction f as [|i g IH]; [exists []; auto|]. destruct (Hpl i) as (p & Hp); [left; auto|]. destruct IH as (l & Hl); [intros j Hj; apply Hpl; right; auto|].
    exists (p :: l). cbn [map]. rewrite Hp, Hl. auto. }
  destruct Hl as (l & Hl). exists l. split; auto.
  assert (Ll : length l = length f) by (apply (f_equal (@length _)) in Hl; rewrite !map_length in Hl; auto).
  assert (Hnth : forall i a p, nth_error f i = Some a -> nth_error l i = Some p -> place a = Some p).
  { intros i a p Ha Hp. apply (f_equal (fun x => nth_error x i)) in Hl. rewrite !nth_error_map, Ha, Hp in Hl. cbn [option_map] in Hl. congruence. }
  assert (Hof : forall i p, nth_error l i = Some p -> exists a, nth_error f i = Some a /\ place a = Some p).
  { intros i p Hp. destruct (nth_error f i) as [a|] eqn:Ea; [|apply nth_error_None in Ea; assert (i < length l) by (apply nth_error_Some; congruence); lia]. eauto. }
  assert (Hgo : forall a p, In a f -> place a = Some p -> In p l).
  { intros a p Ia Pa. apply In_nth_error in Ia as (i & Hi). destruct (nth_error l i) as [q|] eqn:Eq; [|apply nth_error_None in Eq; assert (i < length f) by (apply nth_error_Some; congruence); lia].
    pose proof (Hnth i a q Hi Eq) as Q. rewrite Pa in Q. injection Q as <-. eapply nth_error_In; eauto. }
  assert (L3 : 3 <= length l) by (rewrite Ll, Ef; destruct rest; [congruence|simpl; lia]).
  assert (Hin : forall p, In p l <-> corner_at p).
  { intros p. split.
    - intros Ip. apply In_nth_error in Ip as (i & Hi). destruct (Hof i p Hi) as (a & Ha & Pa). apply nth_error_In in Ha. rewrite Ef in Ha. destruct Ha as [<-|[<-|Ha]].
      + rewrite place_base in Pa by auto. left. congruence.
      + rewrite place_base in Pa by auto. right; left. congruence.
      + apply Hrest in Ha as (j & v & -> & Hv & Rp). rewrite (place_node Hv) in Pa. injection Pa as <-. right; right. auto.
    - intros [-> |[-> | Rp]].
      + apply (Hgo (first + Z.of_nat k)%Z); [rewrite Ef; left; auto|rewrite place_base, P1; auto].
      + apply (Hgo (first + Z.of_nat (S k mod n))%Z); [rewrite Ef; right; left; auto|rewrite place_base, P2; auto].
      + destruct (Hall Rp) as (v & Iv & Gv). apply In_nth_error in Iv as (j & Hj). apply (Hgo (Z.of_nat (length verts) + Z.of_nat j)%Z); [|rewrite (place_node Hj); congruence].
        rewrite Ef. right; right. apply Hrest. exists j, v. split; auto. split; auto. rewrite Gv. auto. }
  split; auto. split.
  { destruct (nth_error l 0) as [p|] eqn:Ep; [|apply nth_error_None in Ep; lia]. assert (F0 : nth_error f 0 = Some (first + Z.of_nat k)%Z) by (rewrite Ef; auto).
    pose proof (Hnth 0 _ p F0 Ep) as Q. rewrite place_base, <- P1 in Q by auto. congruence. }
  split.
  { apply NoDup_nth_error. intros i j Li Eij. destruct (nth_error l i) as [p|] eqn:Ei; [|apply nth_error_None in Ei; lia]. symmetry in Eij.
    destruct (Hof i p Ei) as (a & Ha & Pa). destruct (Hof j p Eij) as (b & Hb & Pb).
    assert (a = b); [|subst b; apply (proj1 (NoDup_nth_error f) Nd); [lia|congruence]].
    pose proof (nth_error_In _ _ Ha) as Ia. pose proof (nth_error_In _ _ Hb) as Ib. rewrite Ef in Ia, Ib.
    assert (Nb : forall m, m < n -> In m [k; S k mod n] -> forall x, In x rest -> place (first + Z.of_nat m)%Z <> place x).
    { intros m Lm Im x Ix Q. apply Hrest in Ix as (j' & v & -> & Hv & Rp). rewrite place_base, (place_node Hv) in Q by auto. injection Q as Q.
      destruct (not_node (nth_error_In _ _ Hv)) as [[Q1 Q2]|Q1]; [|auto]. destruct Im as [<-|[<-|[]]]; congruence. }
    assert (Np : pnt c k <> pnt c (S k mod n)) by (rewrite <- P1, <- P2; apply Hc; auto).
    assert (J1 : In k [k; S k mod n]) by (left; auto). assert (J2 : In (S k mod n) [k; S k mod n]) by (right; left; auto).
    destruct Ia as [<-|[<-|Ia]]; destruct Ib as [<-|[<-|Ib]]; auto; rewrite ?place_base in Pa by auto; rewrite ?place_base in Pb by auto; try congruence.
    - exfalso. apply (Nb k Lk J1 b Ib). rewrite place_base by auto. congruence.
    - exfalso. apply (Nb _ Ls J2 b Ib). rewrite place_base by auto. congruence.
    - exfalso. apply (Nb k Lk J1 a Ia). rewrite place_base by auto. congruence.
    - exfalso. apply (Nb _ Ls J2 a Ia). rewrite place_base by auto. congruence.
    - apply Hrest in Ia as (i' & v & -> & Hv & _). apply Hrest in Ib as (j' & w & -> & Hw & _). rewrite (place_node Hv) in Pa. rewrite (place_node Hw) in Pb.
      assert (i' = j'); [|subst; auto]. apply (proj1 (NoDup_nth_error (map ground nodes)) Hapart); [rewrite map_length; apply nth_error_Some; congruence|].
      rewrite !nth_error_map, Hv, Hw. cbn [option_map]. congruence. }
  split; auto. rewrite Ll in *. split.
  - rewrite Ll. intros i a b dd Li Ha Hb Hd. destruct (Hof i a Ha) as (za & Fa & Pa). destruct (Hof _ b Hb) as (zb & Fb & Pb). destruct (Hof _ dd Hd) as (zd & Fd & Pd).
    destruct (Hcorner za zb zd) as (va & vb & vd & Ga & Gb & Gd & O); [exists i; auto|]. unfold place in Pa, Pb, Pd. fold vl in Ga, Gb, Gd. rewrite Ga in Pa. rewrite Gb in Pb. rewrite Gd in Pd.
    injection Pa as <-. injection Pb as <-. injection Pd as <-. auto.
  - rewrite Ll. intros i a b w Li Ha Hb Hw. destruct (Hof i a Ha) as (za & Fa & Pa). destruct (Hof _ b Hb) as (zb & Fb & Pb).
    apply Hin, corner_near, Hunder in Hw. destruct (Hw za zb) as (va & vb & Ga & Gb & O); [exists i; auto|]. unfold place in Pa, Pb. rewrite Ga in Pa. rewrite Gb in Pb.
    injection Pa as <-. injection Pb as <-. auto.
Qed.
End Face.
End Run.

(** ** the nodes are the points of the roof *)
Section All.
Variable c : edges.
Variables (z s : R) (nodes : list (vec3 RA)).
Hypothesis Hon : forall v, In v nodes -> on_roof c z s v.
Hypothesis Hall : forall x h, roof_point c x h -> exists v, In v nodes /\ ground v = x.

Lemma node_iff v : In v nodes <-> exists h, roof_point c (ground v) h /\ wz v = (z + s * h)%R.
Proof.
  split.
  - intros Iv. destruct (Hon Iv) as (h & _ & K). eauto.
  - intros (h & Rp & W). destruct (Hall Rp) as (u & Iu & G). destruct (Hon Iu) as (h' & _ & Rp' & W'). rewrite G in Rp'. rewrite (roof_point_unique Rp' Rp) in W'.
    assert (u = v); [|subst; auto]. destruct u as [ux uy uz], v as [vx' vy' vz']. unfold ground in G. cbn [wx wy wz] in *. injection G as -> ->. rewrite W, W'. auto.
Qed.

Lemma slope_all hgt tan : slope_of c nodes hgt tan s -> roof_slope c hgt tan s.
Proof.
  intros [K|(N & v & m & Iv & Rp & E & Max)]; [left; auto|right]. split; auto. exists (ground v), m. split; auto. split; auto.
  intros y k Ry. destruct (Hall Ry) as (u & Iu & G). apply (Max u); auto. rewrite G. auto.
Qed.
End All.

Theorem convex_nodes_exact (verts : list (vec3 RA)) first (c : edges) : (0 <= first)%Z -> footprint verts first c ->
  convex_contour c -> separated c -> simple_roof c -> apart c -> blunt c ->
  forall fuel sw sch dbg holes hgt tan faces, length c + 2 * (length c - 2) < fuel -> holes = None \/ holes = Some [] ->
  let o := polygonize fuel sw sch dbg verts first (Z.of_nat (length c)) holes hgt tan faces None in
  exists w0 nodes s, py_get verts first = Ok w0 /\ o_verts o = verts ++ nodes /\ NoDup nodes /\ length nodes = length c - 2 /\ roof_slope c hgt tan s /\
    forall v, In v nodes <-> exists h, roof_point c (ground v) h /\ wz v = (wz w0 + s * h)%R.
Proof.
  intros Hf Hfoot Hc Hs Hsi Ha Hb fuel sw sch dbg holes hgt tan faces Hfu Hh o.
  destruct (convex_polygonize_all Hf Hfoot Hc Hs Hsi Ha Hb sw sch dbg hgt tan faces Hfu Hh) as (w0 & nodes & s & fs & face & H1 & H2 & H3 & H4 & H5 & H6 & H7 & _).
  exists w0, nodes, s. split; auto. split; auto. split; [apply (NoDup_map_inv _ _ H4)|]. split; auto. split; [apply (slope_all H6 H7)|]. apply (node_iff H5 H6).
Qed.

(** ** two runs *)
Lemma outlines_equal verts first (c : edges) z s nodes verts' first' (d : edges) z' s' nodes' :
  (0 <= first)%Z -> footprint verts first c -> convex_contour c -> NoDup (map ground nodes) -> (forall v, In v nodes -> on_roof c z s v) ->
  (forall x h, roof_point c x h -> exists v, In v nodes /\ ground v = x) ->
  (0 <= first')%Z -> footprint verts' first' d -> convex_contour d -> NoDup (map ground nodes') -> (forall v, In v nodes' -> on_roof d z' s' v) ->
  (forall x h, roof_point d x h -> exists v, In v nodes' /\ ground v = x) -> same_walls c d ->
  forall k e f k' e' f', nth_error c k = Some e -> nth_error d k' = Some e' -> ep1 e' = ep1 e -> ep2 e' = ep2 e ->
  wall_face verts nodes first (length c) k c e f -> (forall p, under (verts ++ nodes) f p <-> nearest_wall c e p) ->
  wall_face verts' nodes' first' (length d) k' d e' f' -> (forall p, under (verts' ++ nodes') f' p <-> nearest_wall d e' p) ->
  outline (verts ++ nodes) f = outline (verts' ++ nodes') f' /\ hd None (outline (verts ++ nodes) f) = Some (ep1 e).
Proof.
  intros F1 F2 F3 F4 F5 F6 G1 G2 G3 G4 G5 G6 Sm k e f k' e' f' He He' E1 E2 W U W' U'.
  destruct (ring_of F1 F2 F3 F4 F5 F6 He W U) as (l & L1 & L2 & L3 & L4 & L5 & L6).
  destruct (ring_of G1 G2 G3 G4 G5 G6 He' W' U') as (m & M1 & M2 & M3 & M4 & M5 & M6).
  assert (E : l = m).
  { apply ring_unique; auto; [|congruence]. intros p. rewrite L6, M6. unfold corner_at. rewrite E1, E2, (twin_dist p E1 E2).
    split; intros [K|[K|K]]; auto; right; right; [apply (same_point F3 Sm)|apply (same_point G3 (same_sym Sm))]; auto. }
  change (outline (verts ++ nodes) f) with (map (place verts nodes) f). change (outline (verts' ++ nodes') f') with (map (place verts' nodes') f').
  rewrite L1, M1, E. split; auto. rewrite <- E. destruct l; [discriminate|]. injection L3 as ->. auto.
Qed.

Theorem convex_same_roof (verts verts' : list (vec3 RA)) first first' (c d : edges) w0 w0' :
  (0 <= first)%Z -> (0 <= first')%Z -> footprint verts first c -> footprint verts' first' d ->
  convex_contour c -> convex_contour d -> same_walls c d -> separated c -> simple_roof c -> apart c -> blunt c ->
  py_get verts first = Ok w0 -> py_get verts' first' = Ok w0' -> wz w0 = wz w0' ->
  forall fuel fuel' sw sw' sch sch' dbg dbg' holes holes' hgt tan,
  length c + 2 * (length c - 2) < fuel -> length d + 2 * (length d - 2) < fuel' ->
  holes = None \/ holes = Some [] -> holes' = None \/ holes' = Some [] ->
  let o := polygonize fuel sw sch dbg verts first (Z.of_nat (length c)) holes hgt tan None None in
  let o' := polygonize fuel' sw' sch' dbg' verts' first' (Z.of_nat (length d)) holes' hgt tan None None in
  exists nodes nodes' fs fs', o_verts o = verts ++ nodes /\ o_verts o' = verts' ++ nodes' /\ Permutation nodes nodes' /\
    o_result o = Ok fs /\ o_result o' = Ok fs' /\ Permutation (map (outline (o_verts o)) fs) (map (outline (o_verts o')) fs').
Proof.
  intros F1 G1 F2 G2 F3 G3 Sm S1 S2 S3 S4 E0 E0' Ez fuel fuel' sw sw' sch sch' dbg dbg' holes holes' hgt tan Hfu Hfu' Hh Hh' o o'.
  destruct (convex_polygonize_all F1 F2 F3 S1 S2 S3 S4 sw sch dbg hgt tan None Hfu Hh) as (v0 & nodes & s & fs & face & A1 & A2 & A3 & A4 & A5 & A6 & A7 & A8 & A9 & A10 & A11).
  destruct (convex_polygonize_all G1 G2 G3 (same_separated G3 Sm S1) (same_simple G3 Sm S2) (same_apart G3 Sm S3) (same_blunt F3 G3 Sm S4)
    sw' sch' dbg' hgt tan None Hfu' Hh') as (v0' & nodes' & s' & fs' & face' & B1 & B2 & B3 & B4 & B5 & B6 & B7 & B8 & B9 & B10 & B11).
  assert (v0 = w0) by congruence. assert (v0' = w0') by congruence. subst v0 v0'.
  assert (Es : s = s') by (apply (same_slope F3 G3 Sm (hgt := hgt) (tan := tan)); [apply (slope_all A6 A7)|apply (slope_all B6 B7)]). subst s'.
  fold o in A2, A11. fold o' in B2, B11.
  exists nodes, nodes', fs, fs'. split; auto. split; auto. split.
  { apply NoDup_Permutation; [apply (NoDup_map_inv _ _ A4)|apply (NoDup_map_inv _ _ B4)|]. intros v. rewrite (node_iff A5 A6), (node_iff B5 B6), Ez.
    split; intros (h & Rp & W); exists h; split; auto; [apply (same_point F3 Sm)|apply (same_point G3 (same_sym Sm))]; auto. }
  split; auto. split; auto. rewrite A2, B2.
  (* the faces over the walls with the same ends *)
  assert (Go : forall k, k < length c -> exists k', k' < length d /\ outline (verts ++ nodes) (face k) = outline (verts' ++ nodes') (face' k') /\ hd None (outline (verts ++ nodes) (face k)) = Some (pnt c k)).
  { intros k Lk. destruct (nth_error c k) as [e|] eqn:He; [|apply nth_error_None in He; lia]. destruct (twin Sm (nth_error_In _ _ He)) as (e' & Ie & E1 & E2).
    apply In_nth_error in Ie as (k' & He'). exists k'. split; [apply nth_error_Some; congruence|]. destruct (A9 k e He) as [W U]. destruct (B9 k' e' He') as [W' U'].
    destruct (pnt_nth F3 He) as (_ & _ & <- & _).
    exact (outlines_equal F1 F2 F3 A4 A5 A6 G1 G2 G3 B4 B5 B6 Sm He He' E1 E2 W U W' U'). }
  assert (Back : forall k', k' < length d -> exists k, k < length c /\ outline (verts' ++ nodes') (face' k') = outline (verts ++ nodes) (face k) /\ hd None (outline (verts' ++ nodes') (face' k')) = Some (pnt d k')).
  { intros k Lk. destruct (nth_error d k) as [e|] eqn:He; [|apply nth_error_None in He; lia]. destruct (twin (same_sym Sm) (nth_error_In _ _ He)) as (e' & Ie & E1 & E2).
    apply In_nth_error in Ie as (k' & He'). exists k'. split; [apply nth_error_Some; congruence|]. destruct (A9 k' e' He') as [W U]. destruct (B9 k e He) as [W' U'].
    destruct (pnt_nth G3 He) as (_ & _ & <- & _).
    exact (outlines_equal G1 G2 G3 B4 B5 B6 F1 F2 F3 A4 A5 A6 (same_sym Sm) He He' E1 E2 W' U' W U). }
  assert (Nd : forall (b : edges) (g : nat -> list (option pt)), convex_contour b -> (forall k, k < length b -> hd None (g k) = Some (pnt b k)) -> NoDup (map g (seq 0 (length b)))).
  { clear. intros b g Hb Hg. apply NoDup_nth_error. intros i j Li E. rewrite map_length, seq_length in Li.
    assert (Lj : j < length b).
    { destruct (Nat.lt_ge_cases j (length b)) as [K|K]; auto. exfalso. rewrite (proj2 (nth_error_None (map g (seq 0 (length b))) j)) in E by (rewrite map_length, seq_length; auto).
      apply nth_error_None in E. rewrite map_length, seq_length in E. lia. }
    rewrite !nth_error_map in E. rewrite !(nth_error_nth' (seq 0 (length b)) 0), !seq_nth in E by (rewrite ?seq_length; auto). cbn [Nat.add] in E.
    cbn [option_map] in E. injection E as E. apply (f_equal (hd None)) in E. rewrite !Hg in E by auto. injection E as E. exact (pnt_distinct Hb Li Lj E). }
  transitivity (map (outline (verts ++ nodes)) (map face (seq 0 (length c)))); [apply Permutation_map; auto|].
  transitivity (map (outline (verts' ++ nodes')) (map face' (seq 0 (length d)))); [|apply Permutation_map, Permutation_sym; auto].
  rewrite !map_map. apply NoDup_Permutation.
  - apply Nd; auto. intros k Lk. destruct (Go k Lk) as (_ & _ & _ & K). auto.
  - apply Nd; auto. intros k Lk. destruct (Back k Lk) as (_ & _ & _ & K). auto.
  - intros x. rewrite !in_map_iff. split.
    + intros (k & <- & Ik). apply in_seq in Ik. destruct (Go k ltac:(lia)) as (k' & Lk' & E & _). exists k'. split; auto. apply in_seq. lia.
    + intros (k & <- & Ik). apply in_seq in Ik. destruct (Back k ltac:(lia)) as (k' & Lk' & E & _). exists k'. split; auto. apply in_seq. lia.
Qed.

(** ** starting at another vertex *)
Lemma rot_walls r (c : edges) : same_walls c (rot r c).
Proof. intros p q. split; intros (e & I & E); exists e; split; auto; [apply In_rot|apply In_rot in I]; auto. Qed.

Lemma rot_at r (c : edges) i e : convex_contour c -> r <= length c -> nth_error (rot r c) i = Some e -> i < length c /\ edge_at c (r + i) = Some e.
Proof.
  intros Hc Hr K. assert (L : i < length c) by (rewrite <- (rot_length r c); apply nth_error_Some; congruence). split; auto.
  rewrite nth_error_rot in K by auto. exact K.
Qed.

Lemma rot_convex r (c : edges) : convex_contour c -> r <= length c -> convex_contour (rot r c).
Proof.
  intros Hc Hr. pose proof (n_pos Hc) as n3. split; [split; [|split]|split].
  - intros E. apply (f_equal (@length _)) in E. rewrite rot_length in E. simpl in E. lia.
  - intros e Ie. apply In_rot in Ie. apply Hc. auto.
  - intros e1 e2 (j & Lj & H1 & H2). rewrite rot_length in *. destruct (rot_at Hc Hr H1) as [_ K1]. destruct (rot_at Hc Hr H2) as [_ K2].
    rewrite (edge_at_succ Hc K1). set (m := (j + length c - 1) mod length c) in *.
    assert (E : pnt c (S (r + m)) = pnt c (r + j)).
    { unfold pnt, edge_at. replace (S (r + m)) with (r + 1 + m) by lia. unfold m. rewrite Nat.add_mod_idemp_r by lia.
      replace (r + 1 + (j + length c - 1)) with (r + j + 1 * length c) by lia. rewrite Nat.mod_add by lia. auto. }
    rewrite E. unfold pnt. rewrite K2. auto.
  - rewrite rot_length. auto.
  - intros i j k a b d Hij Hjk Ha Hb Hd. destruct (rot_at Hc Hr Ha) as [La Ka]. destruct (rot_at Hc Hr Hb) as [Lb Kb]. destruct (rot_at Hc Hr Hd) as [Ld Kd].
    pose proof (@pnt_orient c Hc r i j k Hij Hjk Ld) as Q. unfold pnt in Q. rewrite Ka, Kb, Kd in Q. auto.
Qed.

Theorem convex_other_start (verts verts' : list (vec3 RA)) first first' (c : edges) r w0 w0' :
  (0 <= first)%Z -> (0 <= first')%Z -> r <= length c -> footprint verts first c -> footprint verts' first' (rot r c) ->
  convex_contour c -> separated c -> simple_roof c -> apart c -> blunt c ->
  py_get verts first = Ok w0 -> py_get verts' first' = Ok w0' -> wz w0 = wz w0' ->
  forall fuel fuel' sw sw' sch sch' dbg dbg' holes holes' hgt tan,
  length c + 2 * (length c - 2) < fuel -> length c + 2 * (length c - 2) < fuel' ->
  holes = None \/ holes = Some [] -> holes' = None \/ holes' = Some [] ->
  let o := polygonize fuel sw sch dbg verts first (Z.of_nat (length c)) holes hgt tan None None in
  let o' := polygonize fuel' sw' sch' dbg' verts' first' (Z.of_nat (length c)) holes' hgt tan None None in
  exists nodes nodes' fs fs', o_verts o = verts ++ nodes /\ o_verts o' = verts' ++ nodes' /\ Permutation nodes nodes' /\
    o_result o = Ok fs /\ o_result o' = Ok fs' /\ Permutation (map (outline (o_verts o)) fs) (map (outline (o_verts o')) fs').
Proof.
  intros F1 G1 Hr F2 G2 F3 S1 S2 S3 S4 E0 E0' Ez fuel fuel' sw sw' sch sch' dbg dbg' holes holes' hgt tan Hfu Hfu' Hh Hh'.
  pose proof (@convex_same_roof verts verts' first first' c (rot r c) w0 w0' F1 G1 F2 G2 F3 (rot_convex F3 Hr) (rot_walls r c) S1 S2 S3 S4 E0 E0' Ez fuel fuel' sw sw' sch sch' dbg dbg' holes holes' hgt tan) as K.
  rewrite rot_length in K. exact (K Hfu Hfu' Hh Hh').
Qed.
