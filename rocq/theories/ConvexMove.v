(** * ConvexMove: footprints are moved to their center (C49) *)

From Coq Require Import Reals Lra.
From Verif Require Import Py PyFacts Arith ArithR Euclid Graph GraphSpec GraphProofs Lav Cluster Poly PySort ClusterSpec GeoSpec GeoLines BisSpec BisProofs BisStart
  PatSpec PolyR PolyFaces TriSpec TriSkel TriRoof ConvexSpec ConvexGeo ConvexWave RoofSpec ConvexTree.
Set Implicit Arguments.
Unset Strict Implicit.
Local Open Scope nat_scope.

Definition moved (o : pt) (c c' : list (@edge2 RA)) : Prop := length c' = length c /\
  forall i e e', nth_error c i = Some e -> nth_error c' i = Some e' -> ep1 e' = loc o (ep1 e) /\ ep2 e' = loc o (ep2 e) /\ enorm e' = enorm e.

Definition glob (o p : pt) : pt := rvec (vx p + vx o) (vy p + vy o).

Lemma loc_glob o p : loc o (glob o p) = p.
Proof. apply vec_ext; unfold loc, glob, rvec; cbn [vx vy]; change (num RA) with R in *; ring. Qed.
Lemma glob_loc o p : glob o (loc o p) = p.
Proof. apply vec_ext; unfold loc, glob, rvec; cbn [vx vy]; change (num RA) with R in *; ring. Qed.

Section Moved.
Variables (o : pt) (c c' : list (@edge2 RA)).
Hypothesis Hm : moved o c c'.
Hypothesis Hc : convex_contour c.

Lemma moved_to i e : nth_error c i = Some e -> exists e', nth_error c' i = Some e' /\ ep1 e' = loc o (ep1 e) /\ ep2 e' = loc o (ep2 e) /\ enorm e' = enorm e.
Proof.
  intros He. destruct Hm as [Hl Hn]. destruct (nth_error c' i) as [e'|] eqn:E; [exists e'; split; auto; apply (Hn i e e'); auto|].
  apply nth_error_None in E. assert (i < length c) by (apply nth_error_Some; congruence). lia.
Qed.

Lemma moved_from i e' : nth_error c' i = Some e' -> exists e, nth_error c i = Some e /\ ep1 e' = loc o (ep1 e) /\ ep2 e' = loc o (ep2 e) /\ enorm e' = enorm e.
Proof.
  intros He. destruct Hm as [Hl Hn]. destruct (nth_error c i) as [e|] eqn:E; [exists e; split; auto; apply (Hn i e e'); auto|].
  apply nth_error_None in E. assert (i < length c') by (apply nth_error_Some; congruence). lia.
Qed.

Lemma moved_convex : convex_contour c'.
Proof.
  destruct Hm as [Hl _]. destruct Hc as ((Hne & Hd & Hcl) & Hn & Ho). split; [split; [|split]|split].
  - intros K. rewrite K in Hl. simpl in Hl. lia.
  - intros e' He. apply In_nth_error in He as (i & Hi). destruct (moved_from Hi) as (e & He & E1 & E2 & E3).
    destruct (Hd e (nth_error_In _ _ He)) as (D1 & D2 & D3). unfold directed. rewrite E1, E2, E3, dist_loc. split; [intros K; apply D1, (loc_inj K)|].
    unfold loc, rvec. cbn [vx vy]. change (num RA) with R in *. split; lra.
  - intros e1' e2' (j & Hj & J1 & J2). rewrite Hl in *. destruct (moved_from J1) as (e1 & K1 & _ & E2 & _). destruct (moved_from J2) as (e2 & K2 & E1 & _).
    rewrite E2, E1. f_equal. apply Hcl. exists j. auto.
  - lia.
  - intros i j k a b d Hij Hjk Ha Hb Hdd. destruct (moved_from Ha) as (a0 & A0 & A1 & _). destruct (moved_from Hb) as (b0 & B0 & B1 & _). destruct (moved_from Hdd) as (d0 & D0 & D1 & _).
    rewrite A1, B1, D1, orient_loc. apply (Ho i j k); auto.
Qed.

Lemma moved_dist e e' p : ep1 e' = loc o (ep1 e) -> ep2 e' = loc o (ep2 e) -> edge_dist e' p = edge_dist e (glob o p).
Proof. intros E1 E2. unfold edge_dist, signed_dist. rewrite E1, E2, dist_loc. rewrite <- (loc_glob o p) at 1. rewrite orient_loc. auto. Qed.

Lemma moved_in e' : In e' c' -> exists e, In e c /\ ep1 e' = loc o (ep1 e) /\ ep2 e' = loc o (ep2 e) /\ enorm e' = enorm e.
Proof. intros K. apply In_nth_error in K as (i & Hi). destruct (moved_from Hi) as (e & He & K). exists e. split; auto. eapply nth_error_In; eauto. Qed.

Lemma moved_in' e : In e c -> exists e', In e' c' /\ ep1 e' = loc o (ep1 e) /\ ep2 e' = loc o (ep2 e) /\ enorm e' = enorm e.
Proof. intros K. apply In_nth_error in K as (i & Hi). destruct (moved_to Hi) as (e' & He & K). exists e'. split; auto. eapply nth_error_In; eauto. Qed.

Lemma starts_differ (d : list (@edge2 RA)) e1 e2 : convex_contour d -> In e1 d -> In e2 d -> ep1 e1 = ep1 e2 -> e1 = e2.
Proof.
  intros Hd K1 K2 E. apply In_nth_error in K1 as (i & Hi). apply In_nth_error in K2 as (j & Hj).
  assert (Li : i < length d) by (apply nth_error_Some; congruence). assert (Lj : j < length d) by (apply nth_error_Some; congruence).
  assert (i = j); [|subst; congruence]. apply (pnt_distinct Hd Li Lj). unfold pnt, edge_at. rewrite !Nat.mod_small by auto. rewrite Hi, Hj. auto.
Qed.

Lemma moved_ne e1 e2 e1' e2' : In e1' c' -> In e2' c' -> ep1 e1' = loc o (ep1 e1) -> ep1 e2' = loc o (ep1 e2) -> e1' <> e2' -> e1 <> e2.
Proof. intros K1 K2 E1 E2 N ->. apply N. apply (starts_differ moved_convex); auto. congruence. Qed.

Lemma moved_ne' e1 e2 e1' e2' : In e1 c -> In e2 c -> ep1 e1' = loc o (ep1 e1) -> ep1 e2' = loc o (ep1 e2) -> e1 <> e2 -> e1' <> e2'.
Proof. intros K1 K2 E1 E2 N ->. apply N. apply (starts_differ Hc); auto. rewrite E1 in E2. apply (loc_inj E2). Qed.

Lemma moved_equidistant x h : equidistant c' x h -> equidistant c (glob o x) h.
Proof.
  intros (e1 & e2 & e3 & I1 & I2 & I3 & N1 & N2 & N3 & D1 & D2 & D3).
  destruct (moved_in I1) as (f1 & F1 & A1 & B1 & _). destruct (moved_in I2) as (f2 & F2 & A2 & B2 & _). destruct (moved_in I3) as (f3 & F3 & A3 & B3 & _).
  exists f1, f2, f3. rewrite <- !(moved_dist x A1 B1), <- !(moved_dist x A2 B2), <- !(moved_dist x A3 B3).
  split; auto. split; auto. split; auto. split; [eapply (moved_ne I1 I2); eauto|]. split; [eapply (moved_ne I2 I3); eauto|]. split; [eapply (moved_ne I1 I3); eauto|]. auto.
Qed.

Lemma moved_point x h : roof_point c' x h -> roof_point c (glob o x) h.
Proof.
  intros [E L]. split; [apply moved_equidistant; auto|]. intros e He. destruct (moved_in' He) as (e' & He' & A1 & B1 & _).
  rewrite <- (moved_dist x A1 B1). auto.
Qed.

(** ... and back *)
Lemma moved_point' x h : roof_point c (glob o x) h -> roof_point c' x h.
Proof.
  intros [(e1 & e2 & e3 & I1 & I2 & I3 & N1 & N2 & N3 & D1 & D2 & D3) L].
  destruct (moved_in' I1) as (f1 & F1 & A1 & B1 & _). destruct (moved_in' I2) as (f2 & F2 & A2 & B2 & _). destruct (moved_in' I3) as (f3 & F3 & A3 & B3 & _). split.
  - exists f1, f2, f3. rewrite !(moved_dist x A1 B1), !(moved_dist x A2 B2), !(moved_dist x A3 B3).
    do 3 (split; [auto|]). split; [eapply (moved_ne' I1 I2); eauto|]. split; [eapply (moved_ne' I2 I3); eauto|]. split; [eapply (moved_ne' I1 I3); eauto|]. auto.
  - intros e' He'. destruct (moved_in He') as (e & He & A & B & _). rewrite (moved_dist x A B). auto.
Qed.

Lemma moved_separated : separated c -> separated c'.
Proof. intros Hs x d y d' Hx Hy. apply (Hs (glob o x) d (glob o y) d'); apply moved_equidistant; auto. Qed.

Lemma moved_apart : apart c -> apart c'.
Proof.
  intros Ha x h y k Hx Hy. destruct (Ha _ _ _ _ (moved_point Hx) (moved_point Hy)) as [K|K].
  - left. rewrite <- (loc_glob o x), <- (loc_glob o y), K. auto.
  - right. revert K. unfold glob, rvec. cbn [vx vy]. change (num RA) with R in *.
    replace (vx x + vx o - (vx y + vx o))%R with (vx x - vx y)%R by ring. replace (vy x + vy o - (vy y + vy o))%R with (vy x - vy y)%R by ring. auto.
Qed.

Lemma nodup4 (e1 e2 e3 e4 : @edge2 RA) : NoDup [e1; e2; e3; e4] <-> (e1 <> e2 /\ e1 <> e3 /\ e1 <> e4 /\ e2 <> e3 /\ e2 <> e4 /\ e3 <> e4).
Proof.
  rewrite !NoDup_cons_iff. simpl. split.
  - intros (H1 & H2 & H3 & _). repeat split; intros E; subst; tauto.
  - intros (H1 & H2 & H3 & H4 & H5 & H6). split; [intros [K|[K|[K|[]]]]; auto|]. split; [intros [K|[K|[]]]; auto|]. split; [intros [K|[]]; auto|]. split; auto. constructor.
Qed.

Lemma nodup3 (e1 e2 e3 : @edge2 RA) : NoDup [e1; e2; e3] <-> (e1 <> e2 /\ e1 <> e3 /\ e2 <> e3).
Proof.
  rewrite !NoDup_cons_iff. simpl. split.
  - intros (H1 & H2 & _). repeat split; intros E; subst; tauto.
  - intros (H1 & H2 & H3). split; [intros [K|[K|[]]]; auto|]. split; [intros [K|[]]; auto|]. split; auto. constructor.
Qed.

Lemma moved_simple : simple_roof c -> simple_roof c'.
Proof.
  intros Hs x h e1 e2 e3 e4 Hx I1 I2 I3 I4 Hn (D1 & D2 & D3 & D4). apply nodup4 in Hn as (N1 & N2 & N3 & N4 & N5 & N6).
  destruct (moved_in I1) as (f1 & F1 & A1 & B1 & _). destruct (moved_in I2) as (f2 & F2 & A2 & B2 & _). destruct (moved_in I3) as (f3 & F3 & A3 & B3 & _). destruct (moved_in I4) as (f4 & F4 & A4 & B4 & _).
  apply (Hs (glob o x) h f1 f2 f3 f4); auto.
  - apply moved_point; auto.
  - apply nodup4. repeat split; [eapply (moved_ne I1 I2)|eapply (moved_ne I1 I3)|eapply (moved_ne I1 I4)|eapply (moved_ne I2 I3)|eapply (moved_ne I2 I4)|eapply (moved_ne I3 I4)]; eauto.
  - rewrite <- (moved_dist x A1 B1), <- (moved_dist x A2 B2), <- (moved_dist x A3 B3), <- (moved_dist x A4 B4). auto.
Qed.

Lemma moved_blunt : blunt c -> blunt c'.
Proof.
  intros Hb e1 e2 e3 I1 I2 I3 Hn. apply nodup3 in Hn as (N1 & N2 & N3).
  destruct (moved_in I1) as (f1 & F1 & A1 & _ & E1). destruct (moved_in I2) as (f2 & F2 & A2 & _ & E2). destruct (moved_in I3) as (f3 & F3 & A3 & _ & E3).
  rewrite E1, E2, E3. apply Hb; auto. apply nodup3. repeat split; [eapply (moved_ne I1 I2)|eapply (moved_ne I1 I3)|eapply (moved_ne I2 I3)]; eauto.
Qed.
End Moved.

(** ** what polygonize hands to skeletonize *)
Lemma Forall2_nth (X Y : Type) (R : X -> Y -> Prop) l l' : Forall2 R l l' -> forall i y, nth_error l' i = Some y -> exists x, nth_error l i = Some x /\ R x y.
Proof.
  induction 1 as [|x y l l' Hxy Hl IH]; intros i z Hz; [destruct i; discriminate|]. destruct i as [|i]; simpl in *; [injection Hz as <-; eauto|auto].
Qed.

Lemma directed_norm (e e' : @edge2 RA) o : directed e -> directed e' -> ep1 e' = loc o (ep1 e) -> ep2 e' = loc o (ep2 e) -> enorm e' = enorm e.
Proof.
  intros (N & D1 & D2) (_ & D1' & D2') E1 E2. rewrite E1, E2, dist_loc in D1', D2'. pose proof (dist_pos N) as Hp.
  apply vec_ext; apply (Rmult_eq_reg_r (euclid_dist (ep1 e) (ep2 e))); try lra; [rewrite D1, D1'|rewrite D2, D2']; unfold loc, rvec; cbn [vx vy]; change (num RA) with R in *; ring.
Qed.

Section Prepare.
Variable verts : list (vec3 RA).
Variable first : Z.
Variable c : list (@edge2 RA).
Hypothesis Hc : closed_contour c.
Hypothesis n3 : 3 <= length c.
Hypothesis Hfoot : footprint verts first c.
Let n := length c.

Lemma closed_vert i : i < n -> exists e w, nth_error c i = Some e /\ py_get verts (first + Z.of_nat i) = Ok w /\ ep1 e = ground w /\ long_enough (ep1 e) (ep2 e) /\ directed e.
Proof.
  intros Hi. destruct (nth_error c i) as [e|] eqn:E; [|apply nth_error_None in E; fold n in E; lia].
  destruct (Hfoot E) as (L & w & G & K). exists e, w. split; auto. split; auto. split; auto. split; auto. apply Hc. eapply nth_error_In; eauto.
Qed.

Lemma foot_next i e f : i < n -> nth_error c i = Some e -> nth_error c (S i mod n) = Some f -> ep2 e = ep1 f.
Proof.
  intros Hi He Hf. pose proof (proj2 (proj2 Hc)) as Hcl. apply Hcl. exists (S i mod n). fold n. split; [apply Nat.mod_upper_bound; lia|]. split; auto.
  rewrite <- He. f_equal. destruct (Nat.eq_dec (S i) n) as [E|E].
  - rewrite E, Nat.mod_same by lia. rewrite Nat.mod_small; lia.
  - rewrite (Nat.mod_small (S i)) by lia. replace (S i + n - 1) with (i + 1 * n) by lia. rewrite Nat.mod_add, Nat.mod_small; lia.
Qed.

Lemma center_total : exists w, poly_center verts first (Z.of_nat n) = Ok w /\ wz w = 0%R.
Proof.
  unfold poly_center. assert (G : forall is acc, (forall i, In i is -> exists w, py_get verts i = Ok w) -> exists s, sum_verts verts acc is = Ok s).
  { induction is as [|i is IH]; intros acc H; [simpl; eauto|]. cbn [sum_verts]. destruct (H i (or_introl eq_refl)) as (w & ->). cbn [bind]. apply IH. intros; apply H; right; auto. }
  destruct (G (zrange first (first + Z.of_nat n)) (mkvec3 zeroN zeroN zeroN)) as (s & ->).
  { intros i Hi. apply In_nth_error in Hi as (k & Hk). assert (L : k < n).
    { assert (K : k < length (zrange first (first + Z.of_nat n))) by (apply nth_error_Some; congruence). rewrite zrange_length in K. lia. }
    rewrite zrange_nth in Hk by lia. injection Hk as <-. destruct (closed_vert L) as (e & w & _ & K & _). eauto. }
  cbn [bind]. cbv zeta. rewrite PolyR.nofZ_R. cbn [RA rnd neqb]. destruct (Reqb_spec (IZR (Z.of_nat n)) (@zeroN RA)) as [K|K].
  { exfalso. rewrite zeroN_R in K. apply eq_IZR in K. lia. }
  eexists. split; [reflexivity|]. cbn [wz]. apply zeroN_R.
Qed.

Lemma edge_made center k : k < n -> exists e', Edge2_idx (0 + k) (first + Z.of_nat k) (first + Z.of_nat (S k mod n)) None verts center = Ok e' /\
  ei1 e' = (first + Z.of_nat k)%Z /\ forall e, nth_error c k = Some e -> ep1 e' = loc (ground center) (ep1 e) /\ ep2 e' = loc (ground center) (ep2 e) /\ enorm e' = enorm e.
Proof.
  intros Hk. assert (Hk' : S k mod n < n) by (apply Nat.mod_upper_bound; lia).
  destruct (closed_vert Hk) as (e & w & E & G & K & L & D). destruct (closed_vert Hk') as (f & w' & E' & G' & K' & _). pose proof (foot_next Hk E E') as N.
  destruct (@TriRoof.edge_directed (0 + k) _ _ verts center w w' G G') as (e' & X & A1 & B1 & I & D').
  { rewrite <- K, <- K', <- N. auto. }
  exists e'. split; auto. split; auto. intros e0 E0. rewrite E in E0. injection E0 as <-. rewrite <- K in A1. rewrite <- K', <- N in B1. split; auto. split; auto.
  apply (directed_norm D D' A1 B1).
Qed.

Lemma closed_prepare holes : holes = None \/ holes = Some [] ->
  exists w0 center c', py_get verts first = Ok w0 /\ prepare verts first (Z.of_nat n) holes None = Ok (wz w0, center, [c']) /\ wz center = 0%R /\
    moved (ground center) c c' /\ forall i e', nth_error c' i = Some e' -> ei1 e' = (first + Z.of_nat i)%Z.
Proof.
  intros Hh. destruct (@closed_vert 0 ltac:(lia)) as (_ & w0 & _ & G0 & _). change (Z.of_nat 0) with 0%Z in G0. rewrite Z.add_0_r in G0.
  destruct center_total as (center & Hcen & Hz).
  destruct (@mapM_total nat _ (fun k => u <- opt_unit (@None (list (vec3 RA))) (0 + Z.of_nat k);; Edge2_idx (0 + k) (first + Z.of_nat k) (first + Z.of_nat k + 1) u verts center) (seq 0 (Z.to_nat (Z.of_nat n - 1))))
    as (body & Hbody).
  { intros k Hk. apply in_seq in Hk. cbn [opt_unit bind]. destruct (@edge_made center k ltac:(lia)) as (e' & X & _). rewrite Nat.mod_small in X by lia.
    replace (first + Z.of_nat k + 1)%Z with (first + Z.of_nat (S k))%Z by lia. eauto. }
  destruct (@edge_made center (n - 1) ltac:(lia)) as (el & Xl & Il & Pl). replace (S (n - 1)) with n in Xl by lia. rewrite Nat.mod_same in Xl by lia.
  change (Z.of_nat 0) with 0%Z in Xl. rewrite Z.add_0_r in Xl.
  assert (Hlen : length body = n - 1) by (rewrite (mapM_length _ _ Hbody), seq_length; lia).
  assert (Hb : forall i e', nth_error (body ++ [el]) i = Some e' -> ei1 e' = (first + Z.of_nat i)%Z /\
     forall e, nth_error c i = Some e -> ep1 e' = loc (ground center) (ep1 e) /\ ep2 e' = loc (ground center) (ep2 e) /\ enorm e' = enorm e).
  { intros i e' Hi. destruct (Nat.lt_ge_cases i (n - 1)) as [L|L].
    - rewrite nth_error_app1 in Hi by lia. pose proof (mapM_ok _ _ Hbody) as HF. destruct (Forall2_nth HF Hi) as (k & K1 & K2).
      rewrite (nth_error_nth' _ 0) in K1 by (rewrite seq_length; lia). rewrite seq_nth in K1 by lia. injection K1 as <-. cbn [opt_unit bind] in K2.
      destruct (@edge_made center i ltac:(lia)) as (e2 & X & I & Pe). rewrite Nat.mod_small in X by lia. rewrite Nat.add_0_l in K2.
      replace (first + Z.of_nat i + 1)%Z with (first + Z.of_nat (S i))%Z in K2 by lia. rewrite Nat.add_0_l in X. rewrite X in K2. apply Ok_inj in K2. subst e2. auto.
    - assert (i < n) by (assert (K : i < length (body ++ [el])) by (apply nth_error_Some; congruence); rewrite app_length in K; simpl in K; lia).
      assert (E : i = n - 1) by lia. rewrite E in *. rewrite nth_error_app2 in Hi by lia. replace (n - 1 - length body) with 0 in Hi by lia. injection Hi as <-. auto. }
  exists w0, center, (body ++ [el]). split; auto. split; [|split; [auto|split]].
  - unfold prepare. rewrite G0. cbn [bind]. rewrite Hcen. cbn [bind truthy_list]. cbv zeta. unfold contour_edges. cbv zeta. rewrite Hbody. cbn [bind opt_unit].
    replace (first + Z.of_nat n - 1)%Z with (first + Z.of_nat (n - 1))%Z by lia. replace (Z.to_nat (Z.of_nat n - 1)) with (n - 1) by lia. rewrite Xl. cbn [bind].
    destruct Hh as [-> | ->]; reflexivity.
  - split; [rewrite app_length; simpl; fold n; lia|]. intros i e e' He He'. apply (Hb i e' He'); auto.
  - intros i e' Hi. apply (Hb i e' Hi).
Qed.
End Prepare.

Lemma foot_vert verts first (c : list (@edge2 RA)) : convex_contour c -> footprint verts first c -> forall i, i < length c ->
  exists e w, nth_error c i = Some e /\ py_get verts (first + Z.of_nat i) = Ok w /\ ep1 e = ground w /\ long_enough (ep1 e) (ep2 e) /\ directed e.
Proof. intros Hc. exact (@closed_vert verts first c (proj1 Hc) (proj1 (proj2 Hc))). Qed.

Lemma convex_prepare verts first (c : list (@edge2 RA)) : convex_contour c -> footprint verts first c -> forall holes, holes = None \/ holes = Some [] ->
  exists w0 center c', py_get verts first = Ok w0 /\ prepare verts first (Z.of_nat (length c)) holes None = Ok (wz w0, center, [c']) /\ wz center = 0%R /\
    moved (ground center) c c' /\ forall i e', nth_error c' i = Some e' -> ei1 e' = (first + Z.of_nat i)%Z.
Proof. intros Hc. exact (@closed_prepare verts first c (proj1 Hc) (proj1 (proj2 Hc))). Qed.
