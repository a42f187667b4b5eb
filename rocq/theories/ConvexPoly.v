(** * ConvexPoly: the roof polygonize puts over a convex footprint (C49) *)

From Coq Require Import Permutation Reals Lra.
From Verif Require Import Py PyFacts Arith ArithR Euclid Graph GraphSpec GraphProofs Lav Cluster Poly PySort ClusterSpec GeoSpec GeoLines BisSpec BisProofs BisStart
  PatSpec PolyR PolyFaces TriSpec TriSkel TriRoof ConvexSpec ConvexGeo ConvexWave RoofSpec ConvexComb ConvexTree ConvexPost ConvexFaces ConvexGraph ConvexClean ConvexMove ConvexTile.
Set Implicit Arguments.
Unset Strict Implicit.
Local Open Scope nat_scope.

Lemma roof_point_dist (c : list (@edge2 RA)) x h : roof_point c x h -> exists e, In e c /\ edge_dist e x = h.
Proof.
  intros [(e1 & e2 & e3 & I1 & _ & _ & _ & _ & _ & _ & _ & E) L]. exists e1. split; auto. specialize (L e1 I1).
  pose proof (Rabs_pos (edge_dist e1 x)). rewrite E in *. rewrite Rabs_right in * by lra. auto.
Qed.

Lemma roof_point_unique (c : list (@edge2 RA)) x h k : roof_point c x h -> roof_point c x k -> h = k.
Proof.
  intros Hh Hk. destruct (roof_point_dist Hh) as (e & I & E). destruct (roof_point_dist Hk) as (f & J & G).
  destruct Hh as [_ L]. destruct Hk as [_ L']. specialize (L f J). specialize (L' e I). lra.
Qed.

Section Poly.
Variable verts : list (vec3 RA).
Variable first : Z.
Hypothesis Hfirst : (0 <= first)%Z.
Variable c : list (@edge2 RA).
Hypothesis Hfoot : footprint verts first c.
Hypothesis Hc : convex_contour c.
Hypothesis Hsep : separated c.
Hypothesis Hsimple : simple_roof c.
Hypothesis Hapart : apart c.
Hypothesis Hblunt : blunt c.
Let n := length c.
Let n3 : 3 <= n := n_pos Hc.
Let N := Z.of_nat (length verts).

Section Tree.
Variables (center : vec3 RA) (c' : list (@edge2 RA)).
Hypothesis Hz : wz center = 0%R.
Let o := ground center.
Hypothesis Hm : moved o c c'.
Variables (out : list (@subtree RA)) (M : nat) (wp wl A B U : nat -> nat) (F : nat -> list nat) (P : nat -> pt) (H : nat -> R).
Hypothesis Hr : roof c' out M wp wl A B U F P H.
Let Hc' : convex_contour c' := moved_convex Hm Hc.
Variables (z s : R).
Let nodes := map (skeleton_node3D center s z) out.
Let vl := verts ++ nodes.
Let vid := vid c' first N.

Let Hlen : length c' = n := proj1 Hm.
Let Ht : tree n M wp wl A B U F.
Proof. rewrite <- Hlen. exact (r_tree Hr). Defined.

Lemma first_bound : (first + Z.of_nat (length c') <= N)%Z.
Proof.
  rewrite Hlen. destruct (@foot_vert verts first c Hc Hfoot (n - 1) ltac:(fold n; lia)) as (e & w & _ & G & _).
  apply index_lt in G; [|lia]. fold N in G. lia.
Qed.

Lemma node_at k v : nth_error nodes k = Some v -> n + k < M /\ ground v = glob o (P (n + k)) /\ wz v = (z + s * H (n + k))%R.
Proof.
  unfold nodes. rewrite nth_error_map. destruct (nth_error out k) as [a|] eqn:Ea; [|discriminate]. cbn [option_map]. intros E. injection E as <-.
  destruct (out_node Hr Ea) as (L & S1 & H1). rewrite Hlen in *. split; auto. rewrite skeleton_node3D_R. unfold ground, glob, o. cbn [wx wy wz vx vy]. rewrite S1, H1, Hz.
  split; auto. simpl. ring.
Qed.

Lemma node_get k : n + k < M -> exists v, nth_error nodes k = Some v /\ py_get vl (N + Z.of_nat k) = Ok v.
Proof.
  intros L. pose proof (r_len Hr) as HL. rewrite Hlen in HL. unfold nodes. destruct (nth_error out k) as [a|] eqn:Ea; [|apply nth_error_None in Ea; lia].
  exists (skeleton_node3D center s z a). rewrite nth_error_map, Ea. split; auto. unfold vl, N. rewrite py_get_app_node by (unfold nodes; rewrite map_length; lia).
  unfold nodes. rewrite nth_error_map, Ea. auto.
Qed.

Lemma vid_at v : v < M -> exists w, py_get vl (vid v) = Ok w /\ loc o (ground w) = P v.
Proof.
  intros Hv. destruct (Nat.lt_ge_cases v n) as [L|L].
  - destruct (foot_vert Hc Hfoot L) as (e & w & E & G & K & _). exists w. split.
    + unfold vid, ConvexGraph.vid. rewrite Hlen. destruct (Nat.ltb_spec v n); [|lia]. apply py_get_app_l; auto. lia.
    + rewrite <- K. destruct (moved_to Hm E) as (e' & E' & A1 & _). rewrite <- A1. destruct (contour_pnt Hr E') as [_ K']. auto.
  - destruct (@node_get (v - n)) as (w & G1 & G2); [lia|]. exists w. split.
    + unfold vid, ConvexGraph.vid. rewrite Hlen. destruct (Nat.ltb_spec v n); [lia|]. auto.
    + destruct (node_at G1) as (_ & -> & _). rewrite loc_glob. f_equal. lia.
Qed.

Lemma roof_at x : n <= x < M -> roof_point c (glob o (P x)) (H x) /\ (0 < H x)%R.
Proof.
  intros Hx. rewrite <- Hlen in Hx. split; [|apply (r_node Hr Hx)]. apply (moved_point Hm Hc). apply (r_point Hr Hx).
Qed.

Lemma nodes_on_roof v : In v nodes -> on_roof c z s v.
Proof.
  intros K. apply In_nth_error in K as (k & Hk). destruct (node_at Hk) as (L & G & W). destruct (@roof_at (n + k)) as [R1 R2]; [lia|].
  exists (H (n + k)). split; auto. split; auto. rewrite G. auto.
Qed.

(** every roof point has its node *)
Lemma nodes_all x h : roof_point c x h -> exists v, In v nodes /\ ground v = x.
Proof.
  intros K. assert (K' : roof_point c' (loc o x) h).
  { apply (moved_point' Hm Hc). rewrite glob_loc. auto. }
  destruct (all_points Hc' Hr K') as (v & Hv & E). rewrite Hlen in Hv. destruct (@node_get (v - n)) as (w & G1 & _); [lia|]. exists w. split; [eapply nth_error_In; eauto|].
  destruct (node_at G1) as (_ & -> & _). replace (n + (v - n)) with v by lia. rewrite E. apply glob_loc.
Qed.

Lemma nodes_apart : NoDup (map ground nodes).
Proof.
  apply NoDup_nth_error. intros i j Hi E. rewrite map_length in Hi. rewrite !nth_error_map in E.
  destruct (nth_error nodes i) as [a|] eqn:Ea; [|apply nth_error_None in Ea; lia].
  destruct (nth_error nodes j) as [b|] eqn:Eb; [|discriminate]. cbn [option_map] in E. assert (E0 : ground a = ground b) by (change (match Some (ground a) with Some x => x | None => ground a end = ground b); rewrite E; auto).
  destruct (node_at Ea) as (L1 & S1 & _). destruct (node_at Eb) as (L2 & S2 & _). rewrite S1, S2 in E0.
  assert (E' : P (n + i) = P (n + j)) by (rewrite <- (loc_glob o (P (n + i))), E0; apply loc_glob). apply (r_dist Hr) in E'; lia.
Qed.

(** walls *)
Lemma wall_wd k e p : nth_error c k = Some e -> wd c' k p = edge_dist e (glob o p).
Proof.
  intros He. destruct (moved_to Hm He) as (e' & He' & A1 & B1 & _). rewrite <- (moved_dist p A1 B1).
  assert (Ek : edge_at c' k = Some e') by (unfold edge_at; rewrite Nat.mod_small; auto; apply nth_error_Some; congruence).
  rewrite (wd_edge _ Ek). symmetry. apply edge_dist_n. apply Hc'. eapply nth_error_In; eauto.
Qed.

Lemma three_faces x : n <= x < M -> exists j1 j2 j3, j1 < n /\ j2 < n /\ j3 < n /\ j1 <> j2 /\ j1 <> j3 /\ j2 <> j3 /\ In x (F j1) /\ In x (F j2) /\ In x (F j3).
Proof.
  intros Hx. destruct (t_node Ht Hx) as (LA & LB & _ & UA & UB & _).
  assert (Hva : A x < M) by lia. assert (Hvb : B x < M) by lia. assert (Hvm : x < M) by lia.
  destruct (t_dart Ht Hva) as (_ & j1 & _ & J1 & _ & D1). destruct (t_dart Ht Hvb) as (_ & j2 & _ & J2 & _ & D2). destruct (t_dart Ht Hvm) as (j3 & _ & J3 & _ & D3 & _).
  apply (proj2 (face_dart n3 Ht (A x) J1)) in D1. apply (proj2 (face_dart n3 Ht (B x) J2)) in D2. apply (proj1 (face_dart n3 Ht x J3)) in D3.
  rewrite UA in D1. rewrite UB in D2. destruct (three_apart Hc' Hr Hvm) as (N1 & N2 & N3).
  assert (Hnd : forall i, i < n -> NoDup (face F i)) by (intros i Hi; destruct (face_shape n3 Ht Hi) as (? & ? & _ & _ & _ & _ & K); exact K).
  assert (E12 : j1 <> j2) by (intros ->; apply N1; eapply cyc_func; [apply (Hnd j2 J2)|exact D1|exact D2]).
  assert (E13 : j1 <> j3) by (intros ->; apply N2; eapply cyc_func; [apply (Hnd j3 J3)|exact D1|exact D3]).
  assert (E23 : j2 <> j3) by (intros ->; apply N3; eapply cyc_func; [apply (Hnd j3 J3)|exact D2|exact D3]).
  assert (G : forall j v, j < n -> cyc (face F j) x v -> In x (F j)).
  { intros j v Hj K. apply cyc_In in K as [K _]. destruct (face_rot n3 Ht Hj) as (a & b & -> & E). rewrite E in K. apply in_app_iff. apply in_app_iff in K. tauto. }
  exists j1, j2, j3. do 6 (split; [auto|]). split; [eauto|]. split; eauto.
Qed.

Lemma wall_of k : k < n -> exists e, nth_error c k = Some e.
Proof. intros Hk. destruct (nth_error c k) as [e|] eqn:E; eauto. apply nth_error_None in E. fold n in E. lia. Qed.

Lemma face_nodes k e x : nth_error c k = Some e -> n <= x < M -> (In x (F k) <-> edge_dist e (glob o (P x)) = H x).
Proof.
  intros He Hx. assert (Hk : k < n) by (apply nth_error_Some; congruence).
  assert (Rf : forall j f, nth_error c j = Some f -> In x (F j) -> edge_dist f (glob o (P x)) = H x).
  { intros j f Hf K. assert (Hj : j < n) by (apply nth_error_Some; congruence). rewrite <- (wall_wd _ Hf). apply (r_face Hr); [rewrite Hlen; auto|auto]. }
  split; [apply Rf; auto|]. intros E. destruct (three_faces Hx) as (j1 & j2 & j3 & J1 & J2 & J3 & N1 & N2 & N3 & K1 & K2 & K3).
  destruct (Nat.eq_dec k j1) as [->|M1]; auto. destruct (Nat.eq_dec k j2) as [->|M2]; auto. destruct (Nat.eq_dec k j3) as [->|M3]; auto. exfalso.
  destruct (wall_of J1) as (f1 & F1). destruct (wall_of J2) as (f2 & F2). destruct (wall_of J3) as (f3 & F3).
  assert (D : forall i j f g, nth_error c i = Some f -> nth_error c j = Some g -> i <> j -> f <> g).
  { intros i j f g Hi Hj Hij ->. apply Hij. assert (Li : i < length c) by (apply nth_error_Some; congruence). assert (Lj : j < length c) by (apply nth_error_Some; congruence).
    apply (pnt_distinct Hc Li Lj). unfold pnt, edge_at. rewrite !Nat.mod_small by auto. rewrite Hi, Hj. auto. }
  destruct (roof_at Hx) as [Rp _]. apply (Hsimple Rp (nth_error_In _ _ He) (nth_error_In _ _ F1) (nth_error_In _ _ F2) (nth_error_In _ _ F3)).
  - apply nodup4. repeat split; eapply D; eauto.
  - split; auto. split; [apply (Rf j1); auto|]. split; [apply (Rf j2); auto|apply (Rf j3); auto].
Qed.

Lemma orient_cross p q r : orient p q r = ncross (sub r q) (sub p q).
Proof. unfold orient, ncross, sub, rvec. cbn [vx vy]. change (num RA) with R in *. ring. Qed.

Lemma corner_left u v w : v < M -> turn3 n A B U u v w -> (0 < orient (P u) (P v) (P w))%R.
Proof.
  intros Hv HT. rewrite orient_cross. pose proof (turns Hc' Hr Hv) as (K1 & K2 & _ & K3). rewrite Hlen in K3.
  destruct HT as [[-> ->]|[[-> ->]|(L & -> & ->)]]; auto.
Qed.

Lemma made_face k e : nth_error c k = Some e -> wall_face verts nodes first n k c e (roof_face c' F first N k).
Proof.
  intros He. assert (Hk : k < n) by (apply nth_error_Some; congruence).
  destruct (face_shape n3 Ht Hk) as (l1 & l2 & E1 & E2 & Hin & Hne & Hnd). unfold roof_face. change (face_of k (F k)) with (face F k). fold vid.
  assert (Hlow : forall v, v < n -> vid v = (first + Z.of_nat v)%Z) by (intros v Hv; apply (vid_low Hc'); rewrite Hlen; auto).
  assert (Hhigh : forall v, n <= v -> vid v = (N + Z.of_nat (v - n))%Z) by (intros v Hv; unfold vid; rewrite (vid_high Hc') by (rewrite Hlen; auto); rewrite Hlen; auto).
  assert (Hinj : forall u v, vid u = vid v -> u = v) by (intros u v; apply (vid_inj Hc' first_bound)).
  assert (Hs : S k mod n < n) by (apply Nat.mod_upper_bound; lia).
  exists (map vid (l2 ++ l1)). split; [|split; [|split; [|split]]].
  - rewrite E2. cbn [map]. rewrite !Hlow by auto. auto.
  - apply NoDup_map_inj; auto.
  - intros K. apply map_eq_nil in K. auto.
  - intros j. rewrite in_map_iff. split.
    + intros (x & <- & Hx). pose proof (Hin x Hx) as Bx. destruct (@node_get (x - n)) as (v & G1 & _); [lia|]. exists (x - n), v. split; [apply Hhigh; lia|]. split; auto.
      destruct (node_at G1) as (_ & Gv & _). replace (n + (x - n)) with x in Gv by lia. rewrite Gv.
      assert (Kx : In x (F k)) by (rewrite E1; apply in_app_iff; apply in_app_iff in Hx; simpl; tauto).
      apply (face_nodes He Bx) in Kx. rewrite Kx. apply roof_at; auto.
    + intros (i & v & -> & G1 & Rp). destruct (node_at G1) as (L & Gv & _). exists (n + i). split; [rewrite Hhigh by lia; f_equal; f_equal; lia|].
      rewrite Gv in Rp. assert (Bx : n <= n + i < M) by lia. destruct (roof_at Bx) as [Rp' _]. pose proof (roof_point_unique Rp Rp') as E.
      apply (face_nodes He Bx) in E. rewrite E1 in E. apply in_app_iff. apply in_app_iff in E as [E|[E|[E|E]]]; [auto|lia|lia|auto].
  - intros a b d (i & Li & Ka & Kb & Kd). rewrite map_length in *. rewrite nth_error_map in Ka, Kb, Kd.
    destruct (nth_error (face F k) i) as [u|] eqn:Eu; [|discriminate]. destruct (nth_error (face F k) ((i + 1) mod length (face F k))) as [v|] eqn:Ev; [|discriminate].
    destruct (nth_error (face F k) ((i + 2) mod length (face F k))) as [w|] eqn:Ew; [|discriminate]. injection Ka as <-. injection Kb as <-. injection Kd as <-.
    pose proof (ring_nth (face_ring n3 Ht Hk) Li Eu Ev Ew) as HT.
    assert (Lt : forall x j, nth_error (face F k) j = Some x -> x < M) by (intros x j K; apply nth_error_In in K; apply (face_lt n3 Ht Hk K)).
    destruct (vid_at (Lt _ _ Eu)) as (pu & Gu & Pu). destruct (vid_at (Lt _ _ Ev)) as (pv & Gv & Pv). destruct (vid_at (Lt _ _ Ew)) as (pw & Gw & Pw).
    exists pu, pv, pw. split; auto. split; auto. split; auto. rewrite <- (orient_loc o), Pu, Pv, Pw. apply corner_left; auto. apply (Lt _ _ Ev).
Qed.

Lemma made_tile k e p : nth_error c k = Some e -> (under vl (roof_face c' F first N k) p <-> nearest_wall c e p).
Proof.
  intros He. assert (Hk : k < n) by (apply nth_error_Some; congruence). assert (Hk' : k < length c') by (rewrite Hlen; auto).
  assert (Gl : forall x, glob o (loc o x) = x) by (intros [x y]; unfold glob, loc, sub, rvec; cbn [vx vy]; apply vec_ext; cbn [vx vy]; change (num RA) with R in *; ring).
  transitivity (near c' k (loc o p)).
  - rewrite <- (face_near Hc' Hr (loc o p) Hk'). unfold roof_face. change (face_of k (F k)) with (face F k). fold vid. split.
    + intros Hu u v K. apply cyc_nth in K as (i & K1 & K2). assert (Li : i < length (face F k)) by (apply nth_error_Some; congruence).
      destruct (Hu (vid u) (vid v)) as (va & vb & Ga & Gb & O).
      { exists i. rewrite map_length. split; auto. split; apply map_nth_error; auto. }
      assert (Lu : u < M) by (apply nth_error_In in K1; apply (face_lt n3 Ht Hk K1)). assert (Lv : v < M) by (apply nth_error_In in K2; apply (face_lt n3 Ht Hk K2)).
      destruct (vid_at Lu) as (pu & Gu & <-). destruct (vid_at Lv) as (pv & Gv & <-). rewrite Gu in Ga. rewrite Gv in Gb. apply Ok_inj in Ga, Gb. subst va vb.
      rewrite (orient_loc o). auto.
    + intros Hu a b (i & Li & Ka & Kb). rewrite map_length in *. rewrite nth_error_map in Ka, Kb.
      destruct (nth_error (face F k) i) as [u|] eqn:Eu; [|discriminate]. destruct (nth_error (face F k) ((i + 1) mod length (face F k))) as [v|] eqn:Ev; [|discriminate].
      injection Ka as <-. injection Kb as <-.
      assert (Lu : u < M) by (apply nth_error_In in Eu; apply (face_lt n3 Ht Hk Eu)). assert (Lv : v < M) by (apply nth_error_In in Ev; apply (face_lt n3 Ht Hk Ev)).
      destruct (vid_at Lu) as (pu & Gu & Pu). destruct (vid_at Lv) as (pv & Gv & Pv). exists pu, pv. split; auto. split; auto.
      rewrite <- (orient_loc o), Pu, Pv. apply Hu. apply cyc_nth. eauto.
  - unfold near, nearest_wall. rewrite (wall_wd _ He), Gl, Hlen. split; intros [H1 H2]; split; auto.
    + intros e' He'. apply In_nth_error in He' as (j & Hj). assert (Lj : j < n) by (apply nth_error_Some; congruence). specialize (H2 j Lj). rewrite (wall_wd _ Hj), Gl in H2. auto.
    + intros j Lj. destruct (wall_of Lj) as (f & Ef). rewrite (wall_wd _ Ef), Gl. apply H2. apply nth_error_In in Ef. auto.
Qed.

Lemma made_slope hgt tan : slope out hgt tan = Ok s -> slope_of c nodes hgt tan s.
Proof.
  unfold slope. rewrite ntruth_R. destruct (Reqb_spec hgt 0) as [E|E]; cbn [negb].
  - intros K. apply Ok_inj in K. left. auto.
  - intros K. right. split; auto. apply bind_ok in K as (m & Km & K). unfold max_height in Km.
    destruct (map (@height RA) out) as [|h t] eqn:Em; [discriminate|]. apply Ok_inj in Km.
    rewrite pdiv_R in K. destruct (Reqb_spec m 0) as [Z0|Z0]; [discriminate|]. apply Ok_inj in K.
    assert (Im : In m (map (@height RA) out)) by (rewrite Em, <- Km; apply first_best_in).
    assert (Hmax : forall x, In x (map (@height RA) out) -> (x <= m)%R).
    { rewrite Em, <- Km. clear. revert h. induction t as [|y t IH]; intros h x [<-|K]; simpl in *; try lra; try (destruct K; fail).
      - destruct (Rltb_spec h y); [eapply Rle_trans; [|apply IH; left; reflexivity]; lra|apply IH; auto].
      - destruct K as [<-|K].
        + destruct (Rltb_spec h y); [apply IH; auto|eapply Rle_trans; [|apply IH; left; reflexivity]; lra].
        + destruct (Rltb_spec h y); apply IH; auto. }
    apply in_map_iff in Im as (a & Ha & Ia). apply In_nth_error in Ia as (k & Hk). destruct (out_node Hr Hk) as (L & S1 & H1). rewrite Hlen in *.
    destruct (node_get L) as (v & G1 & _). destruct (node_at G1) as (_ & Gv & _).
    exists v, m. split; [eapply nth_error_In; eauto|]. split; [|split].
    + rewrite Gv, <- Ha, H1. apply roof_at. lia.
    + rewrite <- K. field. auto.
    + intros v' h' Iv Rp. apply In_nth_error in Iv as (k' & Hk'). destruct (node_at Hk') as (L' & Gv' & _). rewrite Gv' in Rp.
      destruct (@roof_at (n + k')) as [Rp' _]; [lia|]. rewrite (roof_point_unique Rp Rp'). apply Hmax. apply in_map_iff.
      pose proof (r_len Hr) as HL. rewrite Hlen in HL. destruct (nth_error out k') as [a'|] eqn:Ea'; [|apply nth_error_None in Ea'; lia].
      exists a'. destruct (out_node Hr Ea') as (_ & _ & Eh). rewrite Hlen in Eh. split; auto. eapply nth_error_In; eauto.
Qed.
End Tree.

Theorem convex_polygonize_all fuel sw sch dbg holes hgt tan faces : n + 2 * (n - 2) < fuel -> holes = None \/ holes = Some [] ->
  let o := polygonize fuel sw sch dbg verts first (Z.of_nat n) holes hgt tan faces None in
  exists w0 nodes s fs face, py_get verts first = Ok w0 /\
    o_verts o = verts ++ nodes /\ length nodes = n - 2 /\ NoDup (map ground nodes) /\
    (forall v, In v nodes -> on_roof c (wz w0) s v) /\ (forall x h, roof_point c x h -> exists v, In v nodes /\ ground v = x) /\ slope_of c nodes hgt tan s /\
    Permutation fs (map face (seq 0 n)) /\
    (forall k e, nth_error c k = Some e -> wall_face verts nodes first n k c e (face k) /\ forall p, under (verts ++ nodes) (face k) p <-> nearest_wall c e p) /\
    o_faces o = option_map (fun old => old ++ fs) faces /\
    o_result o = Ok (match faces with Some old => old ++ fs | None => fs end).
Proof.
  intros Hfu Hh r. destruct (convex_prepare Hc Hfoot Hh) as (w0 & center & c' & G0 & Hp & Hz & Hm & Hid). fold n in Hp.
  pose proof (proj1 Hm) as Hlen. pose proof (moved_convex Hm Hc) as Hc'. fold n in Hlen.
  destruct (@convex_tree c' Hc' (moved_separated Hm Hc Hsep) (moved_simple Hm Hc Hsimple) fuel) as (out & wp & wl & A & B & U & F & P & H & Hraw & Lout & Hr); [rewrite Hlen; auto|].
  pose proof (post_none Hc' (moved_apart Hm Hc Hapart) (moved_blunt Hm Hc Hblunt) Hr Hraw) as Hsk.
  assert (Hs : exists s, slope out hgt tan = Ok s).
  { unfold slope. rewrite ntruth_R. destruct (Reqb_spec hgt 0) as [E|E]; cbn [negb]; [eauto|]. unfold max_height.
    destruct (map (@height RA) out) as [|h t] eqn:Em; [apply map_eq_nil in Em; rewrite Em in Lout; simpl in Lout; lia|]. cbn [bind].
    assert (Im : In (first_best (fun x best => ngtb x best) h t) (map (@height RA) out)) by (rewrite Em; apply first_best_in).
    set (m := first_best _ h t) in *. rewrite pdiv_R. destruct (Reqb_spec m 0) as [Z0|Z0]; [|eauto]. exfalso.
    apply in_map_iff in Im as (a & Ha & Ia). apply In_nth_error in Ia as (k & Hk). destruct (out_node Hr Hk) as (L & _ & H1).
    destruct (r_node Hr (x := length c' + k)) as (_ & Pos & _); [lia|]. rewrite <- H1, Ha, Z0 in Pos. lra. }
  destruct Hs as (s & Hs). set (nodes := map (skeleton_node3D center s (wz w0)) out).
  destruct (kids_exist Hc' Hr) as (kids & Kout & Kin & Kpk).
  assert (Hvl : forall v, v < length c' + (length c' - 2) -> exists w, py_get (verts ++ nodes) (vid c' first N v) = Ok w /\ loc (ground center) (ground w) = P v).
  { intros v Hv. exact (vid_at Hz Hm Hr (wz w0) s Hv). }
  pose proof (first_bound Hm) as Hb.
  destruct (roof_embedded Hc' Hr Hb Kin Kpk Hvl sw sch) as (emb & fs & He & Hg & Hperm).
  pose proof (clean_none Hc' (moved_blunt Hm Hc Hblunt) Hr Hb Hvl Hperm) as Hcl.
  pose proof (roof_graph Hc' Hr N Hid Kout Kin Kpk sw) as Hbg. rewrite Hlen in *.
  exists w0, nodes, s, fs, (roof_face c' F first N). split; auto.
  assert (Hrf : roof_faces sw sch (verts ++ nodes) first (Z.of_nat n) (match holes with Some l => l | None => [] end) (concat [c']) out N = Ok fs).
  { unfold roof_faces. replace (match holes with Some l => l | None => [] end) with (@nil (Z * Z)) by (destruct Hh as [-> | ->]; auto).
    cbn [concat]. rewrite app_nil_r. rewrite Hbg. cbn [bind]. rewrite He. cbn [bind]. rewrite Hg. cbn [bind]. exact Hcl. }
  assert (Ho : o_verts r = verts ++ nodes /\ o_faces r = option_map (fun old => old ++ fs) faces /\ o_result r = Ok (match faces with Some old => old ++ fs | None => fs end)).
  { unfold r, polygonize. rewrite Hp. cbn [bind]. rewrite Hsk. cbn [bind]. rewrite Hs. fold nodes. fold N. rewrite Hrf. destruct faces; cbn [o_verts o_faces o_result option_map]; auto. }
  destruct Ho as (O1 & O2 & O3). split; auto. split; [unfold nodes; rewrite map_length; auto|]. split; [apply (nodes_apart Hz Hm Hr)|].
  split; [intros v; apply (nodes_on_roof Hz Hm Hr)|]. split; [intros x h; apply (nodes_all Hz Hm Hr)|]. split; [apply (made_slope Hz Hm Hr); auto|]. split; auto. split; auto.
  intros k e Hke. split; [apply (made_face Hz Hm Hr); auto|]. intros p. apply (made_tile Hz Hm Hr); auto.
Qed.

Theorem convex_polygonize fuel sw sch dbg holes hgt tan faces : n + 2 * (n - 2) < fuel -> holes = None \/ holes = Some [] ->
  let o := polygonize fuel sw sch dbg verts first (Z.of_nat n) holes hgt tan faces None in
  exists w0 nodes s fs face, py_get verts first = Ok w0 /\
    o_verts o = verts ++ nodes /\ length nodes = n - 2 /\ NoDup (map ground nodes) /\
    (forall v, In v nodes -> on_roof c (wz w0) s v) /\ slope_of c nodes hgt tan s /\
    Permutation fs (map face (seq 0 n)) /\
    (forall k e, nth_error c k = Some e -> wall_face verts nodes first n k c e (face k) /\ forall p, under (verts ++ nodes) (face k) p <-> nearest_wall c e p) /\
    o_faces o = option_map (fun old => old ++ fs) faces /\
    o_result o = Ok (match faces with Some old => old ++ fs | None => fs end).
Proof.
  intros Hfu Hh r. destruct (convex_polygonize_all sw sch dbg hgt tan faces Hfu Hh) as (w0 & nodes & s & fs & face & H1 & H2 & H3 & H4 & H5 & _ & H6).
  exists w0, nodes, s, fs, face. do 5 (split; [auto|]). exact H6.
Qed.

Lemma convex_polygonize_faces fuel sw sch dbg holes hgt tan faces : n + 2 * (n - 2) < fuel -> holes = None \/ holes = Some [] ->
  let o := polygonize fuel sw sch dbg verts first (Z.of_nat n) holes hgt tan faces None in
  exists w0 nodes s fs face, py_get verts first = Ok w0 /\
    o_verts o = verts ++ nodes /\ length nodes = n - 2 /\ NoDup (map ground nodes) /\
    (forall v, In v nodes -> on_roof c (wz w0) s v) /\ slope_of c nodes hgt tan s /\
    Permutation fs (map face (seq 0 n)) /\
    (forall k e, nth_error c k = Some e -> wall_face verts nodes first n k c e (face k)) /\
    o_faces o = option_map (fun old => old ++ fs) faces /\
    o_result o = Ok (match faces with Some old => old ++ fs | None => fs end).
Proof.
  intros Hfu Hh. destruct (convex_polygonize sw sch dbg hgt tan faces Hfu Hh) as (w0 & nodes & s & fs & face & H1 & H2 & H3 & H4 & H5 & H6 & H7 & H8 & H9 & H10).
  exists w0, nodes, s, fs, face. do 7 (split; [auto|]). split; auto. intros k e He. apply H8. auto.
Qed.

Lemma nearest_exists p : exists k e, nth_error c k = Some e /\ forall e', In e' c -> (edge_dist e p <= edge_dist e' p)%R.
Proof.
  assert (G : forall l : list (@edge2 RA), l <> [] -> exists k e, nth_error l k = Some e /\ forall e', In e' l -> (edge_dist e p <= edge_dist e' p)%R).
  { induction l as [|a l IH]; [congruence|]. intros _. destruct l as [|b l].
    - exists 0, a. split; auto. intros e' [<-|[]]. lra.
    - destruct IH as (k & e & K & L); [discriminate|]. destruct (Rle_dec (edge_dist e p) (edge_dist a p)) as [Q|Q].
      + exists (S k), e. split; auto. intros e' [<-|E]; auto.
      + exists 0, a. split; auto. intros e' [<-|E]; [lra|]. specialize (L e' E). lra. }
  apply G. intros E. pose proof n3 as K. unfold n in K. rewrite E in K. simpl in K. lia.
Qed.

Lemma convex_polygonize_tiles fuel sw sch dbg holes hgt tan faces : n + 2 * (n - 2) < fuel -> holes = None \/ holes = Some [] ->
  let o := polygonize fuel sw sch dbg verts first (Z.of_nat n) holes hgt tan faces None in
  exists w0 s fs face, py_get verts first = Ok w0 /\
    o_result o = Ok (match faces with Some old => old ++ fs | None => fs end) /\ Permutation fs (map face (seq 0 n)) /\
    (forall k e p, nth_error c k = Some e -> (under (o_verts o) (face k) p <-> nearest_wall c e p)) /\
    (forall p, (forall e, In e c -> 0 <= edge_dist e p)%R -> exists f, In f fs /\ under (o_verts o) f p) /\
    (forall k e j v, nth_error c k = Some e -> In j (face k) -> (Z.of_nat (length verts) <= j)%Z -> py_get (o_verts o) j = Ok v ->
       wz v = (wz w0 + s * edge_dist e (ground v))%R).
Proof.
  intros Hfu Hh o. destruct (convex_polygonize sw sch dbg hgt tan faces Hfu Hh) as (w0 & nodes & s & fs & face & H1 & H2 & H3 & H4 & H5 & H6 & H7 & H8 & H9 & H10).
  exists w0, s, fs, face. fold o in H2, H10. split; auto. split; auto. split; auto. rewrite H2. split; [|split].
  - intros k e p He. destruct (H8 k e He) as [_ G]. apply G.
  - intros p Hin. destruct (nearest_exists p) as (k & e & He & L). exists (face k). split.
    + apply (Permutation_in _ (Permutation_sym H7)). apply in_map. apply in_seq. split; [lia|]. apply nth_error_Some. congruence.
    + destruct (H8 k e He) as [_ G]. apply G. split; auto. apply Hin. apply nth_error_In in He. auto.
  - intros k e j v He Hj Lj Gj. destruct (H8 k e He) as [(rest & Ef & _ & _ & Hrest & _) _]. rewrite Ef in Hj.
    assert (Hk : k < n) by (apply nth_error_Some; congruence).
    assert (B : forall i, i < n -> (first + Z.of_nat i < Z.of_nat (length verts))%Z).
    { intros i Hi. destruct (foot_vert Hc Hfoot Hi) as (e0 & w & _ & G & _). apply index_lt in G; lia. }
    destruct Hj as [<-|[<-|Hj]]; [specialize (B k Hk); lia|specialize (B (S k mod n) ltac:(apply Nat.mod_upper_bound; pose proof n3; lia)); lia|].
    apply Hrest in Hj as (i & v' & -> & Hv & Rp). rewrite py_get_app_node in Gj by (apply nth_error_Some; congruence). rewrite Hv in Gj. apply Ok_inj in Gj. subst v'.
    destruct (H5 v (nth_error_In _ _ Hv)) as (h & _ & Rp' & ->). rewrite (roof_point_unique Rp Rp'). auto.
Qed.
End Poly.
