(** * PyramidPoly: the roof polygonize puts over a footprint with an inscribed circle (C52) *)

From Coq Require Import Permutation Reals Lra.
From Verif Require Import Py PyFacts Arith ArithR Euclid Graph GraphSpec GraphProofs Lav Cluster Poly PySort ClusterSpec GeoSpec GeoLines BisSpec BisProofs BisStart
  PatSpec PolyR PolyFaces TriSpec TriSkel TriRoof ConvexSpec ConvexGeo ConvexWave RoofSpec ConvexComb ConvexTree ConvexPost ConvexFaces ConvexGraph ConvexClean ConvexMove
  PyramidSpec PyramidSkel PyramidGraph.
Set Implicit Arguments.
Unset Strict Implicit.
Local Open Scope nat_scope.

Lemma glob_loc o p : glob o (loc o p) = p.
Proof. destruct p as [a b]. unfold glob, loc, rvec. cbn [vx vy]. apply vec_ext; cbn [vx vy]; change (num RA) with R in *; ring. Qed.

Lemma moved_tangential o c c' x r : moved o c c' -> tangential c x r -> tangential c' (loc o x) r.
Proof.
  intros Hm [Hr He]. split; auto. intros e' He'. destruct (moved_in Hm He') as (e & Ie & A1 & A2 & _). rewrite (moved_dist _ A1 A2), glob_loc. auto.
Qed.

Section Poly.
Variable verts : list (vec3 RA).
Variable first : Z.
Hypothesis Hfirst : (0 <= first)%Z.
Variable c : list (@edge2 RA).
Hypothesis Hfoot : footprint verts first c.
Hypothesis Hc : convex_contour c.
Variables (x : vec RA) (r : R).
Hypothesis Ht : tangential c x r.
Let n := length c.
Let n3 : 3 <= n := n_pos Hc.
Let N := Z.of_nat (length verts).

Theorem pyramid_polygonize fuel sw sch dbg holes hgt tan faces : n + 2 * (n - 2) < fuel -> holes = None \/ holes = Some [] ->
  let o := polygonize fuel sw sch dbg verts first (Z.of_nat n) holes hgt tan faces None in
  exists w0 h fs, py_get verts first = Ok w0 /\ top_height hgt tan r (wz w0) h /\
    o_verts o = verts ++ [V3 (A := RA) (vx x) (vy x) h] /\
    Permutation fs (map (fun k => [first + Z.of_nat k; first + Z.of_nat (S k mod n); N]%Z) (seq 0 n)) /\
    o_faces o = option_map (fun old => old ++ fs) faces /\
    o_result o = Ok (match faces with Some old => old ++ fs | None => fs end).
Proof.
  intros Hfu Hh out. destruct (convex_prepare Hc Hfoot Hh) as (w0 & center & c' & G0 & Hp & Hz & Hm & Hid). fold n in Hp.
  pose proof (proj1 Hm) as Hlen. pose proof (moved_convex Hm Hc) as Hc'. fold n in Hlen. pose proof (moved_tangential Hm Ht) as Ht'.
  set (x' := loc (ground center) x) in *.
  destruct (@skeleton_pyramid c' Hc' x' r Ht' fuel) as (l & Hsk & Hl); [rewrite Hlen; auto|]. rewrite Hlen in Hl.
  apply Permutation_map_inv in Hl as (order & -> & Hord). set (sk := [Subtree (A := RA) x' r (map (pnt c') order)]) in *.
  assert (Hr : (0 < r)%R) by apply Ht.
  assert (Hs : exists s, slope sk hgt tan = Ok s /\ top_height hgt tan r (wz w0) (wz w0 + s * r)).
  { unfold slope, top_height. rewrite ntruth_R. destruct (Reqb_spec hgt 0) as [E|E]; cbn [negb].
    - exists tan. split; auto.
    - unfold max_height, sk. cbn [map height first_best fold_left bind]. rewrite pdiv_R. destruct (Reqb_spec r 0) as [Z0|Z0]; [lra|].
      eexists. split; [reflexivity|]. right. split; auto. field. auto. }
  destruct Hs as (s & Hs & Htop). set (nodes := map (skeleton_node3D center s (wz w0)) sk).
  assert (En : nodes = [V3 (A := RA) (vx x) (vy x) (wz w0 + s * r)%R]).
  { unfold nodes, sk. cbn [map]. rewrite skeleton_node3D_R. cbn [source height]. rewrite Hz. unfold x', loc, rvec, ground. cbn [vx vy].
    f_equal. apply f_equal3; match goal with |- @eq _ ?a ?b => change (@eq R a b) end; unfold rvec; cbn [vx vy]; simpl; ring. }
  assert (Hb : (first + Z.of_nat (length c') <= N)%Z).
  { rewrite Hlen. destruct (@foot_vert verts first c Hc Hfoot (n - 1) ltac:(fold n; lia)) as (e & w & _ & G & _). apply index_lt in G; [|lia]. fold N in G. lia. }
  assert (Hvl : forall v, v < S (length c') -> exists w, py_get (verts ++ nodes) (vid c' first N v) = Ok w /\ loc (ground center) (ground w) = P c' x' v).
  { intros v Hv. destruct (Nat.lt_ge_cases v n) as [L|L].
    - destruct (foot_vert Hc Hfoot L) as (e & w & E & G & K & _). exists w. split.
      + rewrite (vid_low Hc') by (rewrite Hlen; auto). apply py_get_app_l; auto. lia.
      + rewrite <- K. destruct (moved_to Hm E) as (e' & E' & A1 & _). rewrite <- A1. unfold P. rewrite Hlen. destruct (Nat.ltb_spec v n); [|lia].
        unfold pnt, edge_at. rewrite Hlen, Nat.mod_small, E' by auto. auto.
    - assert (v = length c') by lia. subst v. exists (V3 (A := RA) (vx x) (vy x) (wz w0 + s * r)%R). split.
      + rewrite (vid_top Hc'). pose proof (@py_get_app_node _ verts nodes 0) as K. unfold N. rewrite Z.add_0_r in K. rewrite K; rewrite En; simpl; auto.
      + unfold P. rewrite Nat.ltb_irrefl. unfold ground. cbn [wx wy]. unfold x'. f_equal. destruct x; auto. }
  rewrite <- Hlen in Hord.
  destruct (pyramid_embedded Hc' Ht' Hb Hord Hvl sw sch) as (emb & fs & He & Hg & Hperm).
  pose proof (pyramid_graph Hc' x' r N Hid Hord sw) as Hbg. fold sk in Hbg. rewrite Hlen in Hbg, Hperm.
  assert (Hperm' : Permutation fs (map (fun k => [first + Z.of_nat k; first + Z.of_nat (S k mod n); N]%Z) (seq 0 n))).
  { erewrite map_ext_in; [exact Hperm|]. intros k Hk. apply in_seq in Hk. unfold pyramid_face. rewrite (vid_top Hc'), Hlen.
    rewrite !(vid_low Hc'); auto; rewrite Hlen; [apply Nat.mod_upper_bound|]; lia. }
  assert (Hcl : (f1 <- remove_spikes (verts ++ nodes) N fs ;; clean_faces (verts ++ nodes) N f1) = Ok fs).
  { apply clean_three. intros f Hf. apply (Permutation_in _ Hperm') in Hf. apply in_map_iff in Hf as (k & <- & Hk). apply in_seq in Hk.
    do 3 eexists. split; [reflexivity|]. rewrite Hlen in Hb. pose proof (Nat.mod_upper_bound (S k) n ltac:(lia)).
    assert (k <> S k mod n). { intros Q. destruct (Nat.eq_dec (S k) n) as [Eq|Eq]; [rewrite Eq, Nat.mod_same in Q; lia|rewrite Nat.mod_small in Q; lia]. }
    lia. }
  exists w0, (wz w0 + s * r)%R, fs. split; auto. split; auto.
  assert (Hrf : roof_faces sw sch (verts ++ nodes) first (Z.of_nat n) (match holes with Some l => l | None => [] end) (concat [c']) sk N = Ok fs).
  { unfold roof_faces. replace (match holes with Some l => l | None => [] end) with (@nil (Z * Z)) by (destruct Hh as [-> | ->]; auto).
    cbn [concat]. rewrite app_nil_r. rewrite Hbg. cbn [bind]. rewrite He. cbn [bind]. rewrite Hg. cbn [bind]. exact Hcl. }
  assert (Ho : o_verts out = verts ++ nodes /\ o_faces out = option_map (fun old => old ++ fs) faces /\ o_result out = Ok (match faces with Some old => old ++ fs | None => fs end)).
  { unfold out, polygonize. rewrite Hp. cbn [bind]. rewrite Hsk. cbn [bind]. rewrite Hs. fold nodes. fold N. rewrite Hrf. destruct faces; cbn [o_verts o_faces o_result option_map]; auto. }
  destruct Ho as (O1 & O2 & O3). rewrite En in O1. split; auto. 
Qed.
End Poly.
