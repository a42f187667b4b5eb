(** * DormCases: a house with a dormer of any width and any sides (cases for C69) *)

From Coq Require Import Reals Lra Lia.
From Verif Require Import Py PyFacts Arith ArithR ArithF Euclid Lav Cluster LavSpec PropsLav BisCases LavInit LavWave Poly FootSpec FootCases TestSpec StepSpec StepCases PatSpec LoopSpec DormSpec DormProofs.
Set Implicit Arguments.
Unset Strict Implicit.
Local Open Scope R_scope.

(** The contour begins at the corner where the dormer begins; the walls beside the dormer run in direction (1, 0). *)
Definition house (w l r : R) : list (@edge2 RA) :=
  let e k a b n := Edge (A := RA) k a b n 0 0 in
  let h := l + r + 1 in
  [e 0%nat (rvec 0 0) (rvec 0 (- l)) (rvec 0 (-1)); e 1%nat (rvec 0 (- l)) (rvec w (- l)) (rvec 1 0);
   e 2%nat (rvec w (- l)) (rvec w (r - l)) (rvec 0 1); e 3%nat (rvec w (r - l)) (rvec (w + 2) (r - l)) (rvec 1 0);
   e 4%nat (rvec (w + 2) (r - l)) (rvec (w + 2) h) (rvec 0 1); e 5%nat (rvec (w + 2) h) (rvec (-2) h) (rvec (-1) 0);
   e 6%nat (rvec (-2) h) (rvec (-2) 0) (rvec 0 (-1)); e 7%nat (rvec (-2) 0) (rvec 0 0) (rvec 1 0)].

Ltac veq := unfold moved, rvec; cbn [vx vy]; apply (f_equal2 (V2 (A := RA))); change (num RA) with R; ring.

Lemma house_dormer w l r : 0 < w -> 0 < l -> 0 < r -> right_dormer (house w l r) 0 (rvec 1 0) w l r.
Proof.
  intros Hw Hl Hr. split; [unfold rvec; cbn [vx vy]; ring|]. do 3 (split; [assumption|]). unfold house. cbv zeta.
  do 5 eexists. do 5 (split; [reflexivity|]). cbn [enorm ep1 ep2].
  split; [reflexivity|]. split; [veq|]. split; [veq|]. split; [reflexivity|]. split; [reflexivity|].
  split; [exists 2; split; [lra|veq]|]. do 6 (split; [veq|]). exists 2. split; [lra|veq].
Qed.

Lemma house_start w l r : exists s0, init_slav [house w l r] = Ok s0 /\ keeps s0 s0 /\ woven s0 [[0; 1; 2; 3; 4; 5; 6; 7]%nat] /\
  length (s_vs s0) = 8%nat.
Proof.
  assert (Hne : forall c, In c [house w l r] -> c <> []) by (intros c [<-|[]]; discriminate).
  destruct (init_slav_ok Hne) as (s & H1 & H2 & _). exists s. split; auto. split; [repeat split; auto|]. split; [|apply H2].
  destruct (wavefront_wfL H2 Hne) as (W1 & W2 & W3).
  exists (contour_ids [house w l r]). split; auto. split; [|split; auto].
  - intros k Hk. destruct (W2 k Hk) as ((K1 & K2 & K3 & K4) & K5). do 4 (split; [assumption|]). intros i Hin.
    destruct (K4 i Hin) as (V1 & V2 & V3 & _). auto.
  - assert (Hact : s_act s = seq 0 1) by apply H2. rewrite Hact. reflexivity.
Qed.

Lemma house_walls w l r : exists before side1 side2 after, dormer_walls (house w l r) 0 before side1 side2 after.
Proof. do 4 eexists. repeat split; reflexivity. Qed.

Definition side_of (w l r : R) : @edge2 RA := Edge (A := RA) 0 (rvec 0 0) (rvec 0 (- l)) (rvec 0 (-1)) 0 0.

Lemma house_event w l r s0 d dp dn de ipe : 0 < w -> 0 < l -> 0 < r ->
  init_slav [house w l r] = Ok s0 -> keeps s0 s0 -> woven s0 [[0; 1; 2; 3; 4; 5; 6; 7]%nat] -> length (s_vs s0) = 8%nat ->
  let p := valley (rvec 0 0) (rvec 1 0) w l r in
  (w < Rabs (l - r) -> handle_event s0 (DormerEv d dp 0 dn 3 de ipe 1 2) = Err TypeError) /\
  (Rabs (l - r) <= w -> exists s', handle_event s0 (DormerEv d dp 0 dn 3 de ipe 1 2) =
     Ok (s', [Subtree ipe de [spot s0 1; spot s0 2; p]; Subtree p (ndiv (nadd dp dn) twoN) [spot s0 0; spot s0 3]], []) /\ woven s' [[4; 5; 6; 7]%nat]).
Proof.
  intros Hw Hl Hr H1 H2 H3 H4.
  assert (E : edge_at (house w l r) 0 = Some (side_of w l r)) by reflexivity.
  assert (L : (0 + 3 < length (house w l r))%nat) by (unfold house; cbn [length]; lia).
  assert (L1 : (1 < length (s_vs s0))%nat) by (rewrite H4; lia). assert (L2 : (2 < length (s_vs s0))%nat) by (rewrite H4; lia).
  assert (N : [4; 5; 6; 7]%nat <> []) by discriminate.
  exact (@dormer_event (house w l r) [] s0 s0 0 (rvec 1 0) w l r (side_of w l r) d dp dn de ipe 1 2 1 2 [4; 5; 6; 7]%nat [] H1 H2 L (house_dormer Hw Hl Hr) E H3 N L1 L2).
Qed.

Lemma house_spots w l r s0 : init_slav [house w l r] = Ok s0 ->
  spot s0 0 = rvec 0 0 /\ spot s0 1 = rvec 0 (- l) /\ spot s0 2 = rvec w (- l) /\ spot s0 3 = rvec w (r - l).
Proof.
  intros H.
  assert (K : forall i e1 e2, (i < 8)%nat -> edge_at (house w l r) (i + 8 - 1) = Some e1 -> edge_at (house w l r) i = Some e2 -> spot s0 i = ep1 e2).
  { intros i e1 e2 Hi E1 E2. destruct (@start_corner (house w l r) [] s0 i e1 e2 H Hi E1 E2) as (_ & B & _). exact B. }
  repeat split.
  - etransitivity; [eapply (K 0%nat); [lia|reflexivity|reflexivity]|reflexivity].
  - etransitivity; [eapply (K 1%nat); [lia|reflexivity|reflexivity]|reflexivity].
  - etransitivity; [eapply (K 2%nat); [lia|reflexivity|reflexivity]|reflexivity].
  - etransitivity; [eapply (K 3%nat); [lia|reflexivity|reflexivity]|reflexivity].
Qed.

Lemma house_deep : exists s0, init_slav [house 1 8 6] = Ok s0 /\ forall d dp dn de ipe,
  handle_event s0 (DormerEv d dp 0 dn 3 de ipe 1 2) = Err TypeError.
Proof.
  destruct (house_start 1 8 6) as (s0 & H1 & H2 & H3 & H4). exists s0. split; [exact H1|]. intros d dp dn de ipe.
  apply (@house_event 1 8 6 s0 d dp dn de ipe); [lra|lra|lra|exact H1|exact H2|exact H3|exact H4|].
  rewrite Rabs_pos_eq; lra.
Qed.

Lemma house_even : exists s0, init_slav [house 1 2 2] = Ok s0 /\ forall d dp dn de ipe, exists s',
  handle_event s0 (DormerEv d dp 0 dn 3 de ipe 1 2) =
  Ok (s', [Subtree ipe de [rvec 0 (-2); rvec 1 (-2); rvec (1 / 2) (1 / 2)]; Subtree (rvec (1 / 2) (1 / 2)) (ndiv (nadd dp dn) twoN) [rvec 0 0; rvec 1 0]], []).
Proof.
  destruct (house_start 1 2 2) as (s0 & H1 & H2 & H3 & H4). exists s0. split; [exact H1|]. intros d dp dn de ipe.
  destruct (house_spots H1) as (S0 & S1 & S2 & S3).
  assert (V : valley (rvec 0 0) (rvec 1 0) 1 2 2 = rvec (1 / 2) (1 / 2)).
  { unfold valley, moved, rvec; cbn [vx vy]; apply (f_equal2 (V2 (A := RA))); change (num RA) with R; field. }
  assert (Z0 : 2 - 2 = 0) by ring. rewrite Z0 in S3.
  destruct (@house_event 1 2 2 s0 d dp dn de ipe) as (_ & K); [lra|lra|lra|exact H1|exact H2|exact H3|exact H4|].
  destruct K as (s' & E & _); [rewrite Z0, Rabs_R0; lra|].
  rewrite S0, S1, S2, S3, V in E. exists s'. exact E.
Qed.

(** the oriel of finding 33, as edges *)
Definition oriel_walls : list (@edge2 F64) := polygon 0 [Pt 3 8; Pt 5 8; Pt 5 0; Pt 6 0; Pt 6 6; Pt 11 6; Pt 11 10; Pt 3 10].

Definition unmet (s : @slav F64) (e : @event F64) : bool :=
  match e with
  | DormerEv d dp 1 dn 4 de ipe va vb =>
    match line_intersect (v_bis (getv (s_vs s) 1)) (v_bis (getv (s_vs s) 4)) with Some _ => false | None => true end
  | _ => false
  end.

Lemma oriel_ready : match skeleton_start [oriel_walls] with Ok st => existsb (unmet (lo_slav st)) (lo_queue st) | Err _ => false end = true.
Proof. vm_compute. reflexivity. Qed.

Lemma oriel_unmet : exists st d dp dn de ipe va vb, skeleton_start [oriel_walls] = Ok st /\
  In (DormerEv d dp 1 dn (1 + 3) de ipe va vb) (lo_queue st) /\ (1 + 3 < length oriel_walls)%nat /\ (4 < length oriel_walls)%nat /\
  line_intersect (v_bis (getv (s_vs (lo_slav st)) 1)) (v_bis (getv (s_vs (lo_slav st)) (1 + 3))) = None.
Proof.
  assert (L : length oriel_walls = 8%nat) by (vm_compute; reflexivity).
  pose proof oriel_ready as H. destruct (skeleton_start [oriel_walls]) as [st|x]; [|discriminate H].
  apply existsb_exists in H as (e & He & H). destruct e as [| |d dp vp dn vn de ipe va vb]; try discriminate H.
  cbn [unmet] in H. destruct vp as [|[|vp]]; try discriminate H. do 4 (destruct vn as [|vn]; [discriminate H|]). destruct vn; [|discriminate H].
  destruct (line_intersect _ _) as [p|] eqn:Ep; [discriminate H|].
  exists st, d, dp, dn, de, ipe, va, vb. split; auto. split; auto. rewrite L. split; [lia|]. split; [lia|exact Ep].
Qed.

(** a house of 30 by 20 with a dormer 3 wide and 2 deep *)
Definition plain : list (Z * Z) := [(10, 0); (10, -2); (13, -2); (13, 0); (30, 0); (30, 20); (0, 20); (0, 0)]%Z.

Lemma plain_simple : simple_foot plain.
Proof. apply simpleb_spec. vm_compute. reflexivity. Qed.

Definition at_level (x y z : num F64) (v : vec3 F64) : bool := neqb (wx v) x && neqb (wy v) y && neqb (wz v) z.

Definition plain_test (o : @outcome F64) : bool :=
  match o_result o with Ok _ => true | Err _ => false end &&
  existsb (at_level (lit (a := F64) 23 2) (lit (a := F64) 3 2) (lit (a := F64) 23 4)) (o_verts o).

Lemma plain_run : plain_test (tested 1 plain) = true.
Proof. vm_compute. reflexivity. Qed.

Lemma plain_test_spec o : plain_test o = true -> (exists fs, o_result o = Ok fs) /\ exists v, In v (o_verts o) /\
  neqb (wx v) (lit (a := F64) 23 2) = true /\ neqb (wy v) (lit (a := F64) 3 2) = true /\ neqb (wz v) (lit (a := F64) 23 4) = true.
Proof.
  unfold plain_test. intros H. apply andb_prop in H as [H1 H2]. split.
  - destruct (o_result o) as [fs|x]; [exists fs; reflexivity|discriminate H1].
  - apply existsb_exists in H2 as (v & Hv & H2). exists v. split; [exact Hv|]. unfold at_level in H2.
    apply andb_prop in H2 as [H2 H3]. apply andb_prop in H2 as [H2 H4]. split; [exact H2|]. split; [exact H4|exact H3].
Qed.

Lemma height_refuted : exists ps : list (Z * Z), ps = [(10, 0); (10, -2); (13, -2); (13, 0); (30, 0); (30, 20); (0, 20); (0, 0)]%Z /\
  simple_foot ps /\ (exists fs, o_result (tested 1 ps) = Ok fs) /\ exists v, In v (o_verts (tested 1 ps)) /\
  neqb (wx v) (lit (a := F64) 23 2) = true /\ neqb (wy v) (lit (a := F64) 3 2) = true /\ neqb (wz v) (lit (a := F64) 23 4) = true.
Proof. exists plain. split; [reflexivity|]. split; [exact plain_simple|]. exact (plain_test_spec plain_run). Qed.
