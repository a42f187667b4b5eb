(** * FootCases: footprints for which the roof is wrong *)

From Coq Require Import ZArith List Lia Bool.
From Verif Require Import Py PyFacts Arith ArithF Euclid Lav Cluster Poly LoopSpec WaveSpec PropsLav WaveCases FootSpec.
Import ListNotations.
Set Implicit Arguments.
Unset Strict Implicit.
Local Open Scope Z_scope.

Definition idx {T} (ps : list T) : list (nat * T) := combine (seq 0 (length ps)) ps.

Lemma idx_in T (ps : list T) i a : nth_error ps i = Some a -> In (i, a) (idx ps).
Proof.
  intros H. assert (L : (i < length ps)%nat) by (apply nth_error_Some; congruence).
  apply (nth_error_In _ i). unfold idx.
  assert (G : forall (l : list T) s j b, nth_error l j = Some b -> nth_error (combine (seq s (length l)) l) j = Some ((s + j)%nat, b)).
  { clear. induction l as [|x l IH]; intros s [|j] b Hb; simpl in *; try discriminate.
    - injection Hb as <-. rewrite Nat.add_0_r. auto.
    - rewrite (IH (S s) j b Hb). replace (s + S j)%nat with (S s + j)%nat by lia. auto. }
  exact (G ps O i a H).
Qed.

Definition convexb (ps : list (Z * Z)) : bool :=
  (3 <=? length ps)%nat &&
  forallb (fun x => forallb (fun y => forallb (fun z =>
    negb (fst x <? fst y)%nat || negb (fst y <? fst z)%nat || (0 <? orientZ (snd x) (snd y) (snd z))) (idx ps)) (idx ps)) (idx ps).

Lemma convexb_spec ps : convexb ps = true -> convex_foot ps.
Proof.
  unfold convexb. intros H. apply andb_true_iff in H as [H1 H2]. split; [apply Nat.leb_le; auto|].
  intros i j k a b c Hi Hj Ha Hb Hc. rewrite forallb_forall in H2. specialize (H2 _ (idx_in Ha)).
  rewrite forallb_forall in H2. specialize (H2 _ (idx_in Hb)). rewrite forallb_forall in H2. specialize (H2 _ (idx_in Hc)).
  cbn [fst snd] in H2. apply Nat.ltb_lt in Hi, Hj. rewrite Hi, Hj in H2. simpl in H2. apply Z.ltb_lt. auto.
Qed.

Definition apartb (a b c d : Z * Z) : bool :=
  (Z.max (fst a) (fst b) <? Z.min (fst c) (fst d)) || (Z.max (fst c) (fst d) <? Z.min (fst a) (fst b)) ||
  (Z.max (snd a) (snd b) <? Z.min (snd c) (snd d)) || (Z.max (snd c) (snd d) <? Z.min (snd a) (snd b)) ||
  (0 <? orientZ a b c * orientZ a b d) || (0 <? orientZ c d a * orientZ c d b).

Lemma apartb_spec a b c d : apartb a b c d = true -> apart a b c d.
Proof. unfold apartb, apart. rewrite !orb_true_iff, !Z.ltb_lt. tauto. Qed.

Definition simpleb (ps : list (Z * Z)) : bool :=
  let n := length ps in
  (3 <=? n)%nat && (0 <? area2 ps) &&
  forallb (fun i => match cyc ps i, cyc ps (i + 1), cyc ps (i + 2) with
    | Some a, Some b, Some c => negb (orientZ a b c =? 0) | _, _, _ => true end) (seq 0 n) &&
  forallb (fun i => forallb (fun j =>
    if (i + 1 <? j)%nat && (j + 1 <? i + n)%nat then
      match cyc ps i, cyc ps (i + 1), cyc ps j, cyc ps (j + 1) with
      | Some a, Some b, Some c, Some d => apartb a b c d | _, _, _, _ => true end
    else true) (seq 0 n)) (seq 0 n).

Lemma simpleb_spec ps : simpleb ps = true -> simple_foot ps.
Proof.
  unfold simpleb. intros H. apply andb_true_iff in H as [H H4]. apply andb_true_iff in H as [H H3].
  apply andb_true_iff in H as [H1 H2]. split; [apply Nat.leb_le; auto|]. split; [apply Z.ltb_lt; auto|]. split.
  - intros i a b c Hi Ha Hb Hc. rewrite forallb_forall in H3. specialize (H3 i). rewrite Ha, Hb, Hc in H3.
    apply Z.eqb_neq, negb_true_iff, H3. apply in_seq. lia.
  - intros i j a b c d Hij Hj Hn Ha Hb Hc Hd. rewrite forallb_forall in H4. specialize (H4 i ltac:(apply in_seq; lia)).
    rewrite forallb_forall in H4. specialize (H4 j ltac:(apply in_seq; lia)).
    apply Nat.ltb_lt in Hij, Hn. rewrite Hij, Hn, Ha, Hb, Hc, Hd in H4. apply apartb_spec. exact H4.
Qed.

Definition faces_of (den : positive) ps : list (list Z) := match o_result (roof_of den ps) with Ok fs => fs | Err _ => [] end.

Lemma faces_of_ok den ps f : In f (faces_of den ps) -> exists fs, o_result (roof_of den ps) = Ok fs /\ In f fs.
Proof. unfold faces_of. destruct (o_result (roof_of den ps)) as [fs|x]; [eauto|intros []]. Qed.

Definition has_face (g : list Z) (fs : list (list Z)) : bool :=
  existsb (fun f => if list_eq_dec Z.eq_dec f g then true else false) fs.

Lemma has_face_in g fs : has_face g fs = true -> In g fs.
Proof.
  unfold has_face. intros H. apply existsb_exists in H as (f & Hf & He).
  destruct (list_eq_dec Z.eq_dec f g) as [<-|]; [exact Hf|discriminate].
Qed.

Lemma node_split den ps k (P Q : vec3 F64 -> bool) :
  match nth_error (o_verts (roof_of den ps)) k with Some v => P v && Q v | None => false end = true ->
  exists v, nth_error (o_verts (roof_of den ps)) k = Some v /\ P v = true /\ Q v = true.
Proof.
  destruct (nth_error (o_verts (roof_of den ps)) k) as [v|]; [|discriminate]. intros H. apply andb_true_iff in H as [H1 H2]. eauto.
Qed.

(** ** a convex footprint with a rounded end: one face for two walls, the ridge between them is missing *)
Definition apse9 : list (Z * Z) :=
  [(1596868, 574175); (-81164, 290536); (-173160, 254053); (-292409, 126581); (-301222, -8736);
   (-275067, -219912); (-76353, -291349); (1495953, -557118); (1716830, -1921)].

Lemma apse9_convex : convex_foot apse9.
Proof. apply convexb_spec. vm_compute. reflexivity. Qed.

Lemma apse9_faces : faces_of 100000 apse9 =
  [[8; 0; 9]; [7; 8; 9; 10]; [0; 1; 11; 6; 7; 10; 9]; [1; 2; 11]; [2; 3; 11]; [3; 4; 11]; [4; 5; 11]; [5; 6; 11]].
Proof. vm_compute. reflexivity. Qed.

Lemma two_walls : exists ps fs f, convex_foot ps /\ o_result (roof_of 100000 ps) = Ok fs /\ In f fs /\
  has_wall (Z.of_nat (length ps)) 0 f /\ has_wall (Z.of_nat (length ps)) 6 f.
Proof.
  destruct (@faces_of_ok 100000 apse9 [0; 1; 11; 6; 7; 10; 9]) as (fs & H1 & H2); [rewrite apse9_faces; simpl; auto|].
  exists apse9, fs, [0; 1; 11; 6; 7; 10; 9]. split; [apply apse9_convex|]. split; [exact H1|]. split; [exact H2|].
  split; [exists O|exists 3%nat]; split; reflexivity.
Qed.

(** its wavefront does not vanish *)
Definition apse9_contour := polygon 0 (map (fun p => V2 (lit (a := F64) (fst p) 100000) (lit (a := F64) (snd p) 100000)) apse9).
Lemma apse9_run : summary (run [apse9_contour]) = (1, 6, 0, 1)%nat.
Proof. vm_compute. reflexivity. Qed.

(** ** a rectilinear footprint: a node far away from the wall of its face *)
Definition wing10 : list (Z * Z) :=
  [(0, -1); (5, -1); (5, -4); (10, -4); (10, -2); (16, -2); (16, 4); (5, 4); (5, 3); (0, 3)].

Lemma wing10_simple : simple_foot wing10.
Proof. apply simpleb_spec. vm_compute. reflexivity. Qed.

Lemma wing10_face : has_face [5; 6; 13] (faces_of 1 wing10) = true.
Proof. vm_compute. reflexivity. Qed.

Lemma wing10_node : match nth_error (o_verts (roof_of 1 wing10)) 13 with
  | Some v => nltb (wx v) (lit (a := F64) 8 1) && nltb (wz v) (lit (a := F64) 3 1) | None => false end = true.
Proof. vm_compute. reflexivity. Qed.

(** wall 5 of the footprint lies on x = 16, a node of its face lies below 3 and more than 8 away from it *)
Lemma wrong_slope : exists ps fs f k v, simple_foot ps /\ o_result (roof_of 1 ps) = Ok fs /\ In f fs /\
  has_wall (Z.of_nat (length ps)) 5 f /\ nth_error ps 5 = Some (16, -2) /\ nth_error ps 6 = Some (16, 4) /\
  In (Z.of_nat k) f /\ nth_error (o_verts (roof_of 1 ps)) k = Some v /\
  nltb (wx v) (lit (a := F64) 8 1) = true /\ nltb (wz v) (lit (a := F64) 3 1) = true.
Proof.
  destruct (faces_of_ok (has_face_in wing10_face)) as (fs & H1 & H2).
  destruct (@node_split 1 wing10 13 (fun v => nltb (wx v) (lit (a := F64) 8 1)) (fun v => nltb (wz v) (lit (a := F64) 3 1)) wing10_node)
    as (v & En & V1 & V2).
  exists wing10, fs, [5; 6; 13], 13%nat, v. split; [apply wing10_simple|]. split; [exact H1|]. split; [exact H2|].
  split; [exists O; split; reflexivity|]. split; [reflexivity|]. split; [reflexivity|]. split; [simpl; auto|].
  exact (conj En (conj V1 V2)).
Qed.

(** ** an edge event whose vertices are no longer neighbours *)
Section Stale.
Context {A : arith}.
Implicit Types st : @loop_state A.

Lemma run_batch_stale st0 evs : forall st k st' e, run_batch st k evs = Stale st' e -> history st0 st evs k ->
  exists t k', history st0 st' (e :: t) k' /\ currentb (lo_slav st') e = false.
Proof.
  induction evs as [|e0 t0 IH]; intros st k st' e; cbn [run_batch]; [discriminate|].
  destruct (currentb (lo_slav st) e0) eqn:Ec.
  - destruct (handle_event (lo_slav st) e0) as [[[s1 arcs] new]|x] eqn:Eh; [|discriminate].
    intros H Hh. apply (IH _ _ _ _ H). pose proof (joinedb_spec (lo_slav st) s1) as J.
    destruct (joinedb (lo_slav st) s1); [eapply history_join|eapply history_event]; eauto using currentb_spec.
  - intros [= <- <-] Hh. eauto.
Qed.

Lemma run_loop_stale st0 fuel : forall st k st' e, run_loop fuel st k = Stale st' e -> history st0 st [] k ->
  exists t k', history st0 st' (e :: t) k' /\ currentb (lo_slav st') e = false.
Proof.
  induction fuel as [|f IH]; intros st k st' e; cbn [run_loop]; [discriminate|].
  destruct (lo_queue st) as [|e0 q0] eqn:Eq; [discriminate|].
  destruct (s_act (lo_slav st)) as [|l0 a0] eqn:Ea; [discriminate|].
  destruct (getAllEqualDistance (e0 :: q0)) as [[b q']|] eqn:Eg; [|discriminate].
  destruct (run_batch _ k b) as [st1 k1|st1 e1|] eqn:Er; try discriminate.
  - intros H Hh. apply (IH _ _ _ _ H). eapply run_batch_history; [exact Er|]. apply history_batch; auto; congruence.
  - intros [= <- <-] Hh. eapply run_batch_stale; [exact Er|]. apply history_batch; auto; congruence.
Qed.

Lemma currentb_false (s : @slav A) e : currentb s e = false -> ~ current s e.
Proof.
  destruct e as [d ip va vb|d ip v opp|d dp vp dn vn de ipe va vb]; simpl; try discriminate.
  destruct (is_valid s va && is_valid s vb) eqn:Ev; [|discriminate]. apply andb_true_iff in Ev as [V1 V2].
  intros H K. specialize (K V1 V2). apply Nat.eqb_neq in H. auto.
Qed.

Lemma run_stale contours n m : summary (run contours) = (2, n, 0, m)%nat ->
  exists st0 st e t k, skeleton_start contours = Ok st0 /\ history st0 st (e :: t) k /\ ~ current (lo_slav st) e.
Proof.
  unfold run. destruct (skeleton_start contours) as [st0|x]; [|discriminate].
  destruct (run_loop 1000 st0 0) as [st k1|st e|] eqn:Er; try discriminate. cbn [summary]. intros _.
  destruct (run_loop_stale (st0 := st0) Er) as (t & k' & H1 & H2); [constructor|].
  exists st0, st, e, t, k'. split; auto. split; auto. apply currentb_false; auto.
Qed.

End Stale.

Definition contour_of (ps : list (Z * Z)) := polygon 0 (map (fun p => Pt (fst p) (snd p)) ps).

Definition wing12 : list (Z * Z) :=
  [(0, -1); (5, -1); (5, -4); (10, -4); (10, -2); (16, -2); (16, 3); (10, 3); (10, 4); (5, 4); (5, 3); (0, 3)].
Lemma wing12_simple : simple_foot wing12.
Proof. apply simpleb_spec. vm_compute. reflexivity. Qed.
Lemma wing12_wave : waveb [contour_of wing12] = true.
Proof. vm_compute. reflexivity. Qed.
Lemma wing12_stale : summary (run [contour_of wing12]) = (2, 9, 0, 1)%nat.
Proof. vm_compute. reflexivity. Qed.

Lemma stale_event : exists ps st0 st e t k, simple_foot ps /\ detectDormers [contour_of ps] = Ok [] /\
  skeleton_start [contour_of ps] = Ok st0 /\ history st0 st (e :: t) k /\ ~ current (lo_slav st) e.
Proof.
  destruct (run_stale wing12_stale) as (st0 & st & e & t & k & H1 & H2 & H3).
  exists wing12, st0, st, e, t, k. split; [apply wing12_simple|]. split; [apply (waveb_spec wing12_wave)|].
  exact (conj H1 (conj H2 H3)).
Qed.

(** ** a footprint with a dormer for which the event loop raises an exception *)
Definition dormer20 : list (Z * Z) :=
  [(0, -2); (2, -2); (2, 0); (6, 0); (6, -3); (8, -3); (8, 0); (11, 0); (11, -3); (21, -3); (21, 3); (17, 3); (17, 4); (11, 4);
   (11, 8); (6, 8); (6, 2); (2, 2); (2, 7); (0, 7)].
Lemma dormer20_simple : simple_foot dormer20.
Proof. apply simpleb_spec. vm_compute. reflexivity. Qed.
Definition raises {T} (r : res T) : bool := match r with Err RuntimeError => true | _ => false end.
Lemma raises_spec T (r : res T) : raises r = true -> r = Err RuntimeError.
Proof. destruct r as [o|x]; [discriminate|]. destruct x; try discriminate. reflexivity. Qed.
Lemma dormer20_raises : raises (raw_skeleton 200 [contour_of dormer20]) = true.
Proof. vm_compute. reflexivity. Qed.

Lemma loop_raises : exists ps, simple_foot ps /\ raw_skeleton 200 [contour_of ps] = Err RuntimeError.
Proof. exists dormer20. exact (conj dormer20_simple (raises_spec dormer20_raises)). Qed.
