(** * BisCases: concrete cases for PropsBis *)

From Coq Require Import Reals Lra ZArith.
From Verif Require Import Py Arith ArithR ArithF RSpec Euclid Lav LavSpec Cluster ClusterSpec LoopSpec GeoSpec PropsLav
  UnitProofs BisSpec BisProofs BisStart.
Set Implicit Arguments.
Unset Strict Implicit.
Local Open Scope nat_scope.

(** ** the triangle (0,0) (4,0) (0,3) over the real numbers *)
Definition tri : list (@edge2 RA) :=
  [Edge 0 (rvec 0 0) (rvec 4 0) (rvec 1 0) 0 0; Edge 1 (rvec 4 0) (rvec 0 3) (rvec (-4 / 5) (3 / 5)) 0 0;
   Edge 2 (rvec 0 3) (rvec 0 0) (rvec 0 (-1)) 0 0].

Lemma tri_consecutive e1 e2 : consecutive tri e1 e2 ->
  (e1 = nth 2 tri e1 /\ e2 = nth 0 tri e2) \/ (e1 = nth 0 tri e1 /\ e2 = nth 1 tri e2) \/ (e1 = nth 1 tri e1 /\ e2 = nth 2 tri e2).
Proof.
  intros (j & Hj & N1 & N2). simpl in Hj. destruct j as [|[|[|j]]]; simpl in N1, N2; [left|right; left|right; right|lia];
    injection N1 as <-; injection N2 as <-; auto.
Qed.

Lemma tri_closed : closed_contour tri.
Proof.
  split; [discriminate|]. split.
  - assert (S4 : sqrt (4 * 4) = 4%R) by (apply sqrt_square; lra).
    assert (S5 : sqrt (5 * 5) = 5%R) by (apply sqrt_square; lra).
    assert (S3 : sqrt (3 * 3) = 3%R) by (apply sqrt_square; lra).
    intros e [<-|[<-|[<-|[]]]]; unfold directed, euclid_dist, Rsqr; cbn [ep1 ep2 enorm rvec vx vy]; simpl.
    + split; [intros K; pose proof (f_equal (@vx RA) K) as K1; pose proof (f_equal (@vy RA) K) as K2; simpl in K1, K2; lra|].
      match goal with |- context [sqrt ?x] => replace x with (4 * 4)%R by (simpl; ring) end. rewrite S4. split; lra.
    + split; [intros K; pose proof (f_equal (@vx RA) K) as K1; pose proof (f_equal (@vy RA) K) as K2; simpl in K1, K2; lra|].
      match goal with |- context [sqrt ?x] => replace x with (5 * 5)%R by (simpl; ring) end. rewrite S5. split; lra.
    + split; [intros K; pose proof (f_equal (@vx RA) K) as K1; pose proof (f_equal (@vy RA) K) as K2; simpl in K1, K2; lra|].
      match goal with |- context [sqrt ?x] => replace x with (3 * 3)%R by (simpl; ring) end. rewrite S3. split; lra.
  - intros e1 e2 H. destruct (tri_consecutive H) as [(-> & ->)|[(-> & ->)|(-> & ->)]]; reflexivity.
Qed.

Lemma tri_plain e1 e2 : consecutive tri e1 e2 -> plain_corner (concat [tri]) e1 e2.
Proof.
  intros H K. exfalso. unfold turn_sine in K.
  assert (D1 : directed e1 /\ directed e2).
  { destruct tri_closed as (_ & Hd & _). destruct H as (j & _ & N1 & N2). apply nth_error_In in N1, N2. auto. }
  destruct D1 as [D1 D2].
  assert (L1 : (0 < euclid_dist (ep1 e1) (ep2 e1))%R) by (apply dist_pos; apply D1).
  assert (L2 : (0 < euclid_dist (ep1 e2) (ep2 e2))%R) by (apply dist_pos; apply D2).
  assert (L3 : (0 < / (euclid_dist (ep1 e1) (ep2 e1) * euclid_dist (ep1 e2) (ep2 e2)))%R)
    by (apply Rinv_0_lt_compat, Rmult_lt_0_compat; auto).
  assert (Ho : (0 < orient (ep1 e1) (ep2 e1) (ep2 e2))%R).
  { clear -H. destruct (tri_consecutive H) as [(-> & ->)|[(-> & ->)|(-> & ->)]]; unfold orient; simpl; lra. }
  unfold Rdiv in K. pose proof (Rmult_lt_0_compat _ _ Ho L3). lra.
Qed.

Lemma tri_dormers : detectDormers [tri] = Ok [].
Proof.
  apply no_dormers; [discriminate|]. intros e1 e2 H.
  destruct (tri_consecutive H) as [(-> & ->)|[(-> & ->)|(-> & ->)]]; unfold ncross; simpl; lra.
Qed.

(** ** IEEE arithmetic: an L with a right-angled reflex corner *)
Definition bent := polygon 0 [Pt 0 0; Pt 10 0; Pt 10 5; Pt 4 5; Pt 4 10; Pt 0 10].

(** its first node is within 1/1000 of the distance [height] of only one edge *)
Lemma bent_node_off :
  exists (c : list (@edge2 F64)) fuel out a, raw_skeleton fuel [c] = Ok out /\ In a out /\
  length (edges_at c a (lit (a := F64) 1 1000)) < 3.
Proof.
  assert (H : match raw_skeleton 100 [bent] with
              | Ok (a :: _) => Nat.ltb (length (edges_at bent a (lit (a := F64) 1 1000))) 3
              | _ => false end = true) by (vm_compute; reflexivity).
  destruct (raw_skeleton 100 [bent]) as [[|a out]|] eqn:Er; [discriminate H| |discriminate H].
  apply Nat.ltb_lt in H. exists bent, 100, (a :: out), a. exact (conj Er (conj (or_introl eq_refl) H)).
Qed.

(** a concave quadrangle with a reflex corner that is not right-angled: the event loop creates no reflex vertex,
    and each node is within 1e-5 of the distance [height] of at least three edges *)
Definition dart := polygon 0 [Pt 0 0; Pt 20 0; Pt 20 10; Pt 10 4; Pt 0 12].
Lemma dart_nodes :
  match skeleton_start [dart] with
  | Ok st0 => match event_loop 100 st0 with
    | Ok st => (length (lo_out st), existsb (@v_reflex F64) (firstn 5 (s_vs (lo_slav st))),
                existsb (@v_reflex F64) (skipn 5 (s_vs (lo_slav st))),
                forallb (fun a => Nat.leb 3 (length (edges_at dart a (lit (a := F64) 1 100000)))) (lo_out st))
    | Err _ => (0, true, true, false) end
  | Err _ => (0, true, true, false) end = (3, true, false, true).
Proof. vm_compute. reflexivity. Qed.
