(** * PropsDorm: right-angled dormers (property C69) *)

From Coq Require Import Reals.
From Verif Require Import Py Arith ArithR ArithF Euclid Lav Cluster Poly FootSpec TestSpec LoopSpec StepSpec PatSpec BisSpec DormSpec DormProofs DormCases.
Set Implicit Arguments.
Unset Strict Implicit.
Local Open Scope R_scope.

(** While the four corners of a right-angled dormer of width w, with sides of lengths l and r, are next to each other in
    the wavefront, its event fails with a TypeError if the lengths differ by more than w.  Otherwise it adds the node at
    the front and the node p of the valley, and takes the corners out. *)
Theorem C69_dormer_event :
  forall (c : list (@edge2 RA)) rest s0 s i u w l r side1 d dp dn de ipe va vb a b ids G,
  init_slav (c :: rest) = Ok s0 -> keeps s0 s ->
  (i + 3 < length c)%nat -> right_dormer c i u w l r -> edge_at c i = Some side1 ->
  woven s ((i :: a :: b :: (i + 3)%nat :: ids) :: G) -> ids <> [] -> (va < length (s_vs s))%nat -> (vb < length (s_vs s))%nat ->
  let e := DormerEv d dp i dn (i + 3) de ipe va vb in
  let p := valley (ep1 side1) u w l r in
  (w < Rabs (l - r) -> handle_event s e = Err TypeError) /\
  (Rabs (l - r) <= w -> exists s',
     handle_event s e = Ok (s', [Subtree ipe de [spot s va; spot s vb; p]; Subtree p (ndiv (nadd dp dn) twoN) [spot s i; spot s (i + 3)]], []) /\
     woven s' (ids :: G)).
Proof. exact (@dormer_event). Qed.
Print Assumptions C69_dormer_event.

(** In every arithmetic: if the bisectors of the two inner corners do not meet, a dormer event handled in the wavefront
    the program starts with fails with a TypeError. *)
Theorem C69_unmet_at_start :
  forall (A : arith) (c : list (@edge2 A)) rest st d dp i dn de ipe va vb,
  skeleton_start (c :: rest) = Ok st -> (i + 3 < length c)%nat -> (4 < length c)%nat ->
  line_intersect (v_bis (getv (s_vs (lo_slav st)) i)) (v_bis (getv (s_vs (lo_slav st)) (i + 3))) = None ->
  handle_event (lo_slav st) (DormerEv d dp i dn (i + 3) de ipe va vb) = Err TypeError.
Proof. exact (@start_fails). Qed.
Print Assumptions C69_unmet_at_start.

(** The node of the valley is (w + r - l) / 2 away from the wall before the dormer and its first side, and (w + l - r) / 2
    from its second side and the wall after it.  So it is equally far from all four only if the sides are equally long. *)
Theorem C69_valley :
  forall (c : list (@edge2 RA)) i u w l r before side1 side2 after, right_dormer c i u w l r ->
  dormer_walls c i before side1 side2 after ->
  let p := valley (ep1 side1) u w l r in
  (edge_dist before p = (w + r - l) / 2 /\ edge_dist side1 p = (w + r - l) / 2 /\
   edge_dist side2 p = (w + l - r) / 2 /\ edge_dist after p = (w + l - r) / 2) /\
  (edge_dist before p = edge_dist after p <-> l = r).
Proof. exact (@valley_equal). Qed.
Print Assumptions C69_valley.

(** That the node of the valley rises with the slope times its distance from the walls is false even if the sides are
    equally long.  Over this house the node at (11.5, 1.5), which is 1.5 away from the walls beside it, gets the level 5.75
    with a slope of 1. *)
Theorem C69_height_refuted :
  exists ps : list (Z * Z), ps = [(10, 0); (10, -2); (13, -2); (13, 0); (30, 0); (30, 20); (0, 20); (0, 0)]%Z /\
  simple_foot ps /\ (exists fs, o_result (tested 1 ps) = Ok fs) /\ exists v, In v (o_verts (tested 1 ps)) /\
  neqb (wx v) (lit (a := F64) 23 2) = true /\ neqb (wy v) (lit (a := F64) 3 2) = true /\ neqb (wz v) (lit (a := F64) 23 4) = true.
Proof. exact height_refuted. Qed.
Print Assumptions C69_height_refuted.

(** ** concrete cases *)

(** a house with a dormer of any width and sides *)
Example ex_house : forall w l r, 0 < w -> 0 < l -> 0 < r -> right_dormer (house w l r) 0 (rvec 1 0) w l r /\
  (exists s0, init_slav [house w l r] = Ok s0 /\ keeps s0 s0 /\ woven s0 [[0; 1; 2; 3; 4; 5; 6; 7]%nat] /\ length (s_vs s0) = 8%nat) /\
  exists before side1 side2 after, dormer_walls (house w l r) 0 before side1 side2 after.
Proof. exact (fun w l r Hw Hl Hr => conj (house_dormer Hw Hl Hr) (conj (house_start w l r) (house_walls w l r))). Qed.

(** sides of 8 and 6 with a width of 1: TypeError; sides of 2 and 2: a node at (1/2, 1/2) *)
Example ex_deep : exists s0, init_slav [house 1 8 6] = Ok s0 /\ forall d dp dn de ipe,
  handle_event s0 (DormerEv d dp 0 dn 3 de ipe 1 2) = Err TypeError.
Proof. exact house_deep. Qed.
Example ex_even : exists s0, init_slav [house 1 2 2] = Ok s0 /\ forall d dp dn de ipe, exists s',
  handle_event s0 (DormerEv d dp 0 dn 3 de ipe 1 2) =
  Ok (s', [Subtree ipe de [rvec 0 (-2); rvec 1 (-2); rvec (1 / 2) (1 / 2)]; Subtree (rvec (1 / 2) (1 / 2)) (ndiv (nadd dp dn) twoN) [rvec 0 0; rvec 1 0]], []).
Proof. exact house_even. Qed.

(** the oriel of finding 33, in double precision; its event is among those the program starts with *)
Example ex_oriel : exists st d dp dn de ipe va vb, skeleton_start [oriel_walls] = Ok st /\
  In (DormerEv d dp 1 dn (1 + 3) de ipe va vb) (lo_queue st) /\ (1 + 3 < length oriel_walls)%nat /\ (4 < length oriel_walls)%nat /\
  line_intersect (v_bis (getv (s_vs (lo_slav st)) 1)) (v_bis (getv (s_vs (lo_slav st)) (1 + 3))) = None.
Proof. exact oriel_unmet. Qed.
