(** * PropsLav: theorems about the wavefront (properties C27, C30, C33) *)

From Coq Require Import Reals.
From Verif Require Import Py Arith Euclid Lav LavSpec LavWalk LavWf LavInit LavNext QueueProofs ArithF ArithR.
Set Implicit Arguments.
Local Open Scope nat_scope.

(** ** C27 *)
(** For any next pointers (inside the store) iterating a LAV stops after at most as many steps as
    there are vertices.  It yields head, next of head, ... without repetition.  It ends normally
    exactly if the head lies on a cycle, and then it has yielded that cycle; otherwise it raises
    RuntimeError. *)
Theorem C27_lav_iteration_stops :
  forall (A : arith) (s : @slav A) lv,
  refs_in_range (s_vs s) -> l_head (getl (s_ls s) lv) < length (s_vs s) ->
  let nxt := fun i => v_next (getv (s_vs s) i) in
  let h := l_head (getl (s_ls s) lv) in
  let (ids, e) := lav_iter s lv in
  NoDup ids /\ 1 <= length ids <= length (s_vs s) /\
  (forall i x, nth_error ids i = Some x -> x = Nat.iter i nxt h) /\
  (on_cycle nxt h -> e = None /\ Nat.iter (length ids) nxt h = h) /\
  (~ on_cycle nxt h -> e = Some RuntimeError) /\
  lav_list s lv = (match e with None => Ok ids | Some x => Err x end).
Proof. exact (@lav_iter_spec). Qed.
Print Assumptions C27_lav_iteration_stops.

(** ** C30 *)
Theorem C30_next_event_is_a_candidate :
  forall (A : arith) (s : @slav A) id,
  (v_reflex (getv (s_vs s) id) = true -> v_lav (getv (s_vs s) id) <> None) ->
  exists o, next_event s id = Ok o /\
    (o = None <-> forall e, ~ candidate s id e) /\
    (forall e, o = Some e -> candidate s id e /\ (is_split e -> v_reflex (getv (s_vs s) id) = true)).
Proof. exact (@next_event_candidate). Qed.
Print Assumptions C30_next_event_is_a_candidate.

(** "nearest", for any set D of distances ordered by "<" ... *)
Theorem C30_next_event_is_nearest :
  forall (A : arith) (s : @slav A) id (D : num A -> Prop) o,
  ordered_distances D ->
  let dist p := vlen (vsub (v_point (getv (s_vs s) id)) p) in
  (forall e p, candidate s id e -> event_point e = Some p -> D (dist p)) ->
  next_event s id = Ok o ->
  forall e p, o = Some e -> event_point e = Some p ->
  forall e' p', candidate s id e' -> event_point e' = Some p' -> nltb (dist p') (dist p) = false.
Proof. exact (@next_event_nearest). Qed.
Print Assumptions C30_next_event_is_nearest.

(** ... and in exact arithmetic *)
Theorem C30_next_event_is_nearest_exact :
  forall (s : @slav RA) id o,
  next_event s id = Ok o -> forall e p, o = Some e -> event_point e = Some p ->
  forall e' p', candidate s id e' -> event_point e' = Some p' ->
  let v := v_point (getv (s_vs s) id) in
  (sqrt (Rsqr (vx v - vx p) + Rsqr (vy v - vy p)) <= sqrt (Rsqr (vx v - vx p') + Rsqr (vy v - vy p')))%R.
Proof. exact next_event_nearest_R. Qed.
Print Assumptions C30_next_event_is_nearest_exact.

(** ** C33 *)
Theorem C33_initial_wavefront :
  forall (A : arith) (contours : list (list (@edge2 A))),
  ((forall c, In c contours -> c <> []) ->
   exists s, init_slav contours = Ok s /\ initial_wavefront contours s) /\
  ((exists c, In c contours /\ c = []) -> init_slav contours = Err ValueError).
Proof. exact (fun A contours => conj (@init_slav_spec A contours) (@init_slav_err A contours)). Qed.
Print Assumptions C33_initial_wavefront.

(** ** concrete cases (IEEE arithmetic) *)
Definition fq (z : Z) : num F64 := lit (a := F64) z 1.
Definition Pt (x y : Z) : vec F64 := V2 (fq x) (fq y).
Definition polygon (k : nat) (pts : list (vec F64)) : list (@edge2 F64) :=
  match pts with
  | [] => []
  | p :: t => map (fun x => Edge2_pts (k + fst (fst x)) (snd (fst x)) (snd x)) (combine (enumerate pts) (t ++ [p]))
  end.

(** an L-shaped contour (reflex vertex 3) with a triangular hole *)
Definition l_contour := polygon 0 [Pt 0 0; Pt 20 0; Pt 20 8; Pt 8 8; Pt 8 20; Pt 0 20].
Definition l_hole := polygon 6 [Pt 3 3; Pt 3 5; Pt 5 3].
Definition l_slav : @slav F64 :=
  match init_slav [l_contour; l_hole] with Ok s => s | Err _ => SLAV [] [] [] [] end.

Example ex_initial :
  map (fun v => (v_prev v, v_next v, v_reflex v)) (s_vs l_slav) =
    [(5, 1, false); (0, 2, false); (1, 3, false); (2, 4, true); (3, 5, false); (4, 0, false);
     (8, 7, true); (6, 8, true); (7, 6, true)] /\
  lav_iter l_slav 0 = ([0; 1; 2; 3; 4; 5], None) /\ lav_iter l_slav 1 = ([6; 7; 8], None).
Proof. vm_compute. auto. Qed.

(** the reflex vertex 3 has a split candidate and schedules a split; the convex vertex 1 an edge event *)
Example ex_next :
  match next_event l_slav 3, next_event l_slav 1 with
  | Ok (Some (SplitEv _ _ 3 e)), Ok (Some (EdgeEv _ _ 1 2)) => eid e
  | _, _ => 99
  end = 7.
Proof. vm_compute. reflexivity. Qed.

(** a corrupted wavefront: the head is not on the cycle it leads to *)
Definition corrupt : @slav F64 := with_ls [LAV 0 6] (with_vs (modv 4 (with_next 2) (s_vs l_slav)) l_slav).
Example ex_corrupt : refs_in_range (s_vs corrupt) /\ lav_iter corrupt 0 = ([0; 1; 2; 3; 4], Some RuntimeError).
Proof.
  split; [|vm_compute; reflexivity].
  assert (H : forallb (fun v => Nat.ltb (v_next v) (length (s_vs corrupt))) (s_vs corrupt) = true)
    by (vm_compute; reflexivity).
  intros v Hv. apply Nat.ltb_lt. exact (proj1 (forallb_forall _ _) H v Hv).
Qed.

Example ex_empty_hole : match init_slav [l_contour; []] with Ok _ => None | Err e => Some e end = Some ValueError.
Proof. vm_compute. reflexivity. Qed.
