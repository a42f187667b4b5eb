(** * PropsQueue: theorems about the event queue (properties C28, C29) *)

From Coq Require Import Permutation Reals Sorted.
From Verif Require Import Py Arith Euclid Heapq Lav HeapSpec HeapProofs QueueProofs ArithF ArithR.
Set Implicit Arguments.
Local Open Scope nat_scope.

(** ** C28 *)
(** Every history of put/get operations on the queue is the history of a priority queue: each
    get returns an event no remaining event precedes, nothing is lost or duplicated.  [D] is a
    set of distances on which "<" is a strict weak order. *)
Theorem C28_queue_is_a_priority_queue :
  forall (A : arith) (D : num A -> Prop) (ops : list (pq_op (@event A))) (q : list (@event A)),
    ordered_distances D -> Forall (dist_ok D) ops ->
    heap_run (@ev_lt A) [] ops q -> pq_history (@ev_lt A) [] ops q.
Proof. exact (fun A D ops q H1 H2 H3 => proj2 (proj2 (@queue_history A D ops q H1 H2 H3))). Qed.
Print Assumptions C28_queue_is_a_priority_queue.

(** The order hypothesis holds for exact numbers and for all IEEE doubles except NaN. *)
Theorem C28_exact_order : @ordered_distances RA (fun _ => True).
Proof. exact RA_ordered. Qed.
Print Assumptions C28_exact_order.

Theorem C28_ieee_order : @ordered_distances F64 not_nan.
Proof. exact F64_ordered. Qed.
Print Assumptions C28_ieee_order.

(** Whatever the comparisons answer (NaN included), no event is lost or duplicated. *)
Theorem C28_no_event_lost :
  forall (A : arith) (q : list (@event A)),
    (forall e, Permutation (put q (Some e)) (e :: q)) /\ put q None = q /\
    (forall b q', getAllEqualDistance q = Some (b, q') -> Permutation q (b ++ q')) /\
    (getAllEqualDistance q = None <-> q = []).
Proof.
  exact (fun A q => conj (heappush_perm (@ev_lt A) q) (conj eq_refl
    (conj (@getAllEqualDistance_perm A q) (getAllEqualDistance_none q)))).
Qed.
Print Assumptions C28_no_event_lost.

(** ** C29 *)
Theorem C29_batch_is_the_nearest_events :
  forall (ops : list (pq_op (@event RA))) (q b q' : list (@event RA)),
    heap_run (@ev_lt RA) [] ops q -> getAllEqualDistance q = Some (b, q') ->
    exists e t, b = e :: t /\ Permutation q (b ++ q') /\
      (forall x, In x q -> (dist_R e <= dist_R x)%R) /\
      StronglySorted (fun x y => (dist_R x <= dist_R y)%R) b /\
      (forall x, In x b -> (dist_R x - dist_R e < 1 / 1000)%R) /\
      (forall x, In x q' -> (1 / 1000 <= dist_R x - dist_R e)%R).
Proof. exact batch_R. Qed.
Print Assumptions C29_batch_is_the_nearest_events.

(** the queues of the event loop are such queues *)
Theorem C29_reachable_queues :
  forall (A : arith) (ops : list (pq_op (@event A))) (q : list (@event A)),
    heap_run (@ev_lt A) [] ops q ->
    (forall es, exists ops', heap_run (@ev_lt A) [] ops' (put_all q es)) /\
    (forall b q', getAllEqualDistance q = Some (b, q') -> exists ops', heap_run (@ev_lt A) [] ops' q').
Proof. exact (@reachable_queues). Qed.
Print Assumptions C29_reachable_queues.

(** ** concrete cases *)
Definition ev (n : Z) (d : positive) (i : nat) : @event F64 :=
  EdgeEv (lit (a := F64) n d) (V2 (lit (a := F64) 0 1) (lit (a := F64) 0 1)) i (S i).
Definition some_ops : list (pq_op (@event F64)) :=
  [Put (ev 5 1 0); Put (ev 3 1 2); Put (ev 30005 10000 4); Put (ev 9 1 6); Put (ev 3 1 8); Put (ev 1 1 10);
   Got (Some (ev 1 1 10))].
Definition some_queue : list (@event F64) :=
  match heappop ev_lt (put_all [] [ev 5 1 0; ev 3 1 2; ev 30005 10000 4; ev 9 1 6; ev 3 1 8; ev 1 1 10]) with
  | Some (_, q) => q
  | None => []
  end.

Example ex_run : heap_run (@ev_lt F64) [] some_ops some_queue /\ Forall (@dist_ok F64 not_nan) some_ops.
Proof.
  split.
  - do 6 apply hr_put. apply hr_got with some_queue; [|apply hr_nil].
    match goal with |- ?G => exact (@eq_refl _ (Some (ev 1 1 10, some_queue)) <: G) end.
  - repeat (apply Forall_cons; [first [exact I | intros E; vm_compute in E; discriminate]|]). apply Forall_nil.
Qed.

(** ids of the batch and of the events left *)
Example ex_batch :
  match getAllEqualDistance some_queue with
  | Some (b, q) => (map (fun e => match e with EdgeEv _ _ i _ => i | _ => 99 end) b,
                    map (fun e => match e with EdgeEv _ _ i _ => i | _ => 99 end) q)
  | None => ([], [])
  end = ([2; 8; 4], [0; 6]).
Proof. vm_compute. reflexivity. Qed.
