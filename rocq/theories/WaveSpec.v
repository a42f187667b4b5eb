(** * WaveSpec: an intact wavefront (specification side) *)

From Verif Require Import Py Arith Euclid Lav LavSpec LoopSpec.
Set Implicit Arguments.

Section Wave.
Context {A : arith}.

(** the two vertices of an edge event, if both are still valid, are neighbours *)
Definition current (s : @slav A) (e : @event A) : Prop :=
  match e with
  | EdgeEv _ _ va vb => is_valid s va = true -> is_valid s vb = true -> v_next (getv (s_vs s) va) = vb
  | _ => True
  end.

(** two of the active LAVs are no longer active afterwards *)
Definition joined (s s' : @slav A) : Prop :=
  exists l l', l <> l' /\ In l (s_act s) /\ In l' (s_act s) /\ ~ In l (s_act s') /\ ~ In l' (s_act s').

(** [history st0 st pend k]: as [reach], where every event handled so far was current, and k of
    them joined two LAVs. *)
Inductive history (st0 : @loop_state A) : loop_state -> list event -> nat -> Prop :=
| history_start : history st0 st0 [] 0
| history_batch st k batch q' :
    history st0 st [] k -> lo_queue st <> [] -> s_act (lo_slav st) <> [] ->
    getAllEqualDistance (lo_queue st) = Some (batch, q') ->
    history st0 (Loop (lo_slav st) q' (lo_out st)) batch k
| history_event st k e t s' arcs new :
    history st0 st (e :: t) k -> current (lo_slav st) e -> handle_event (lo_slav st) e = Ok (s', arcs, new) ->
    ~ joined (lo_slav st) s' ->
    history st0 (Loop s' (put_all (lo_queue st) new) (lo_out st ++ arcs)) t k
| history_join st k e t s' arcs new :
    history st0 st (e :: t) k -> current (lo_slav st) e -> handle_event (lo_slav st) e = Ok (s', arcs, new) ->
    joined (lo_slav st) s' ->
    history st0 (Loop s' (put_all (lo_queue st) new) (lo_out st ++ arcs)) t (S k).

(** R l is the ring of the active LAV l: three or more different vertices, linked both ways, all of
    them valid and belonging to l, two neighbours sharing an edge; the head is one of them and the
    stored length is their number.  No other vertex is valid. *)
Definition intact (s : @slav A) (R : nat -> list nat) : Prop :=
  NoDup (s_act s) /\
  (forall l, In l (s_act s) ->
     3 <= length (R l) /\
     ring (fun i => v_next (getv (s_vs s) i)) (fun i => v_prev (getv (s_vs s) i)) (R l) /\
     In (l_head (getl (s_ls s) l)) (R l) /\
     l_len (getl (s_ls s) l) = Z.of_nat (length (R l)) /\
     (forall i, In i (R l) -> i < length (s_vs s) /\
        let v := getv (s_vs s) i in
        v_valid v = true /\ v_lav v = Some l /\ v_enext v = v_eprev (getv (s_vs s) (v_next v)))) /\
  (forall i, i < length (s_vs s) -> v_valid (getv (s_vs s) i) = true -> exists l, In l (s_act s) /\ In i (R l)).

(** how many more nodes a wavefront made of the rings R can give *)
Definition capacity (s : @slav A) (R : nat -> list nat) : nat :=
  list_sum (map (fun l => length (R l) - 2) (s_act s)).

(** no two edges start at the same point *)
Definition distinct_starts (E : list (@edge2 A)) : Prop :=
  forall e e', In e E -> In e' E -> veq (ep1 e) (ep1 e') = true -> e = e'.

End Wave.
