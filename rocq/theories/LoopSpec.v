(** * LoopSpec: the states of the event loop (specification side) *)

From Verif Require Import Py Arith Euclid Lav.
Set Implicit Arguments.

Section Loop.
Context {A : arith}.

(** [reach st0 st pend]: starting from st0 the loop of skeletonize can be at a point where st is
    the state and pend are the events of the current batch still to be handled. *)
Inductive reach (st0 : @loop_state A) : loop_state -> list event -> Prop :=
| reach_start : reach st0 st0 []
| reach_batch st batch q' :
    reach st0 st [] -> lo_queue st <> [] -> s_act (lo_slav st) <> [] ->
    getAllEqualDistance (lo_queue st) = Some (batch, q') ->
    reach st0 (Loop (lo_slav st) q' (lo_out st)) batch
| reach_event st e t s' arcs new :
    reach st0 st (e :: t) -> handle_event (lo_slav st) e = Ok (s', arcs, new) ->
    reach st0 (Loop s' (put_all (lo_queue st) new) (lo_out st ++ arcs)) t.

(** d is the distance of p from the line through an edge of E *)
Definition edge_distance (E : list (@edge2 A)) (d : num A) (p : vec A) : Prop :=
  exists e, In e E /\ d = line_distance (Line2_edge e) p.

(** the height of a node; the second kind is the top of a dormer *)
Definition node_height (E : list (@edge2 A)) (a : @subtree A) : Prop :=
  edge_distance E (height a) (source a) \/
  exists d1 p1 d2 p2, edge_distance E d1 p1 /\ edge_distance E d2 p2 /\ height a = ndiv (nadd d1 d2) twoN.

(** only edge and split events *)
Definition no_dormer (e : @event A) : Prop := match e with DormerEv _ _ _ _ _ _ _ _ _ => False | _ => True end.

End Loop.
