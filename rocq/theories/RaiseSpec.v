(** * RaiseSpec: which exceptions a call can end with (C68) *)

From Verif Require Import Py Arith Euclid Lav.
Set Implicit Arguments.
Unset Strict Implicit.
Local Open Scope Z_scope.

(** The positions [first .. first + cnt - 1] exist in a list of [n] entries, and there is at least one. *)
Definition block_inside (n : nat) (b : Z * Z) : Prop := 0 <= fst b /\ 1 <= snd b /\ fst b + snd b <= Z.of_nat n.

(** The outline and every hole are blocks of the vertex list. *)
Definition blocks_inside (n : nat) (first cnt : Z) (holes : list (Z * Z)) : Prop :=
  block_inside n (first, cnt) /\ forall h, In h holes -> block_inside n h.

(** One unit vector for each vertex of the outline and of the holes, if there are any. *)
Definition units_inside {T} (us : option (list T)) (cnt : Z) (holes : list (Z * Z)) : Prop :=
  match us with
  | None | Some [] => True
  | Some l => cnt + fold_right (fun h n => snd h + n) 0 holes <= Z.of_nat (length l)
  end.

(** Exceptions of the straight skeleton.  [OutOfFuel] is not an exception of the program: it stands
    for an event loop that takes more rounds than the model was given. *)
Definition skeleton_exn (e : exn) : Prop :=
  e = ZeroDivisionError \/ e = ValueError \/ e = RuntimeError \/ e = TypeError \/ e = AttributeError \/ e = OutOfFuel.

(** Exceptions of the roof faces. *)
Definition faces_exn (e : exn) : Prop :=
  e = ZeroDivisionError \/ e = ValueError \/ e = StopIteration \/ e = EndlessFaces \/ e = EndlessSpike.

(** ** the rounds of the event loop *)
Section Rounds.
Context {A : arith}.

(** the events of a batch handled one after another *)
Inductive batch_done : @loop_state A -> list (@event A) -> @loop_state A -> Prop :=
| batch_nil st : batch_done st [] st
| batch_cons st e t s' arcs new st' :
    handle_event (lo_slav st) e = Ok (s', arcs, new) ->
    batch_done (Loop s' (put_all (lo_queue st) new) (lo_out st ++ arcs)) t st' ->
    batch_done st (e :: t) st'.

(** [n] rounds, each of which finds events waiting and a wavefront left *)
Inductive rounds : nat -> @loop_state A -> @loop_state A -> Prop :=
| rounds_none st : rounds 0 st st
| rounds_more n st batch q' st1 st2 :
    lo_queue st <> [] -> s_act (lo_slav st) <> [] ->
    getAllEqualDistance (lo_queue st) = Some (batch, q') ->
    batch_done (Loop (lo_slav st) q' (lo_out st)) batch st1 ->
    rounds n st1 st2 -> rounds (S n) st st2.
End Rounds.
