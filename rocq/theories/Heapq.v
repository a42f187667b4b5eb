(** * Heapq: CPython's heapq (Lib/heapq.py heappush/heappop, used by
    bpypolyskel.py:435-467 [_EventQueue]).  The library moves the new item by
    repeated assignment and one final store; the model swaps it along the same
    path, which yields the same list. *)

From Verif Require Import Py.
Set Implicit Arguments.

Section Heapq.
Variable T : Type.
Variable lt : T -> T -> bool.

Definition swap (i j : nat) (h : list T) : list T :=
  match nth_error h i, nth_error h j with
  | Some a, Some b => set_at i b (set_at j a h)
  | _, _ => h
  end.

(** [heap[i] < heap[j]] *)
Definition lt_at (h : list T) (i j : nat) : bool :=
  match nth_error h i, nth_error h j with
  | Some a, Some b => lt a b
  | _, _ => false
  end.

(** heapq._siftdown(heap, 0, pos): moves the item at pos towards the root *)
Fixpoint siftdown (fuel : nat) (h : list T) (pos : nat) : list T :=
  match fuel with
  | O => h
  | S f =>
    match pos with
    | O => h
    | S p => let parent := p / 2 in
             if lt_at h pos parent then siftdown f (swap pos parent h) parent else h
    end
  end.

(** heapq._siftup(heap, pos): moves the item at pos to a leaf along the smaller
    children, then back up with _siftdown *)
Fixpoint siftup (fuel : nat) (h : list T) (pos : nat) : list T :=
  match fuel with
  | O => h
  | S f =>
    let l := 2 * pos + 1 in
    let r := l + 1 in
    if Nat.ltb l (length h) then
      let c := if Nat.ltb r (length h) && negb (lt_at h l r) then r else l in
      siftup f (swap pos c h) c
    else siftdown (S pos) h pos
  end.

Definition heappush (h : list T) (x : T) : list T :=
  let h' := h ++ [x] in siftdown (length h') h' (length h).

(** [None]: IndexError on an empty heap *)
Definition heappop (h : list T) : option (T * list T) :=
  match h with
  | [] => None
  | [x] => Some (x, [])
  | x :: t =>
    let h' := last t x :: removelast t in
    Some (x, siftup (length h') h' 0)
  end.

End Heapq.
