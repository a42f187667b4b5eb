(** * PySort: CPython's [sorted] for a comparison that may raise.

    Models Objects/listobject.c (CPython <= 3.12) for lists shorter than 64
    elements: [count_run] finds the initial run (reversed if strictly
    descending), [binarysort] inserts the rest by binary insertion.  For 64 or
    more elements CPython merges several such runs; the model keeps using binary
    insertion (simplification: only differs when [lt] is not a strict weak order). *)

From Verif Require Import Py.
Set Implicit Arguments.

Section Sort.
Variable T : Type.
Variable lt : T -> T -> res bool.      (* [x < y], may raise *)

(** length of the initial run after its first two elements: continues while
    [lt next prev = down] *)
Fixpoint run_len (down : bool) (prev : T) (l : list T) : res nat :=
  match l with
  | [] => Ok 0
  | x :: t => b <- lt x prev ;;
              if Bool.eqb b down then n <- run_len down x t ;; Ok (S n) else Ok 0
  end.

(** [count_run]: (descending?, length of the run) *)
Definition count_run (l : list T) : res (bool * nat) :=
  match l with
  | x :: y :: t => b <- lt y x ;; n <- run_len b y t ;; Ok (b, S (S n))
  | _ => Ok (false, length l)
  end.

(** binary search for the insertion point of [pivot] in positions lo..hi of [l] *)
Fixpoint bsearch (fuel : nat) (pivot : T) (l : list T) (lo hi : nat) : res nat :=
  match fuel with
  | O => Err OutOfFuel
  | S f =>
    if Nat.ltb lo hi then
      let p := lo + (hi - lo) / 2 in
      match nth_error l p with
      | None => Err IndexError
      | Some y => b <- lt pivot y ;;
                  if b then bsearch f pivot l lo p else bsearch f pivot l (S p) hi
      end
    else Ok lo
  end.

Fixpoint binarysort (sorted_prefix rest : list T) : res (list T) :=
  match rest with
  | [] => Ok sorted_prefix
  | pivot :: t =>
    i <- bsearch (S (length sorted_prefix)) pivot sorted_prefix 0 (length sorted_prefix) ;;
    binarysort (firstn i sorted_prefix ++ pivot :: skipn i sorted_prefix) t
  end.

Definition py_sorted (l : list T) : res (list T) :=
  match l with
  | [] | [_] => Ok l
  | _ => r <- count_run l ;;
         let '(desc, n) := r in
         let run := firstn n l in
         binarysort (if desc then rev run else run) (skipn n l)
  end.

End Sort.
