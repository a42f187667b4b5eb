(** * Py: the fragment of Python semantics the model needs.

    Python exceptions are values of type [exn]; a computation that may raise
    returns [res A].  [OutOfFuel] is NOT a Python exception: it marks that a
    model loop was cut off by its fuel.  The theorems either exclude it or
    prove that it cannot occur. *)

From Coq Require Export List ZArith Bool Arith Lia.
Export ListNotations.
Set Implicit Arguments.

Inductive exn : Set :=
| ZeroDivisionError
| ValueError
| IndexError
| TypeError
| AttributeError
| AssertionError      (* "Tried to invalidate a vertex that's not mine" *)
| RuntimeError        (* "(Infinite loop) circular reference detected in LAV." *)
| StopIteration
| EndlessFaces        (* Exception('Endless loop catched in poly2FacesGraph faces()') *)
| EndlessSpike        (* Exception('Endless loop in spike removal') *)
| OutOfFuel.          (* model artefact, see above *)

Inductive res (A : Type) : Type :=
| Ok (a : A)
| Err (e : exn).
Arguments Ok {A} a.
Arguments Err {A} e.

Definition bind {A B} (x : res A) (f : A -> res B) : res B :=
  match x with Ok a => f a | Err e => Err e end.

Declare Scope py_scope.
Delimit Scope py_scope with py.
Notation "x <- e ;; k" := (bind e (fun x => k))
  (at level 61, e at next level, right associativity) : py_scope.
Notation "' p <- e ;; k" := (bind e (fun x => match x with p => k end))
  (at level 61, p pattern, e at next level, right associativity) : py_scope.
Open Scope py_scope.

Definition of_option {A} (e : exn) (o : option A) : res A :=
  match o with Some a => Ok a | None => Err e end.

Fixpoint mapM {A B} (f : A -> res B) (l : list A) : res (list B) :=
  match l with
  | [] => Ok []
  | x :: t => y <- f x ;; ys <- mapM f t ;; Ok (y :: ys)
  end.

(** [lst[i]] with Python's negative indices; IndexError outside. *)
Definition py_get {A} (l : list A) (i : Z) : res A :=
  let n := Z.of_nat (length l) in
  let j := if (i <? 0)%Z then (i + n)%Z else i in
  if ((0 <=? j) && (j <? n))%Z
  then of_option IndexError (nth_error l (Z.to_nat j))
  else Err IndexError.

(** [x in lst]: left-to-right search with [item == x]. *)
Definition py_in {A} (eqb : A -> A -> bool) (x : A) (l : list A) : bool :=
  existsb (fun y => eqb y x) l.

(** [lst.remove(x)]: deletes the first item equal to x, ValueError if none. *)
Fixpoint py_remove {A} (eqb : A -> A -> bool) (x : A) (l : list A) : res (list A) :=
  match l with
  | [] => Err ValueError
  | y :: t => if eqb y x then Ok t
              else t' <- py_remove eqb x t ;; Ok (y :: t')
  end.

(** [for x in xs: lst.remove(x)] *)
Fixpoint py_remove_all {A} (eqb : A -> A -> bool) (xs : list A) (l : list A) : res (list A) :=
  match xs with
  | [] => Ok l
  | x :: t => l' <- py_remove eqb x l ;; py_remove_all eqb t l'
  end.

(** first position satisfying a predicate *)
Fixpoint find_pos {A} (p : A -> bool) (l : list A) : option nat :=
  match l with
  | [] => None
  | x :: t => if p x then Some 0
              else match find_pos p t with Some n => Some (S n) | None => None end
  end.

(** [del lst[i]] for an in-range i *)
Fixpoint del_at {A} (i : nat) (l : list A) : list A :=
  match l, i with
  | [], _ => []
  | _ :: t, O => t
  | x :: t, S j => x :: del_at j t
  end.

(** [lst[i] = x] for an in-range i *)
Fixpoint set_at {A} (i : nat) (x : A) (l : list A) : list A :=
  match l, i with
  | [], _ => []
  | _ :: t, O => x :: t
  | y :: t, S j => y :: set_at j x t
  end.

(** [lst[i:] + lst[:i]] *)
Definition rot {A} (i : nat) (l : list A) : list A := skipn i l ++ firstn i l.

(** [range(a, b)] *)
Definition zrange (a b : Z) : list Z :=
  map (fun k => (a + Z.of_nat k)%Z) (seq 0 (Z.to_nat (b - a))).

(** [enumerate(l)] *)
Definition enumerate {A} (l : list A) : list (nat * A) := combine (seq 0 (length l)) l.

(** [itertools.combinations(l, 2)]: the pairs in lexicographic order of position *)
Fixpoint combinations2 {A} (l : list A) : list (A * A) :=
  match l with
  | [] => []
  | x :: t => map (fun y => (x, y)) t ++ combinations2 t
  end.

(** [min(l, key=...)]/[max]: the FIRST element whose key no other beats. *)
Fixpoint first_best {A} (better : A -> A -> bool) (best : A) (l : list A) : A :=
  match l with
  | [] => best
  | x :: t => if better x best then first_best better x t else first_best better best t
  end.

(** models bpypolyskel.py:46-49 [_iterCircularPrevNext] (and __init__.py:22-25).
    [islice(cycle(prevs), len-1, None)] rejects an empty list with ValueError
    because its start would be -1. *)
Definition circ_prev_next {A} (l : list A) : res (list (A * A)) :=
  match l with
  | [] => Err ValueError
  | x :: _ => Ok (combine (last l x :: removelast l) l)
  end.

(** models bpypolyskel.py:51-55 [_iterCircularPrevThisNext] *)
Definition circ_prev_this_next {A} (l : list A) : res (list (A * A * A)) :=
  match l with
  | [] => Err ValueError
  | x :: t => Ok (combine (combine (last l x :: removelast l) l) (t ++ [x]))
  end.

Definition list_eqb {A} (eqb : A -> A -> bool) : list A -> list A -> bool :=
  fix go l1 l2 := match l1, l2 with
                  | [], [] => true
                  | x :: t1, y :: t2 => eqb x y && go t1 t2
                  | _, _ => false
                  end.

Definition count_b {A} (p : A -> bool) (l : list A) : nat := length (filter p l).
