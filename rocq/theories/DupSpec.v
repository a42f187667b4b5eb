(** * DupSpec: vertices that follow themselves in a face (specification side) *)

From Verif Require Import Py.
Set Implicit Arguments.

(** how often v occurs in the face *)
Definition occurrences (v : Z) (f : list Z) : nat := count_occ Z.eq_dec f v.

(** v stands at position i and at the one before; the first position is preceded by the last *)
Definition doubled_at (v : Z) (f : list Z) (i : nat) : Prop :=
  nth_error f ((i + length f - 1) mod length f) = Some v /\ nth_error f i = Some v.

(** at how many positions v is followed by itself: the length of any list of all these positions *)
Definition doublings (v : Z) (f : list Z) (n : nat) : Prop :=
  exists ps, NoDup ps /\ (forall i, In i ps <-> i < length f /\ doubled_at v f i) /\ n = length ps.

(** no vertex is followed by itself *)
Definition no_doubles (f : list Z) : Prop := forall v i, i < length f -> ~ doubled_at v f i.

(** All occurrences of v, if it is followed by itself, are in one run that is not the whole face: a run of k + 1
    equal entries has k doublings. *)
Definition one_run (v : Z) (f : list Z) : Prop := forall n, doublings v f (S n) -> occurrences v f = S (S n).

(** no vertex of f is a candidate for the removal of straight nodes: footprint vertices and nodes that occur three times or more in all faces are not *)
Definition settled (ns : Z) (faces : list (list Z)) (f : list Z) : Prop :=
  forall v, In v f -> (v < ns)%Z \/ 3 <= occurrences v (concat faces).
