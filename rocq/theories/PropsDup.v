(** * PropsDup: vertices that follow themselves in a face (property C62) *)

From Verif Require Import Py PyFacts Arith Poly PolySpec DupSpec DupProofs DupCases.
Set Implicit Arguments.

(** ** C62 *)
(** In a face none of whose vertices is a candidate for the removal of straight nodes, the clean-up takes out each vertex
    exactly as often as it follows itself. *)
Theorem C62_doubles_counted :
  forall (A : arith) (vl : list (vec3 A)) (ns : Z) (faces out : list (list Z)) (i : nat) (f f' : list Z) (v : Z) (n : nat),
  clean_faces vl ns faces = Ok out -> nth_error faces i = Some f -> nth_error out i = Some f' -> settled ns faces f ->
  doublings v f n -> occurrences v f = n + occurrences v f'.
Proof. exact (@clean_counts). Qed.
Print Assumptions C62_doubles_counted.

(** If all occurrences of each such vertex are in one run, none follows itself afterwards; each run is left with one
    entry, and no vertex is lost. *)
Theorem C62_doubles_removed :
  forall (A : arith) (vl : list (vec3 A)) (ns : Z) (faces out : list (list Z)) (i : nat) (f f' : list Z),
  clean_faces vl ns faces = Ok out -> nth_error faces i = Some f -> nth_error out i = Some f' -> settled ns faces f ->
  (forall v, one_run v f) ->
  f' <> [] /\ no_doubles f' /\ subsequence f' f /\ (forall v, In v f -> In v f') /\ forall v n, doublings v f (S n) -> occurrences v f' = 1.
Proof. exact (@clean_doubles). Qed.
Print Assumptions C62_doubles_removed.

(** node 5 three times in a row, node 6 at both ends *)
Example C62_stutter : settled 3 stutter_faces stutter /\ (forall v, one_run v stutter) /\
  forall (A : arith) (vl : list (vec3 A)), clean_faces vl 3 stutter_faces = Ok [[0; 5; 1; 6]; [1; 2; 6]]%Z.
Proof. exact (conj stutter_settled (conj stutter_runs stutter_clean)). Qed.

(** With two runs of the same node a vertex can still follow itself: list.remove takes out the first entry in the face. *)
Theorem C62_every_face_refuted :
  forall (A : arith) (vl : list (vec3 A)), exists ns f f',
  clean_faces vl ns [f] = Ok [f'] /\ settled ns [f] f /\ ~ no_doubles f'.
Proof. exact (fun A vl => ex_intro _ 5%Z (ex_intro _ [1; 5; 2; 5; 5; 3]%Z (@two_runs A vl))). Qed.
Print Assumptions C62_every_face_refuted.

(** And a face of one vertex repeated is left empty. *)
Theorem C62_face_kept_refuted :
  forall (A : arith) (vl : list (vec3 A)), exists ns f, f <> [] /\ clean_faces vl ns [f] = Ok [[]].
Proof. exact (fun A vl => ex_intro _ 5%Z (ex_intro _ [5; 5]%Z (conj (fun H => eq_ind [5; 5]%Z (fun l => match l with [] => False | _ => True end) I [] H) (@all_gone A vl)))). Qed.
Print Assumptions C62_face_kept_refuted.
