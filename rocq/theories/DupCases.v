(** * DupCases: faces in which vertices follow themselves (cases for C62) *)

From Verif Require Import Py PyFacts Arith Poly PolySpec PolyProofs DupSpec DupProofs.
Set Implicit Arguments.
Unset Strict Implicit.
Local Open Scope nat_scope.

Definition run_ok (f : list Z) : bool := forallb (fun v => Nat.eqb (cadj v f) 0 || Nat.eqb (occurrences v f) (S (cadj v f))) f.

Lemma run_check f : f <> [] -> run_ok f = true -> forall v, one_run v f.
Proof.
  intros Hne H v n Hd. apply (doublings_cadj v (S n) Hne) in Hd. destruct (in_dec Z.eq_dec v f) as [Hv|Hv].
  - unfold run_ok in H. rewrite forallb_forall in H. specialize (H v Hv). apply orb_true_iff in H as [H|H]; apply Nat.eqb_eq in H; lia.
  - unfold cadj in Hd. rewrite adj_absent in Hd by auto. discriminate.
Qed.

(** node 5 stands three times in a row, node 6 at the end and at the beginning *)
Definition stutter : list Z := [6; 0; 5; 5; 5; 1; 6]%Z.
Definition stutter_faces : list (list Z) := [stutter; [1; 2; 6]%Z].

Lemma stutter_settled : settled 3 stutter_faces stutter.
Proof. intros v Hv. simpl in Hv. destruct Hv as [<-|[<-|[<-|[<-|[<-|[<-|[<-|[]]]]]]]]; try (left; lia); right; vm_compute; lia. Qed.
Lemma stutter_runs : forall v, one_run v stutter.
Proof. apply run_check; [discriminate|reflexivity]. Qed.
Lemma stutter_clean (A : arith) (vl : list (vec3 A)) : clean_faces vl 3 stutter_faces = Ok [[0; 5; 1; 6]; [1; 2; 6]]%Z.
Proof. reflexivity. Qed.

Section Any.
Variable A : arith.
Variable vl : list (vec3 A).

(** two runs of the same node: the entry taken out is not the one that is doubled *)
Lemma two_runs : exists f', clean_faces vl 5 [[1; 5; 2; 5; 5; 3]]%Z = Ok [f'] /\ settled 5 [[1; 5; 2; 5; 5; 3]]%Z [1; 5; 2; 5; 5; 3]%Z /\ ~ no_doubles f'.
Proof.
  eexists. split; [reflexivity|]. split.
  - intros v Hv. simpl in Hv. destruct Hv as [<-|[<-|[<-|[<-|[<-|[<-|[]]]]]]]; try (left; lia); right; vm_compute; lia.
  - intros H. apply (H 5%Z 3); [simpl; lia|]. split; reflexivity.
Qed.

(** a face of one vertex repeated becomes empty *)
Lemma all_gone : clean_faces vl 5 [[5; 5]]%Z = Ok [[]].
Proof. reflexivity. Qed.
End Any.
