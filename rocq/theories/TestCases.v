(** * TestCases: the tests of the project run in the model (cases for C66) *)

From Coq Require Import ZArith Lia.
From Verif Require Import Py Arith ArithF Euclid Lav Cluster Poly TestSpec TestData FootSpec FootCases.
Set Implicit Arguments.
Unset Strict Implicit.
Local Open Scope nat_scope.

Fixpoint nodupb (l : list Z) : bool := match l with [] => true | x :: t => negb (existsb (Z.eqb x) t) && nodupb t end.

Lemma nodupb_spec l : nodupb l = true <-> NoDup l.
Proof.
  induction l as [|x t IH]; simpl; [split; auto; constructor|]. rewrite andb_true_iff, negb_true_iff, IH. split.
  - intros [H1 H2]. constructor; auto. intros K. assert (E : existsb (Z.eqb x) t = true) by (apply existsb_exists; exists x; split; auto; apply Z.eqb_refl). congruence.
  - intros H. apply NoDup_cons_iff in H as [H1 H2]. split; auto. destruct (existsb (Z.eqb x) t) eqn:E; auto. apply existsb_exists in E as (y & Hy & E). apply Z.eqb_eq in E. subst y. contradiction.
Qed.

(** what a run shows: None if there was an exception or no skeleton, else the number of crossings, whether all faces
    have three corners, and whether some face has a corner twice *)
Definition verdict (A : arith) (o : @outcome A) : option (nat * bool * bool) :=
  match o_result o, o_debug o with
  | Ok fs, Some sk => Some (checkEdgeCrossing sk, forallb (fun f => Nat.leb 3 (length f)) fs, existsb (fun f => negb (nodupb f)) fs)
  | _, _ => None
  end.

Lemma verdict_passes (A : arith) (o : @outcome A) : verdict o = Some (0, true, false) -> passes o.
Proof.
  unfold verdict, passes. destruct (o_result o) as [fs|]; [|discriminate]. destruct (o_debug o) as [sk|]; [|discriminate].
  intros H. injection H as H1 H2 H3. exists fs, sk. split; auto. split; auto. split; auto. intros f Hf. split.
  - rewrite forallb_forall in H2. apply Nat.leb_le, H2, Hf.
  - apply nodupb_spec. destruct (nodupb f) eqn:E; auto. exfalso. assert (K : existsb (fun f => negb (nodupb f)) fs = true) by (apply existsb_exists; exists f; rewrite E; auto). congruence.
Qed.

Lemma verdict_fails (A : arith) (o : @outcome A) k r : verdict o = Some (k, true, r) -> k <> 0 \/ r = true -> exists fs sk, o_result o = Ok fs /\ o_debug o = Some sk /\
  checkEdgeCrossing sk = k /\ (forall f, In f fs -> 3 <= length f) /\ (r = true -> exists f, In f fs /\ ~ NoDup f).
Proof.
  unfold verdict. destruct (o_result o) as [fs|]; [|discriminate]. destruct (o_debug o) as [sk|]; [|discriminate].
  intros H _. injection H as H1 H2 H3. exists fs, sk. split; auto. split; auto. split; auto. split.
  - intros f Hf. rewrite forallb_forall in H2. apply Nat.leb_le, H2, Hf.
  - intros E. rewrite E in H3. apply existsb_exists in H3 as (f & Hf & K). exists f. split; auto. rewrite <- nodupb_spec. apply negb_true_iff in K. congruence.
Qed.

Lemma verdict_not (A : arith) (o : @outcome A) k r : verdict o = Some (k, true, r) -> k <> 0 \/ r = true -> ~ passes o.
Proof.
  intros V D (fs & sk & R1 & R2 & F & C). destruct (verdict_fails V D) as (fs' & sk' & Q1 & Q2 & Q3 & _ & Q4).
  rewrite R1 in Q1. injection Q1 as <-. rewrite R2 in Q2. injection Q2 as <-. rewrite Q3 in C. destruct D as [D|D]; [auto|].
  destruct (Q4 D) as (f & Hf & K). apply K, F, Hf.
Qed.

Definition ok_verdict (v : option (nat * bool * bool)) : bool := match v with Some (0, true, false) => true | _ => false end.
Definition bad_verdict (v : option (nat * bool * bool)) : bool := match v with Some (S _, true, _) | Some (_, true, true) => true | _ => false end.

Lemma suite_all : forallb (fun t => ok_verdict (verdict (run 1000 t))) suite = true.
Proof. vm_compute. reflexivity. Qed.

Lemma failures_all : forallb (fun t => bad_verdict (verdict (run 1000 t))) known_failures = true.
Proof. vm_compute. reflexivity. Qed.

Lemma suite_passes t : In t suite -> passes (run 1000 t).
Proof.
  intros Ht. apply verdict_passes. pose proof suite_all as K. rewrite forallb_forall in K. specialize (K t Ht). cbv beta in K. revert K.
  generalize (verdict (run 1000 t)). intros [[[[|k] [|]] [|]]|] K; try discriminate K. exact eq_refl.
Qed.

Lemma failures_fail t : In t known_failures -> ~ passes (run 1000 t) /\ exists fs, o_result (run 1000 t) = Ok fs /\ forall f, In f fs -> 3 <= length f.
Proof.
  intros Ht. pose proof failures_all as K. rewrite forallb_forall in K. specialize (K t Ht). cbv beta in K. revert K.
  generalize (run 1000 t). intros o K. assert (E : exists k r, verdict o = Some (k, true, r) /\ (k <> 0 \/ r = true)).
  { destruct (verdict o) as [[[[|k] [|]] [|]]|]; try discriminate K; eexists _, _; split; try exact eq_refl; auto. }
  destruct E as (k & r & V & D). split; [exact (verdict_not V D)|]. destruct (verdict_fails V D) as (fs & sk & R1 & _ & _ & R3 & _). exists fs. auto.
Qed.

(** a building in Metz (debug/edge_crossing/661448847_metz_rue_lafayette.py), its corners rounded to eighths of a metre *)
Definition metz : list (Z * Z) := [(177, 0); (276, 91); (250, 119); (543, 395); (390, 559); (290, 466); (353, 399); (160, 219); (96, 286); (0, 193)]%Z.

Lemma metz_simple : simple_foot metz.
Proof. apply simpleb_spec. vm_compute. reflexivity. Qed.

(** the list of faces, if there is one *)
Definition faces_in (A : arith) (o : @outcome A) : list (list Z) := match o_result o with Ok fs => fs | Err _ => [] end.

Lemma metz_run : (fun o => (verdict o, filter (fun f => negb (nodupb f)) (faces_in o))) (tested 8 metz) =
  (Some (2, true, true), [[9; 0; 11; 16; 10; 6; 7; 15; 16; 2; 3; 13; 10; 16; 15; 12]%Z]).
Proof. vm_compute. reflexivity. Qed.

Lemma metz_verdict : verdict (tested 8 metz) = Some (2, true, true).
Proof. exact (f_equal fst metz_run). Qed.

Lemma metz_faces : filter (fun f => negb (nodupb f)) (faces_in (tested 8 metz)) = [[9; 0; 11; 16; 10; 6; 7; 15; 16; 2; 3; 13; 10; 16; 15; 12]%Z].
Proof. exact (f_equal snd metz_run). Qed.

Lemma any_refuted : exists (ps : list (Z * Z)) (den : positive) fs sk, simple_foot ps /\
  o_result (tested den ps) = Ok fs /\ o_debug (tested den ps) = Some sk /\ checkEdgeCrossing sk = 2 /\ exists f, In f fs /\ ~ NoDup f.
Proof.
  destruct (verdict_fails metz_verdict (or_introl (Nat.neq_succ_0 1))) as (fs & sk & H1 & H2 & H3 & _ & H4).
  exists metz, 8%positive, fs, sk. split; [exact metz_simple|]. split; [exact H1|]. split; [exact H2|]. split; [exact H3|exact (H4 eq_refl)].
Qed.

(** the crossing of two diagonals is seen, and two links that share an end do not count *)
Definition square_cross : list (@subtree F64) :=
  let z := lit (a := F64) 0 1 in let u := lit (a := F64) 2 1 in
  [Subtree (V2 (A := F64) z z) u [V2 (A := F64) u u; V2 (A := F64) u z]; Subtree (V2 (A := F64) z u) u [V2 (A := F64) u z]].
Lemma square_cross_count : checkEdgeCrossing square_cross = 1.
Proof. vm_compute. reflexivity. Qed.
