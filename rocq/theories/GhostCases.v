(** * GhostCases: concrete cases for PropsGhost, in IEEE doubles *)

From Coq Require Import ZArith.
From Verif Require Import Py Arith ArithF Euclid Lav Cluster Poly PyFacts GhostSpec GhostMoves PropsLav.
Set Implicit Arguments.
Unset Strict Implicit.
Local Open Scope nat_scope.

Section General.
Context {A : arith}.
Notation vec := (vec A).
Notation subtree := (@subtree A).

(** a set of points that no link leaves *)
Lemma connected_closed (sk : list subtree) (S : vec -> bool) :
  forallb (fun l => Bool.eqb (S (fst l)) (S (snd l))) (links sk) = true ->
  forall p q, connected sk p q -> S p = S q.
Proof.
  intros H p q K. rewrite forallb_forall in H. induction K as [p|p q r L K IH]; auto. rewrite <- IH.
  destruct L as [L|L]; apply H in L; apply Bool.eqb_prop in L; simpl in L; auto.
Qed.

(** the merged skeleton of a footprint without holes, and what removeGhosts makes of it *)
Definition ghost_run (fuel : nat) (verts : list (vec3 A)) (n : Z) (mg sk : list subtree) : Prop :=
  exists zBase center contours raw,
    prepare verts 0 n None None = Ok (zBase, center, contours) /\ raw_skeleton fuel contours = Ok raw /\
    mergeNodeClusters raw contours = Ok mg /\ removeGhosts mg = Ok sk.

Definition run_check (fuel : nat) (verts : list (vec3 A)) (n : Z) (f : list subtree -> list subtree -> bool) : bool :=
  match prepare verts 0 n None None with
  | Err _ => false
  | Ok (zb, c, cs) => match raw_skeleton fuel cs with
    | Err _ => false
    | Ok raw => match mergeNodeClusters raw cs with
      | Err _ => false
      | Ok mg => match removeGhosts mg with Err _ => false | Ok sk => f mg sk end
      end
    end
  end.

Lemma run_check_ok fuel verts n f : run_check fuel verts n f = true -> exists mg sk, ghost_run fuel verts n mg sk /\ f mg sk = true.
Proof.
  unfold run_check. destruct (prepare verts 0 n None None) as [[[zb c] cs]|] eqn:E1; [|discriminate].
  destruct (raw_skeleton fuel cs) as [raw|] eqn:E2; [|discriminate].
  destruct (mergeNodeClusters raw cs) as [mg|] eqn:E3; [|discriminate].
  destruct (removeGhosts mg) as [sk|] eqn:E4; [|discriminate]. intros H. exists mg, sk. split; auto.
  exists zb, c, cs, raw. auto.
Qed.

(** a link of [mg] whose ends are in different parts of [sk]; the parts are told apart by node k and its first sink *)
Definition part (k : nat) (sk : list subtree) (p : vec) : bool :=
  match nth_error sk k with
  | Some a => match sinks a with b :: _ => veq p (source a) || veq p b | [] => false end
  | None => false
  end.
Definition torn (k : nat) (mg sk : list subtree) : bool :=
  existsb (fun l => xorb (part k sk (fst l)) (part k sk (snd l))) (links mg) &&
  forallb (fun l => Bool.eqb (part k sk (fst l)) (part k sk (snd l))) (links sk).
Lemma torn_ok k mg sk : torn k mg sk = true -> exists p q, In (p, q) (links mg) /\ ~ connected sk p q.
Proof.
  unfold torn. intros H. apply andb_true_iff in H as [H1 H2]. apply existsb_exists in H1 as ([p q] & Hl & Hx). exists p, q. split; auto.
  intros K. apply (connected_closed H2) in K. simpl in Hx. rewrite K, Bool.xorb_nilpotent in Hx. discriminate.
Qed.

(** the first two sinks of node k are a ghost *)
Definition ghost_left (k : nat) (sk : list subtree) : bool :=
  match nth_error sk k with
  | Some a => match sinks a with
    | p :: q :: _ =>
      let s := source a in
      ntruth (vlen (vsub p s)) && ntruth (vlen (vsub q s)) && nltb (vlen (vsub p s)) (vlen (vsub q s)) &&
      match pdiv (vdot (vsub p s) (vsub q s)) (nmul (vlen (vsub p s)) (vlen (vsub q s))) with
      | Ok c => nltb (nabs (nsub c oneN)) EPSILON && nltb (nabs (nsub c oneN)) PARALLEL
      | Err _ => false
      end && existsb (fun m => veq (source m) p) sk
    | _ => false
    end
  | None => false
  end.
Lemma ghost_left_ok k sk : ghost_left k sk = true ->
  exists a p q n, In a sk /\ In (p, q) (pairs_of (sinks a)) /\ ghost sk (source a) p q p q n.
Proof.
  unfold ghost_left. destruct (nth_error sk k) as [a|] eqn:Ea; [|discriminate].
  destruct (sinks a) as [|p [|q t]] eqn:Es; try discriminate. cbv zeta. intros H.
  apply andb_true_iff in H as [H H5]. apply andb_true_iff in H as [H H4]. apply andb_true_iff in H as [H H3]. apply andb_true_iff in H as [H1 H2].
  destruct (pdiv _ _) as [c|] eqn:Ec; [|discriminate]. apply andb_true_iff in H4 as [H4 H6].
  apply existsb_exists in H5 as (m & Hm & Vm).
  destruct (@find_pos_total _ (fun node : subtree => veq (source node) p) sk m Hm Vm) as [ni Hn].
  destruct (find_first Hn) as [Hf _]. exists a, p, q, (get_arc sk ni). split; [eapply nth_error_In; eauto|]. split.
  { rewrite Es. simpl. auto. }
  split; [left; auto|]. split; auto. split; [split; auto; split; auto; exists c; auto|]. left. split; auto. split; auto. exists c; auto.
Qed.

Definition left_check (sk : list subtree) (k : nat) : bool := match removeGhosts sk with Ok sk' => ghost_left k sk' | Err _ => false end.
Lemma left_check_ok sk k : left_check sk k = true -> exists sk', removeGhosts sk = Ok sk' /\ ghost_left k sk' = true.
Proof. unfold left_check. destruct (removeGhosts sk) as [sk'|]; [|discriminate]. intros H. exists sk'. split; auto. Qed.
End General.

(** ** a footprint whose skeleton falls apart *)
Definition P3 (x y : Z) : vec3 F64 := V3 (A := F64) (fq x) (fq y) (fq 0).
Definition hepta : list (vec3 F64) := [P3 10 4; P3 12 4; P3 10 8; P3 8 11; P3 1 10; P3 4 7; P3 1 6].

Lemma hepta_torn_check : run_check 300 hepta 7 (fun mg sk => torn 4 mg sk && Nat.eqb (length (links mg)) 11 && Nat.eqb (length (links sk)) 10) = true.
Proof. vm_compute. reflexivity. Qed.

Lemma hepta_torn : exists (verts : list (vec3 F64)) mg sk p q,
  length verts = 7 /\ ghost_run 300 verts 7 mg sk /\ length (links mg) = 11 /\ length (links sk) = 10 /\
  In (p, q) (links mg) /\ ~ connected sk p q.
Proof.
  destruct (run_check_ok hepta_torn_check) as (mg & sk & H & K). apply andb_true_iff in K as [K K3]. apply andb_true_iff in K as [K1 K2].
  apply torn_ok in K1 as (p & q & K1 & K4). apply Nat.eqb_eq in K2, K3.
  exists hepta, mg, sk, p, q. exact (conj eq_refl (conj H (conj K2 (conj K3 (conj K1 K4))))).
Qed.

(** the roof: the walls from vertex 1 to 2 and from 2 to 3 get one common face *)
Lemma hepta_roof : o_result (polygonize 300 (fun _ _ => false) (fun _ _ => O) false hepta 0 7 None (fq 0) (fq 1) None None)
  = Ok [[6; 0; 7; 9; 8]; [5; 6; 8]; [0; 1; 7]; [1; 2; 3; 10; 9; 7]; [3; 4; 10]; [4; 5; 8; 9; 10]]%Z.
Proof. vm_compute. reflexivity. Qed.

(** ** a skeleton in which ghosts are left: node 2 hands a link over to node 0, which has been treated before *)
Definition Ps (x y : Z) : vec F64 := V2 (A := F64) (fq x) (fq y).
Definition chain : list (@subtree F64) :=
  [Subtree (Ps 1 0) (fq 1) [Ps 2 0]; Subtree (Ps 2 0) (fq 1) [Ps 2 1]; Subtree (Ps 0 0) (fq 2) [Ps 1 0; Ps 3 0]].
Lemma chain_check : left_check chain 0 = true.
Proof. vm_compute. reflexivity. Qed.
Lemma chain_left : exists (sk sk' : list (@subtree F64)) a p q n,
  removeGhosts sk = Ok sk' /\ In a sk' /\ In (p, q) (pairs_of (sinks a)) /\ ghost sk' (source a) p q p q n.
Proof.
  destruct (left_check_ok chain_check) as (sk' & H & K). apply ghost_left_ok in K as (a & p & q & n & K1 & K2 & K3).
  exists chain, sk', a, p, q, n. exact (conj H (conj K1 (conj K2 K3))).
Qed.
