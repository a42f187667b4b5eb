(** * SkeletonCases: concrete cases for PropsSkeleton *)

From Coq Require Import Reals Lra ZArith QArith Qcanon.
From Verif Require Import Py PyFacts Arith ArithR ArithF ArithQ RSpec Euclid Lav LavSpec Cluster ClusterSpec LoopSpec PropsLav.
Set Implicit Arguments.
Unset Strict Implicit.
Local Open Scope nat_scope.

Definition fr (n : Z) (d : positive) : num F64 := lit (a := F64) n d.
Definition Pf (x y : num F64) : vec F64 := mkvec (A := F64) x y.

Lemma err_eq T (r : res T) x : match r with Ok _ => None | Err e => Some e end = Some x -> r = Err x.
Proof. destruct r; intros H; inversion H; auto. Qed.

(** ** a sink that removeGhosts removes twice *)
Definition gsk : list (@subtree F64) :=
  [Subtree (Pt 0 0) (fq 1) [Pf (fq 10) (fr 1 2); Pt 5 0; Pt 4 0];
   Subtree (Pt 5 0) (fq 1) [Pt 5 2]; Subtree (Pt 4 0) (fq 1) [Pt 4 2]].
Lemma ghosts_raise : exists sk : list (@subtree F64), removeGhosts sk = Err ValueError.
Proof. exists gsk. apply err_eq. vm_compute. reflexivity. Qed.

(** ** merging with 1 ULP equality *)
Definition c0 := Pf (fq 0) (fq 0).
Definition p1 := Pf (fr 13421772 (2 ^ 27)) (fq 0).
Definition p2 := Pf (fr 13421773 (2 ^ 27)) (fq 0).
Definition dsk : list (@subtree F64) :=
  [Subtree c0 (fq 1) [Pf (fq 9) (fq 9)]; Subtree p1 (fq 1) [Pf (fq (-9)) (fq 9)]; Subtree p2 (fq 1) [c0]].
Definition square_pts := [Pt (-9) (-9); Pt 9 (-9); Pt 9 9; Pt (-9) 9].
Definition square := polygon 0 square_pts.

Section Checks.
Context {A : arith}.
Definition dangling (pts : list (vec A)) (sk : list (@subtree A)) : bool :=
  existsb (fun a => existsb (fun p => forallb (fun q => negb (veq q p)) (pts ++ map (@source A) sk)) (sinks a)) sk.
Lemma dangling_ok pts sk : dangling pts sk = true ->
  exists a p, In a sk /\ In p (sinks a) /\ forall q, In q (pts ++ map (@source A) sk) -> veq q p = false.
Proof.
  unfold dangling. intros H. apply existsb_exists in H as (a & Ha & H). apply existsb_exists in H as (p & Hp & H).
  exists a, p. split; auto. split; auto. intros q Hq. rewrite forallb_forall in H. apply H in Hq.
  destruct (veq q p); auto; discriminate.
Qed.
End Checks.

Lemma square_ep : map (@ep1 F64) (concat [square]) = map (fun p => mkvec (A := F64) (vx p) (vy p)) square_pts.
Proof. reflexivity. Qed.

Lemma merging_dangles :
  exists (sk : list (@subtree F64)) contours sk',
  closed (map (@ep1 F64) (concat contours)) sk /\ mergeNodeClusters sk contours = Ok sk' /\
  exists a p, In a sk' /\ In p (sinks a) /\
    forall q, In q (map (@ep1 F64) (concat contours) ++ map (@source F64) sk') -> veq q p = false.
Proof.
  exists dsk, [square].
  assert (H : match mergeNodeClusters dsk [square] with Ok s => dangling (map (@ep1 F64) (concat [square])) s | Err _ => false end = true)
    by (vm_compute; reflexivity).
  destruct (mergeNodeClusters dsk [square]) as [sk'|] eqn:E; [|discriminate]. exists sk'. split.
  2: { split; auto. apply dangling_ok; auto. }
  clear. intros a p Ha Hp. rewrite square_ep. unfold square_pts. cbn [map].
  destruct Ha as [<-|[<-|[<-|[]]]]; destruct Hp as [<-|[]].
  - left. right. right. left. reflexivity.
  - left. right. right. right. left. reflexivity.
  - right. exists (Subtree c0 (fq 1) [Pf (fq 9) (fq 9)]). split; [left|]; reflexivity.
Qed.

(** ** rational numbers *)
Lemma exact_Q : @exact_equality QA.
Proof.
  assert (N : forall x y : Qc, (if Qc_eq_dec x y then true else false) = true <-> x = y).
  { intros x y. destruct (Qc_eq_dec x y); split; auto; discriminate. }
  split; [|exact N]. intros [ax ay] [bx by_]. unfold veq. rewrite andb_true_iff. cbn [QA veqc vx vy].
  rewrite !N. split; [intros [-> ->]; auto|]. intros H; injection H; auto.
Qed.

Definition qr (n : Z) (d : positive) : num QA := lit (a := QA) n d.
Definition Pq (x y : num QA) : vec QA := mkvec (A := QA) x y.
Definition qi (z : Z) : num QA := qr z 1.

(** three nodes in a row, the center is the middle one; another node is linked to the middle one *)
Definition qlsk : list (@subtree QA) :=
  [Subtree (Pq (qi 0) (qi 0)) (qi 1) []; Subtree (Pq (qr 1 32) (qi 0)) (qi 1) [];
   Subtree (Pq (qr 2 32) (qi 0)) (qi 1) []; Subtree (Pq (qi 5) (qi 0)) (qi 1) [Pq (qr 1 32) (qi 0); Pq (qi 7) (qi 7)]].

Definition no_links {A : arith} (sk : list (@subtree A)) : bool :=
  forallb (fun a => forallb (fun b => negb (existsb (veq (source b)) (sinks a))) sk) sk.
Lemma no_links_ok sk : no_links sk = true -> forall a b : @subtree QA, In a sk -> In b sk -> ~ In (source b) (sinks a).
Proof.
  unfold no_links. intros H a b Ha Hb K. rewrite forallb_forall in H. specialize (H a Ha).
  rewrite forallb_forall in H. specialize (H b Hb). apply negb_true_iff in H.
  assert (existsb (veq (source b)) (sinks a) = true); [|congruence].
  apply existsb_exists. exists (source b). split; auto. apply exact_Q; auto.
Qed.

Lemma link_lost :
  exists (sk : list (@subtree QA)) cluster sk' a i c,
  mergeCluster sk cluster = Ok sk' /\
  In a sk /\ In i cluster /\ nth_error sk i = Some c /\ In (source c) (sinks a) /\
  forall a' b, In a' sk' -> In b sk' -> ~ In (source b) (sinks a').
Proof.
  assert (H : match mergeCluster qlsk [0; 1; 2] with Ok s => no_links s | Err _ => false end = true)
    by (vm_compute; reflexivity).
  destruct (mergeCluster qlsk [0; 1; 2]) as [sk'|] eqn:E; [|discriminate].
  exists qlsk, [0; 1; 2], sk', (Subtree (Pq (qi 5) (qi 0)) (qi 1) [Pq (qr 1 32) (qi 0); Pq (qi 7) (qi 7)]), 1,
    (Subtree (Pq (qr 1 32) (qi 0)) (qi 1) []).
  split; auto. split; [right; right; right; left; reflexivity|]. split; [right; left; reflexivity|].
  split; [reflexivity|]. split; [left; reflexivity|]. intros a' b Ha Hb. apply (no_links_ok H); auto.
Qed.
