(** * GhostFacts: the lemmas behind PropsGhost *)

From Coq Require Import Reals Lra Lia ZArith.
From Verif Require Import Py Arith ArithR Euclid Lav Cluster ConvexPost GhostSpec GhostMoves.
Set Implicit Arguments.
Unset Strict Implicit.
Local Open Scope nat_scope.

Lemma removeGhosts_links (A : arith) (sk sk' : list (@subtree A)) : removeGhosts sk = Ok sk' ->
  exists sk0 m, Forall2 unlooped sk sk0 /\ resolved (seq 0 (length sk)) m sk0 sk' /\
                length (links sk0) = m + length (links sk').
Proof.
  intros H. destruct (removeGhosts_resolved H) as (sk0 & m & H1 & H2). exists sk0, m. split; auto. split; auto. eapply resolved_links; eauto.
Qed.

Lemma resolved_last (A : arith) ks k m (sk sk' : list (@subtree A)) : resolved (ks ++ [k]) m sk sk' -> settled k sk'.
Proof.
  remember (ks ++ [k]) as l eqn:E. intros H. revert ks E. induction H as [|k0 ks0 m m' s1 s2 s3 M S R IH]; intros ks E.
  - destruct ks; discriminate.
  - destruct ks as [|k1 ks]; simpl in E; injection E as -> E.
    + subst ks0. inversion R; subst. auto.
    + eapply IH; eauto.
Qed.

Lemma removeGhosts_last (A : arith) (sk sk' : list (@subtree A)) : sk <> [] -> removeGhosts sk = Ok sk' -> settled (length sk - 1) sk'.
Proof.
  intros N H. destruct (removeGhosts_resolved H) as (sk0 & m & _ & R). destruct (length sk) as [|n] eqn:E.
  - destruct sk; [contradiction|discriminate].
  - rewrite seq_S in R. simpl in R. replace (S n - 1) with n by lia. eapply resolved_last; eauto.
Qed.

Lemma removeGhosts_clean (sk : list (@subtree RA)) :
  (forall a, In a sk -> ~ In (source a) (sinks a) /\
     forall p q, In (p, q) (pairs_of (sinks a)) ->
       (vdot (vsub p (source a)) (vsub q (source a)) <= 99 / 100 * (vlen (vsub p (source a)) * vlen (vsub q (source a))))%R) ->
  removeGhosts sk = Ok sk.
Proof.
  intros H. apply ghosts_none. intros a Ha. destruct (H a Ha) as [H1 H2]. split; auto. intros p q Hp.
  rewrite pairs_of_combinations in Hp. specialize (H2 p q Hp). unfold wide. change (num RA) with R in *. 
  replace (1 - 1 / 100)%R with (99 / 100)%R by lra. exact H2.
Qed.

(** the roof of a square: one node *)
Definition rp (x y : R) : vec RA := V2 (A := RA) x y.
Definition clean_case : list (@subtree RA) := [Subtree (A := RA) (rp 1 1) 1%R [rp 0 0; rp 2 0; rp 2 2; rp 0 2]].
Lemma clean_case_ok : removeGhosts clean_case = Ok clean_case.
Proof.
  apply removeGhosts_clean. intros a [<-|[]]. unfold clean_case. cbn [source sinks]. split.
  - intros [E|[E|[E|[E|[]]]]]; apply (f_equal (fun v => vx (A := RA) v)) in E; simpl in E; lra.
  - intros p q Hp. assert (L : forall x y, (x * x = 1)%R -> (y * y = 1)%R -> vlen (A := RA) (rp x y) = sqrt 2).
    { intros x y Hx Hy. rewrite vlen_R. unfold rp. simpl. f_equal. change (num RA) with R in *. lra. }
    assert (S2 : (sqrt 2 * sqrt 2 = 2)%R) by (apply sqrt_sqrt; lra).
    assert (G : forall a b c d, (a * a = 1 -> b * b = 1 -> c * c = 1 -> d * d = 1 -> a * c + b * d <= 0 ->
       vdot (A := RA) (rp a b) (rp c d) <= 99 / 100 * (vlen (A := RA) (rp a b) * vlen (A := RA) (rp c d)))%R).
    { intros x y u v Hx Hy Hu Hv K. rewrite !L by auto. rewrite S2, vdot_R. unfold rp. simpl. change (num RA) with R in *. lra. }
    assert (V : forall x y, vsub (A := RA) (rp x y) (rp 1 1) = rp (x - 1) (y - 1)) by (intros; unfold vsub, rp, mkvec; reflexivity).
    cbn [pairs_of map app] in Hp. unfold In in Hp.
    repeat (destruct Hp as [Hp|Hp]; [injection Hp as <- <-; rewrite !V; apply G; lra|]). destruct Hp.
Qed.
