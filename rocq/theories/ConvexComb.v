(** * ConvexComb: the faces around a shrinking ring, without geometry (C49) *)

From Coq Require Import List Lia Arith.
Import ListNotations.
Set Implicit Arguments.
Unset Strict Implicit.

(** consecutive triples of a list are related *)
Fixpoint Path (T : nat -> nat -> nat -> Prop) (l : list nat) : Prop :=
  match l with
  | u :: ((v :: w :: _) as t) => T u v w /\ Path T t
  | _ => True
  end.

Lemma Path_cons (T : nat -> nat -> nat -> Prop) u v w l : Path T (u :: v :: w :: l) <-> T u v w /\ Path T (v :: w :: l).
Proof. reflexivity. Qed.

Lemma Path_snoc (T : nat -> nat -> nat -> Prop) l u v w : Path T (l ++ [u; v]) -> T u v w -> Path T (l ++ [u; v; w]).
Proof.
  induction l as [|a l IH]; intros H1 H2; [simpl; auto|].
  destruct l as [|b l]; [simpl in *; tauto|]. destruct l as [|x l]; [simpl in *; tauto|].
  cbn [app] in *. rewrite Path_cons in *. destruct H1. split; auto.
Qed.

Lemma Path_mono (T T' : nat -> nat -> nat -> Prop) l : (forall u v w, In u l -> In v l -> In w l -> T u v w -> T' u v w) -> Path T l -> Path T' l.
Proof.
  induction l as [|u l IH]; simpl; auto. intros H. destruct l as [|v l]; auto. destruct l as [|w l]; auto. intros [H1 H2]. split.
  - apply H; simpl; auto.
  - apply IH; [|exact H2]. intros a b d Ha Hb Hd. apply H; right; assumption.
Qed.

Definition follows (l : list nat) u v : Prop := exists l1 l2, l = l1 ++ u :: v :: l2.
Definition wraps (l : list nat) u v : Prop := exists l', l = v :: l' ++ [u].

Lemma follows_cons x l u v : follows l u v -> follows (x :: l) u v.
Proof. intros (l1 & l2 & ->). exists (x :: l1), l2. auto. Qed.
Lemma follows_snoc x l u v : follows l u v -> follows (l ++ [x]) u v.
Proof. intros (l1 & l2 & ->). exists l1, (l2 ++ [x]). rewrite <- app_assoc. auto. Qed.

(** closing a face at a new vertex *)
Lemma close_path (T : nat -> nat -> nat -> Prop) F X a b y z r r' : F = a :: z :: r -> F = r' ++ [y; b] -> Path T F ->
  T X a z -> T y b X -> T b X a -> Path T ((X :: F) ++ [X; a]).
Proof.
  intros H1 H2 Hp T1 T2 T3.
  assert (G : Path T (F ++ [X; a])).
  { rewrite H2 in *. rewrite <- app_assoc. cbn [app].
    assert (G1 : Path T ((r' ++ [y]) ++ [b; X])) by (rewrite <- app_assoc; apply Path_snoc; auto).
    pose proof (Path_snoc G1 T3) as G2. rewrite <- app_assoc in G2. exact G2. }
  rewrite H1 in *. cbn [app] in *. rewrite Path_cons. auto.
Qed.

Definition upd X (f : nat -> X) k x := fun i => if Nat.eqb i k then x else f i.
Lemma upd_eq X (f : nat -> X) k x : upd f k x k = x.
Proof. unfold upd. rewrite Nat.eqb_refl. auto. Qed.
Lemma upd_ne X (f : nat -> X) k x i : i <> k -> upd f k x i = f i.
Proof. unfold upd. intros H. destruct (Nat.eqb_spec i k); congruence. Qed.

Arguments upd_ne {X f k x i} _.

Section Comb.
Variable n : nat.
Hypothesis n3 : 3 <= n.

(** at vertex v: from the neighbour A v to U v, from U v to B v, and inside from B v to A v *)
Definition turn (D : nat -> Prop) (A B U : nat -> nat) u v w : Prop :=
  (u = A v /\ D v /\ w = U v) \/ (u = U v /\ D v /\ w = B v) \/ (n <= v /\ u = B v /\ w = A v).

Section State.
Variables (N : nat) (V : nat -> Prop) (nx wp wl A B U : nat -> nat) (F : nat -> list nat).
Definition shut i := forall v, V v -> wl v <> i.
Definition dead v := v < N /\ ~ V v.
Definition covered u v := exists i, i < n /\ (follows (F i) u v \/ shut i /\ wraps (F i) u v).

Record comb : Prop := {
  c_N : n <= N;
  c_rng : forall v, V v -> v < N;
  c_wl : forall v, v < N -> wl v < n /\ wp v < n;
  c_base : forall i, i < n -> A i = (i + n - 1) mod n /\ B i = S i mod n /\ wl i = i /\ wp i = (i + n - 1) mod n;
  c_node : forall x, n <= x < N -> A x < x /\ B x < x /\ A x <> B x /\ ~ V (A x) /\ ~ V (B x) /\ U (A x) = x /\ U (B x) = x /\
    wl (A x) = wp (B x) /\ wp x = wp (A x) /\ wl x = wl (B x) /\ shut (wl (A x));
  c_up : forall v, dead v -> n <= U v < N /\ (A (U v) = v \/ B (U v) = v);
  c_inj : forall u v, V u -> V v -> wl u = wl v -> u = v;
  c_chain : forall v, V v -> V (nx v) /\ wp (nx v) = wl v;
  c_open : forall v, V v -> (exists r, F (wl v) = v :: B v :: r) /\ (exists r, F (wl v) = r ++ [A (nx v); nx v]);
  c_face : forall i, i < n -> NoDup (F i) /\ (exists l1 l2, F i = l1 ++ i :: S i mod n :: l2 /\ forall x, In x (l1 ++ l2) -> n <= x < N) /\
    Path (turn dead A B U) (F i);
  c_closed : forall i, i < n -> shut i -> 3 <= length (F i) /\ exists a b r, F i = a :: b :: r /\ Path (turn dead A B U) (F i ++ [a; b]);
  c_dart : forall v, dead v -> covered v (U v) /\ covered (U v) v }.
End State.

Lemma comb_start (V : nat -> Prop) nx wp wl A B U : (forall v, V v <-> v < n) ->
  (forall i, i < n -> A i = (i + n - 1) mod n /\ B i = S i mod n /\ wl i = i /\ wp i = (i + n - 1) mod n /\ nx i = S i mod n) ->
  comb n V nx wp wl A B U (fun i => [i; S i mod n]).
Proof.
  intros HV H. assert (Hd : forall v, ~ dead n V v) by (intros v (K1 & K2); apply K2, HV; auto).
  assert (M : forall k, k mod n < n) by (intros k; apply Nat.mod_upper_bound; lia).
  assert (Hs : forall i, i < n -> ~ shut V wl i). { intros i Hi K. apply (K i); [apply HV; auto|]. apply H; auto. }
  split.
  - lia.
  - intros v. apply HV.
  - intros v Hv. destruct (H v Hv) as (_ & _ & -> & -> & _). auto.
  - intros i Hi. destruct (H i Hi) as (H1 & H2 & H3 & H4 & _). auto.
  - intros x Hx. lia.
  - intros v Hv. destruct (Hd v Hv).
  - intros u v Hu Hv. apply HV in Hu, Hv. destruct (H u Hu) as (_ & _ & -> & _). destruct (H v Hv) as (_ & _ & -> & _). auto.
  - intros v Hv. apply HV in Hv. destruct (H v Hv) as (_ & _ & -> & _ & ->). split; [apply HV; auto|].
    destruct (H (S v mod n) (M _)) as (_ & _ & _ & -> & _).
    destruct (Nat.eq_dec (S v) n) as [Hn|Hn]; [rewrite Hn, Nat.mod_same by lia; cbn; rewrite Nat.mod_small; lia|].
    rewrite (Nat.mod_small (S v)) by lia. replace (S v + n - 1) with (v + 1 * n) by lia. rewrite Nat.mod_add, Nat.mod_small; lia.
  - intros v Hv. apply HV in Hv. destruct (H v Hv) as (_ & -> & -> & _ & ->). split; [exists []; auto|]. exists [].
    destruct (H (S v mod n) (M _)) as (-> & _).
    assert ((S v mod n + n - 1) mod n = v) as ->; auto.
    destruct (Nat.eq_dec (S v) n) as [Hn|Hn]; [rewrite Hn, Nat.mod_same by lia; cbn; rewrite Nat.mod_small; lia|].
    rewrite (Nat.mod_small (S v)) by lia. replace (S v + n - 1) with (v + 1 * n) by lia. rewrite Nat.mod_add, Nat.mod_small; lia.
  - intros i Hi. split; [|split; [exists [], []; split; auto; intros x []|simpl; auto]].
    constructor; [|constructor; [intros []|constructor]]. intros [K|[]].
    destruct (Nat.eq_dec (S i) n) as [Hn|Hn]; [rewrite Hn, Nat.mod_same in K; lia|]. rewrite Nat.mod_small in K; lia.
  - intros i Hi K. destruct (Hs i Hi K).
  - intros v Hv. destruct (Hd v Hv).
Qed.

(** ** two neighbours become one vertex *)
Section Merge.
Variables (N : nat) (V : nat -> Prop) (nx wp wl A B U : nat -> nat) (F : nat -> list nat).
Hypothesis C : comb N V nx wp wl A B U F.
Lemma F_rng i x : i < n -> In x (F i) -> x < N.
Proof.
  intros Hi Hx. destruct (c_face C Hi) as (_ & (l1 & l2 & E & H) & _). pose proof (c_N C). rewrite E in Hx.
  apply in_app_iff in Hx as [Hx|[<-|[<-|Hx]]]; [apply H, in_app_iff; auto|lia| |apply H, in_app_iff; auto].
  pose proof (Nat.mod_upper_bound (S i) n). lia.
Qed.

Lemma V_ltN v : V v -> v < N /\ v <> N.
Proof. intros H. pose proof (c_rng C H). lia. Qed.

Variables (va vb pv : nat).
Hypothesis Va : V va.
Hypothesis Vb : V vb.
Hypothesis Vp : V pv.
Hypothesis nab : nx va = vb.
Hypothesis npa : nx pv = va.
Hypothesis ab : va <> vb.
Hypothesis pa : pv <> va.
Hypothesis pb : pv <> vb.

Lemma wallsd : wl va <> wl vb /\ wl va <> wp va /\ wl vb <> wp va /\ wp va = wl pv /\ wl va = wp vb.
Proof.
  destruct (c_chain C Vp) as [_ E]. rewrite npa in E. destruct (c_chain C Va) as [_ E2]. rewrite nab in E2.
  split; [intros K; apply ab, (c_inj C Va Vb K)|]. split; [rewrite E; intros K; apply pa; symmetry; apply (c_inj C Va Vp K)|].
  split; [rewrite E; intros K; apply pb; symmetry; apply (c_inj C Vb Vp K)|]. auto.
Qed.


Variables (V' : nat -> Prop) (nx' : nat -> nat).
Hypothesis HV' : forall i, V' i <-> i = N \/ V i /\ i <> va /\ i <> vb.
Hypothesis nx1 : nx' N = nx vb.
Hypothesis nx2 : forall i, V i -> i <> va -> i <> vb -> nx' i = if Nat.eqb (nx i) va then N else nx i.

Let A' := upd A N va.
Let B' := upd B N vb.
Let U' := upd (upd U va N) vb N.
Let wp' := upd wp N (wp va).
Let wl' := upd wl N (wl vb).
Definition F_merge i := if Nat.eqb i (wl va) then N :: F i else if Nat.eqb i (wl vb) then N :: F i else if Nat.eqb i (wp va) then F i ++ [N] else F i.
Notation F' := F_merge.

Lemma F'_a : F' (wl va) = N :: F (wl va).
Proof. unfold F_merge. rewrite Nat.eqb_refl. auto. Qed.
Lemma F'_b : F' (wl vb) = N :: F (wl vb).
Proof. unfold F_merge. destruct (Nat.eqb_spec (wl vb) (wl va)); auto. rewrite Nat.eqb_refl. auto. Qed.
Lemma F'_p : F' (wp va) = F (wp va) ++ [N].
Proof.
  destruct wallsd as (W1 & W2 & W3 & _). unfold F_merge. destruct (Nat.eqb_spec (wp va) (wl va)); [congruence|].
  destruct (Nat.eqb_spec (wp va) (wl vb)); [congruence|]. rewrite Nat.eqb_refl. auto.
Qed.
Lemma F'_o i : i <> wl va -> i <> wl vb -> i <> wp va -> F' i = F i.
Proof. intros H1 H2 H3. unfold F_merge. destruct (Nat.eqb_spec i (wl va)), (Nat.eqb_spec i (wl vb)), (Nat.eqb_spec i (wp va)); congruence. Qed.
Lemma F'_cases i : F' i = F i \/ F' i = N :: F i \/ F' i = F i ++ [N].
Proof. unfold F_merge. destruct (Nat.eqb i (wl va)); auto. destruct (Nat.eqb i (wl vb)); auto. destruct (Nat.eqb i (wp va)); auto. Qed.

Lemma old f (v x : nat) : v < N -> upd f N x v = f v.
Proof. intros H. apply upd_ne. lia. Qed.
Lemma U'_old v : ~ V v -> U' v = U v.
Proof. intros H. unfold U'. rewrite !upd_ne; auto; intros ->; auto. Qed.
Lemma dead' v : dead (S N) V' v <-> dead N V v \/ v = va \/ v = vb.
Proof.
  clear - C Va Vb HV'.
  pose proof (c_rng C Va). pose proof (c_rng C Vb). unfold dead. rewrite HV'. split.
  - intros [H1 H2]. destruct (Nat.eq_dec v va); auto. destruct (Nat.eq_dec v vb); auto. left. split; [|tauto].
    assert (v <> N) by tauto. lia.
  - intros [[H1 H2]|[->| ->]]; split; try lia; intros [K|K]; try lia; tauto.
Qed.

Lemma turn_kept u v w : v < N -> turn (dead N V) A B U u v w -> turn (dead (S N) V') A' B' U' u v w.
Proof.
  intros Hv. unfold turn. unfold A', B'. rewrite !old by auto. rewrite dead'.
  intros [(-> & D & ->)|[(-> & D & ->)|H]]; auto; rewrite U'_old by (destruct D; auto); [left|right; left]; auto.
Qed.

Lemma path_kept i : i < n -> Path (turn (dead (S N) V') A' B' U') (F i).
Proof. intros Hi. destruct (c_face C Hi) as (_ & _ & H). revert H. apply Path_mono. intros u v w _ Hv _. apply turn_kept. eapply F_rng; eauto. Qed.

Lemma turns_new : turn (dead (S N) V') A' B' U' N va (B va) /\ turn (dead (S N) V') A' B' U' (A vb) vb N /\
  turn (dead (S N) V') A' B' U' vb N va /\ turn (dead (S N) V') A' B' U' N vb (B vb) /\ turn (dead (S N) V') A' B' U' (A va) va N.
Proof.
  destruct (V_ltN Va) as [La _]. destruct (V_ltN Vb) as [Lb _]. pose proof (c_N C).
  assert (Da : dead (S N) V' va) by (apply dead'; auto). assert (Db : dead (S N) V' vb) by (apply dead'; auto).
  assert (Ua : U' va = N) by (unfold U'; rewrite upd_ne by auto; apply upd_eq).
  assert (Ub : U' vb = N) by apply upd_eq.
  unfold turn. unfold A', B'. rewrite !(@old A), !(@old B) by auto. rewrite !upd_eq, Ua, Ub.
  split; [right; left; auto|]. split; [left; auto|]. split; [right; right; auto|]. split; [right; left; auto|left; auto].
Qed.

Lemma shut_mono i : shut V wl i -> shut V' wl' i.
Proof.
  intros H v Hv. apply HV' in Hv as [->|(Hv & _)]; unfold wl'; [rewrite upd_eq; apply H; auto|]. rewrite old by (apply V_ltN; auto). auto.
Qed.
Lemma shut_a : shut V' wl' (wl va).
Proof.
  intros v Hv. destruct wallsd as (W1 & _). apply HV' in Hv as [->|(Hv & H1 & H2)]; unfold wl'; [rewrite upd_eq; auto|].
  rewrite old by (apply V_ltN; auto). intros K. apply H1. apply (c_inj C Hv Va K).
Qed.
Lemma shut_back i : shut V' wl' i -> i = wl va \/ i <> wl va /\ shut V wl i.
Proof.
  intros H. destruct (Nat.eq_dec i (wl va)) as [|Hi]; auto. right. split; auto. intros v Hv K.
  destruct (Nat.eq_dec v va) as [->|Ha]; [congruence|]. destruct (Nat.eq_dec v vb) as [->|Hb].
  - apply (H N); [apply HV'; auto|]. unfold wl'. rewrite upd_eq. auto.
  - apply (H v); [apply HV'; auto|]. unfold wl'. rewrite old by (apply V_ltN; auto). auto.
Qed.

Lemma covered_kept u v : covered V wl F u v -> covered V' wl' F' u v.
Proof.
  intros (i & Hi & H). exists i. split; auto. destruct H as [H|(S & H)].
  - left. destruct (F'_cases i) as [->|[->| ->]]; [auto|apply follows_cons; auto|apply follows_snoc; auto].
  - right. split; [apply shut_mono; auto|]. destruct wallsd as (_ & _ & _ & W4 & _).
    rewrite F'_o; auto; intros ->; [eapply S; [exact Va|auto]|eapply S; [exact Vb|auto]|eapply S; [exact Vp|auto]].
Qed.

Lemma comb_merge : comb (S N) V' nx' wp' wl' A' B' U' F'.
Proof.
  destruct wallsd as (W1 & W2 & W3 & W4 & W5). pose proof (c_N C) as HN.
  destruct (V_ltN Va) as [La Na]. destruct (V_ltN Vb) as [Lb Nb]. destruct (V_ltN Vp) as [Lp Np].
  destruct (c_wl C La) as [Wa Wpa]. destruct (c_wl C Lb) as [Wb _].
  destruct turns_new as (T1 & T2 & T3 & T4 & T5).
  assert (Fa : F (wl va) <> []). { destruct (c_open C Va) as [(r & ->) _]. discriminate. }
  split.
  - lia.
  - intros v Hv. apply HV' in Hv as [->|(Hv & _)]; [lia|]. pose proof (c_rng C Hv). lia.
  - intros v Hv. unfold wl', wp'. destruct (Nat.eq_dec v N) as [->|Hne]; [rewrite !upd_eq; auto|]. rewrite !upd_ne by auto. apply (c_wl C). lia.
  - intros i Hi. unfold A', B', wl', wp'. rewrite !old by lia. apply (c_base C Hi).
  - intros x Hx. destruct (Nat.eq_dec x N) as [->|Hne].
    + assert (Ua : U' va = N) by (unfold U'; rewrite upd_ne by auto; apply upd_eq). assert (Ub : U' vb = N) by apply upd_eq.
      unfold A', B'. rewrite !upd_eq. rewrite Ua, Ub. unfold wl', wp'. rewrite !upd_eq. rewrite !upd_ne by auto.
      split; auto. split; auto. split; auto. split; [rewrite HV'; tauto|]. split; [rewrite HV'; tauto|]. split; auto. split; auto. split; auto. split; auto. split; auto.
      exact shut_a.
    + assert (Hx' : n <= x < N) by lia. destruct (c_node C Hx') as (K1 & K2 & K3 & K4 & K5 & K6 & K7 & K8 & K9 & K10 & K11).
      unfold A', B', wl', wp'. rewrite !(@old A), !(@old B) by lia. rewrite !(@old wl), !(@old wp) by lia. rewrite !U'_old by auto.
      split; auto. split; auto. split; auto. split; [rewrite HV'; intros [Q|Q]; [lia|tauto]|]. split; [rewrite HV'; intros [Q|Q]; [lia|tauto]|].
      split; auto. split; auto. split; auto. split; auto. split; auto. exact (shut_mono K11).
  - intros v Hv. apply dead' in Hv as [Hv|[->| ->]].
    + rewrite U'_old by apply Hv. destruct (c_up C Hv) as [K1 K2]. split; [lia|]. unfold A', B'. rewrite !old by lia. auto.
    + unfold U'. rewrite upd_ne, upd_eq by auto. split; [lia|]. unfold A'. rewrite upd_eq. auto.
    + unfold U'. rewrite upd_eq. split; [lia|]. unfold B'. rewrite upd_eq. auto.
  - assert (G : forall v, V v -> v <> va -> v <> vb -> wl vb <> wl v).
    { intros v Hv H1 H2 K. apply H2. symmetry. apply (c_inj C Vb Hv K). }
    intros u v Hu Hv. unfold wl'. apply HV' in Hu as [->|(Hu & U1 & U2)]; apply HV' in Hv as [->|(Hv & V1 & V2)]; auto.
    + rewrite upd_eq, old by (apply V_ltN; auto). intros K. exfalso. eapply G; [| | |exact K]; auto.
    + rewrite upd_eq, old by (apply V_ltN; auto). intros K. exfalso. symmetry in K. eapply G; [| | |exact K]; auto.
    + rewrite !old by (apply V_ltN; auto). apply (c_inj C); auto.
  - intros v Hv. unfold wl', wp'. apply HV' in Hv as [->|(Hv & V1 & V2)].
    + rewrite nx1, upd_eq. destruct (c_chain C Vb) as [K1 K2]. rewrite old by (apply V_ltN; auto). split; auto. apply HV'. right. split; auto. split.
      * intros K. rewrite K in K2. auto.
      * intros K. rewrite K in K2. congruence.
    + rewrite nx2 by auto. rewrite (@old wl) by (apply V_ltN; auto). destruct (c_chain C Hv) as [K1 K2].
      destruct (Nat.eqb_spec (nx v) va) as [Ha|Ha].
      * split; [apply HV'; auto|]. rewrite upd_eq, <- Ha. auto.
      * split; [|rewrite old by (apply V_ltN; auto); auto]. apply HV'. right. split; auto. split; auto. intros K.
        apply V1. apply (c_inj C Hv Va). rewrite <- K2, K. auto.
  - intros v Hv. unfold wl', A', B'. apply HV' in Hv as [->|(Hv & V1 & V2)].
    + rewrite nx1, !upd_eq. destruct (c_chain C Vb) as [K1 K2]. rewrite !old by (apply V_ltN; auto). rewrite F'_b.
      destruct (c_open C Vb) as [(r & E1) (r' & E2)]. split; [exists (B vb :: r); rewrite E1; auto|exists (N :: r'); rewrite E2; auto].
    + rewrite (@old wl), (@old B) by (apply V_ltN; auto). destruct (c_open C Hv) as [(r & E1) (r' & E2)]. rewrite nx2 by auto.
      destruct (Nat.eqb_spec (nx v) va) as [Ha|Ha].
      * destruct (c_chain C Hv) as [_ K2]. rewrite Ha in K2. rewrite upd_eq, <- K2, F'_p, K2. split; [rewrite E1; exists (r ++ [N]); auto|].
        rewrite Ha in E2. exists (r' ++ [A va]). rewrite E2, <- !app_assoc. auto.
      * destruct (c_chain C Hv) as [Vx K2]. rewrite old by (apply V_ltN; auto).
        rewrite F'_o; [eauto| | |].
        -- intros K. apply V1, (c_inj C Hv Va K).
        -- intros K. apply V2, (c_inj C Hv Vb K).
        -- rewrite W4. intros K. apply Ha. rewrite <- npa. f_equal. apply (c_inj C Hv Vp K).
  - intros i Hi. destruct (c_face C Hi) as (H1 & (l1 & l2 & H2 & H3) & _). pose proof (path_kept Hi) as Hp.
    assert (HNi : ~ In N (F i)) by (intros K; apply (F_rng Hi) in K; lia).
    assert (Hc1 : NoDup (N :: F i) /\ (exists l1 l2, N :: F i = l1 ++ i :: S i mod n :: l2 /\ forall x, In x (l1 ++ l2) -> n <= x < S N)).
    { split; [constructor; auto|]. exists (N :: l1), l2. split; [rewrite H2; auto|]. intros x [<-|Hx]; [lia|]. apply H3 in Hx. lia. }
    destruct (Nat.eq_dec i (wl va)) as [->|Ia].
    { rewrite F'_a. destruct Hc1 as [Q1 Q2]. split; auto. split; auto.
      destruct (c_open C Va) as [(r & E1) _]. rewrite E1 in *. rewrite Path_cons. auto. }
    destruct (Nat.eq_dec i (wl vb)) as [->|Ib].
    { rewrite F'_b. destruct Hc1 as [Q1 Q2]. split; auto. split; auto.
      destruct (c_open C Vb) as [(r & E1) _]. rewrite E1 in *. rewrite Path_cons. auto. }
    destruct (Nat.eq_dec i (wp va)) as [->|Ip].
    { rewrite F'_p. split; [|split].
      - apply NoDup_rev in H1. rewrite <- rev_involutive. apply NoDup_rev. rewrite rev_app_distr. constructor; auto.
        rewrite <- in_rev. auto.
      - exists l1, (l2 ++ [N]). split; [rewrite H2, <- app_assoc; auto|]. intros x Hx. rewrite app_assoc in Hx.
        apply in_app_iff in Hx as [Hx|[<-|[]]]; [apply H3 in Hx; lia|lia].
      - rewrite W4 in Hp |- *. destruct (c_open C Vp) as [_ (r & E2)]. rewrite npa in E2. rewrite E2 in *. rewrite <- app_assoc. apply Path_snoc; auto. }
    rewrite F'_o by auto. split; auto. split; auto. exists l1, l2. split; auto. intros x Hx. apply H3 in Hx. lia.
  - intros i Hi Hs. apply shut_back in Hs as [->|(Ia & Hs)].
    + rewrite F'_a. destruct (c_open C Va) as [(r & E1) (r' & E2)]. rewrite nab in E2. split; [rewrite E1; simpl; lia|].
      exists N, va, (B va :: r). split; [rewrite E1; auto|].
      apply (close_path E1 E2 (path_kept Hi) T1 T2 T3).
    + assert (i <> wl vb) by (intros ->; apply (Hs vb Vb); auto). assert (i <> wp va) by (rewrite W4; intros ->; apply (Hs pv Vp); auto).
      rewrite F'_o by auto. destruct (c_closed C Hi Hs) as (L & a & b & r & E1 & Hp). split; auto. exists a, b, r. split; auto.
      revert Hp. apply Path_mono. intros u v w _ Hv _. apply turn_kept. apply (F_rng Hi). rewrite E1 in *. simpl in *.
      rewrite in_app_iff in Hv. simpl in Hv. tauto.
  - intros v Hv. apply dead' in Hv as [Hv|[->| ->]].
    + rewrite U'_old by apply Hv. destruct (c_dart C Hv). split; apply covered_kept; auto.
    + unfold U'. rewrite upd_ne, upd_eq by auto. split.
      * exists (wp va). split; auto. left. rewrite F'_p. rewrite W4. destruct (c_open C Vp) as [_ (r & E2)]. rewrite npa in E2. rewrite E2.
        exists (r ++ [A va]), []. rewrite <- !app_assoc. auto.
      * exists (wl va). split; auto. left. rewrite F'_a. destruct (c_open C Va) as [(r & E1) _]. rewrite E1. exists [], (B va :: r). auto.
    + unfold U'. rewrite upd_eq. split.
      * exists (wl va). split; auto. right. split; [exact shut_a|]. rewrite F'_a. destruct (c_open C Va) as [_ (r & E2)]. rewrite nab in E2. rewrite E2.
        exists (r ++ [A vb]). rewrite <- app_assoc. auto.
      * exists (wl vb). split; auto. left. rewrite F'_b. destruct (c_open C Vb) as [(r & E1) _]. rewrite E1. exists [], (B vb :: r). auto.
Qed.

End Merge.

(** ** the complete tree: every vertex has three neighbours *)
Definition turn3 (A B U : nat -> nat) u v w : Prop :=
  (u = A v /\ w = U v) \/ (u = U v /\ w = B v) \/ (n <= v /\ u = B v /\ w = A v).

Record tree (M : nat) (wp wl A B U : nat -> nat) (F : nat -> list nat) : Prop := {
  t_M : n < M;
  t_wl : forall v, v < M -> wl v < n /\ wp v < n;
  t_base : forall i, i < n -> A i = (i + n - 1) mod n /\ B i = S i mod n /\ wl i = i /\ wp i = (i + n - 1) mod n;
  t_node : forall x, n <= x < M -> A x < x /\ B x < x /\ A x <> B x /\ U (A x) = x /\ U (B x) = x /\
    wl (A x) = wp (B x) /\ wp x = wp (A x) /\ wl x = wl (B x);
  t_up : forall v, v < M -> U v < M /\ U v <> v /\ (n <= U v /\ (A (U v) = v \/ B (U v) = v) \/ U (U v) = v);
  t_face : forall i, i < n -> NoDup (F i) /\ 3 <= length (F i) /\
    (exists l1 l2, F i = l1 ++ i :: S i mod n :: l2 /\ forall x, In x (l1 ++ l2) -> n <= x < M) /\
    exists a b r, F i = a :: b :: r /\ Path (turn3 A B U) (F i ++ [a; b]);
  t_dart : forall v, v < M -> exists i j, i < n /\ j < n /\ (follows (F i) v (U v) \/ wraps (F i) v (U v)) /\ (follows (F j) (U v) v \/ wraps (F j) (U v) v);
  t_peak : exists p C, S p = M /\ n <= p /\ U p = C /\ U C = p /\ wl C = wp p /\ wp C = wl p /\ C <> A p /\ C <> B p /\
    forall v, v < M -> U (U v) = v -> v = p \/ v = C }.

Section Peak.
Variables (N : nat) (V : nat -> Prop) (nx wp wl A B U : nat -> nat) (F : nat -> list nat).
Hypothesis C : comb N V nx wp wl A B U F.
Variables (va vb vc : nat).
Hypothesis HV : forall v, V v <-> v = va \/ v = vb \/ v = vc.
Hypothesis nab : nx va = vb.
Hypothesis nbc : nx vb = vc.
Hypothesis nca : nx vc = va.
Hypothesis ab : va <> vb.
Hypothesis ca : vc <> va.
Hypothesis cb : vc <> vb.

Let A' := upd A N va.
Let B' := upd B N vb.
Let U' := upd (upd (upd (upd U va N) vb N) vc N) N vc.
Let wp' := upd wp N (wp va).
Let wl' := upd wl N (wl vb).
Definition F_peak i := if Nat.eqb i (wl va) then N :: F i else if Nat.eqb i (wl vb) then N :: F i else if Nat.eqb i (wl vc) then N :: F i else F i.
Notation F' := F_peak.

Lemma comb_peak : tree (S N) wp' wl' A' B' U' F'.
Proof.
  assert (Va : V va) by (apply HV; auto). assert (Vb : V vb) by (apply HV; auto). assert (Vc : V vc) by (apply HV; auto).
  destruct (wallsd C Va Vb Vc nab nca ab ca cb) as (W1 & W2 & W3 & W4 & W5). pose proof (c_N C) as HN.
  destruct (V_ltN C Va) as [La Na]. destruct (V_ltN C Vb) as [Lb Nb]. destruct (V_ltN C Vc) as [Lc Nc].
  destruct (c_wl C La) as [Wa Wpa]. destruct (c_wl C Lb) as [Wb _]. destruct (c_wl C Lc) as [Wc _].
  assert (W6 : wl vb = wp vc). { destruct (c_chain C Vb) as [_ K]. rewrite nbc in K. auto. }
  assert (Ua : U' va = N) by (unfold U'; rewrite !upd_ne by auto; apply upd_eq).
  assert (Ub : U' vb = N) by (unfold U'; rewrite !upd_ne by auto; apply upd_eq).
  assert (Uc : U' vc = N) by (unfold U'; rewrite !upd_ne by auto; apply upd_eq).
  assert (UN : U' N = vc) by apply upd_eq.
  assert (Uo : forall v, dead N V v -> U' v = U v).
  { intros v [Hv Hn]. unfold U'. rewrite !upd_ne; auto; try lia; intros ->; auto. }
  assert (cases : forall v, v < S N -> dead N V v \/ v = va \/ v = vb \/ v = vc \/ v = N).
  { intros v Hv. destruct (Nat.eq_dec v va); auto. destruct (Nat.eq_dec v vb); auto. destruct (Nat.eq_dec v vc); auto. destruct (Nat.eq_dec v N); auto.
    left. split; [lia|]. rewrite HV. tauto. }
  assert (Hturn : forall u v w, v < N -> turn (dead N V) A B U u v w -> turn3 A' B' U' u v w).
  { intros u v w Hv. unfold turn, turn3, A', B'. rewrite !upd_ne by lia.
    intros [(-> & D & ->)|[(-> & D & ->)|H]]; auto; rewrite Uo by auto; [left|right; left]; auto. }
  assert (Hpath : forall i, i < n -> Path (turn3 A' B' U') (F i)).
  { intros i Hi. destruct (c_face C Hi) as (_ & _ & H). revert H. apply Path_mono. intros u v w _ Hv _. apply Hturn. eapply (F_rng C); eauto. }
  assert (Fa : F' (wl va) = N :: F (wl va)) by (unfold F_peak; rewrite Nat.eqb_refl; auto).
  assert (Fb : F' (wl vb) = N :: F (wl vb)).
  { unfold F_peak. destruct (Nat.eqb_spec (wl vb) (wl va)); auto. rewrite Nat.eqb_refl. auto. }
  assert (Fc : F' (wl vc) = N :: F (wl vc)).
  { unfold F_peak. destruct (Nat.eqb_spec (wl vc) (wl va)); auto. destruct (Nat.eqb_spec (wl vc) (wl vb)); auto. rewrite Nat.eqb_refl. auto. }
  assert (Fo : forall i, i <> wl va -> i <> wl vb -> i <> wl vc -> F' i = F i).
  { intros i H1 H2 H3. unfold F_peak. destruct (Nat.eqb_spec i (wl va)), (Nat.eqb_spec i (wl vb)), (Nat.eqb_spec i (wl vc)); congruence. }
  assert (Fcases : forall i, F' i = F i \/ F' i = N :: F i).
  { intros i. unfold F_peak. destruct (Nat.eqb i (wl va)); auto. destruct (Nat.eqb i (wl vb)); auto. destruct (Nat.eqb i (wl vc)); auto. }
  assert (Hcov : forall u v, covered V wl F u v -> exists i, i < n /\ (follows (F' i) u v \/ wraps (F' i) u v)).
  { intros u v (i & Hi & H). exists i. split; auto. destruct H as [H|(S & H)].
    - left. destruct (Fcases i) as [->| ->]; auto. apply follows_cons; auto.
    - right. rewrite Fo; auto; intros ->; [eapply S; [exact Va|auto]|eapply S; [exact Vb|auto]|eapply S; [exact Vc|auto]]. }
  assert (Hclose : forall a b, V a -> nx a = b -> V b -> F' (wl a) = N :: F (wl a) -> U' a = N -> U' b = N -> turn3 A' B' U' b N a ->
     3 <= length (F' (wl a)) /\ exists x y r, F' (wl a) = x :: y :: r /\ Path (turn3 A' B' U') (F' (wl a) ++ [x; y])).
  { intros a b Ha Hab Hb HF Hua Hub Ht. destruct (c_open C Ha) as [(r & E1) (r' & E2)]. rewrite Hab in E2.
    destruct (V_ltN C Ha) as [L1 _]. destruct (V_ltN C Hb) as [L2 _].
    rewrite HF. split; [rewrite E1; simpl; lia|]. exists N, a, (B a :: r). split; [rewrite E1; auto|].
    apply (close_path E1 E2); auto.
    - apply Hpath. apply (c_wl C L1).
    - right. left. rewrite Hua. unfold B'. rewrite upd_ne by lia. auto.
    - left. rewrite Hub. unfold A'. rewrite upd_ne by lia. auto. }
  assert (Hends : forall a b, V a -> nx a = b -> F' (wl a) = N :: F (wl a) -> wl a < n /\ follows (F' (wl a)) N a /\ wraps (F' (wl a)) b N).
  { intros a b Ha Hab HF. destruct (c_open C Ha) as [(r & E1) (r' & E2)]. rewrite Hab in E2. split; [apply (c_wl C), (c_rng C Ha)|].
    rewrite HF. split; [exists [], (B a :: r); rewrite E1; auto|]. exists (r' ++ [A b]). rewrite E2, <- app_assoc. auto. }
  destruct (Hends va vb Va nab Fa) as (_ & Ea1 & Ea2). destruct (Hends vb vc Vb nbc Fb) as (_ & Eb1 & Eb2). destruct (Hends vc va Vc nca Fc) as (_ & Ec1 & Ec2).
  split.
  - lia.
  - intros v Hv. unfold wl', wp'. destruct (Nat.eq_dec v N) as [->|Hne]; [rewrite !upd_eq; auto|]. rewrite !upd_ne by auto. apply (c_wl C). lia.
  - intros i Hi. unfold A', B', wl', wp'. rewrite !upd_ne by lia. apply (c_base C Hi).
  - intros x Hx. destruct (Nat.eq_dec x N) as [->|Hne].
    + unfold A', B'. rewrite !upd_eq. rewrite Ua, Ub. unfold wl', wp'. rewrite !upd_eq. rewrite !upd_ne by auto.
      split; auto 10.
    + assert (Hx' : n <= x < N) by lia. destruct (c_node C Hx') as (K1 & K2 & K3 & K4 & K5 & K6 & K7 & K8 & K9 & K10 & K11).
      unfold A', B', wl', wp'. rewrite !(upd_ne (f := A)), !(upd_ne (f := B)) by lia. rewrite !(upd_ne (f := wl)), !(upd_ne (f := wp)) by lia.
      rewrite !Uo by (split; auto; lia). auto 10.
  - intros v Hv. destruct (cases v Hv) as [D|[->|[->|[->| ->]]]].
    + rewrite Uo by auto. destruct (c_up C D) as [K1 K2]. split; [lia|]. destruct D as [D1 D2]. split.
      { destruct (c_node C K1) as (Q1 & Q2 & _). destruct K2; lia. }
      left. split; [lia|]. unfold A', B'. rewrite !upd_ne by lia. auto.
    + rewrite Ua. split; [lia|]. split; auto. left. unfold A'. rewrite upd_eq. auto.
    + rewrite Ub. split; [lia|]. split; auto. left. unfold B'. rewrite upd_eq. auto.
    + rewrite Uc. split; [lia|]. split; auto.
    + rewrite UN. split; [lia|]. split; auto.
  - intros i Hi. destruct (c_face C Hi) as (H1 & (l1 & l2 & H2 & H3) & _).
    assert (HNi : ~ In N (F i)) by (intros K; apply (F_rng C Hi) in K; lia).
    split; [destruct (Fcases i) as [->| ->]; auto; constructor; auto|].
    assert (Hs : (exists l1 l2, F' i = l1 ++ i :: S i mod n :: l2 /\ forall x, In x (l1 ++ l2) -> n <= x < S N)).
    { destruct (Fcases i) as [->| ->]; [exists l1, l2; split; auto; intros x Hx; apply H3 in Hx; lia|].
      exists (N :: l1), l2. split; [rewrite H2; auto|]. intros x [<-|Hx]; [lia|]. apply H3 in Hx. lia. }
    assert (Hk : 3 <= length (F' i) /\ exists a b r, F' i = a :: b :: r /\ Path (turn3 A' B' U') (F' i ++ [a; b])); [|tauto].
    destruct (Nat.eq_dec i (wl va)) as [->|Ia].
    { apply (Hclose va vb); auto. unfold turn3, A', B'. rewrite !upd_eq. auto. }
    destruct (Nat.eq_dec i (wl vb)) as [->|Ib].
    { apply (Hclose vb vc); auto. unfold turn3, B'. rewrite !upd_eq, UN. auto. }
    destruct (Nat.eq_dec i (wl vc)) as [->|Ic].
    { apply (Hclose vc va); auto. unfold turn3, A'. rewrite !upd_eq, UN. auto. }
    assert (Hs' : shut V wl i) by (intros v Hv; apply HV in Hv as [->|[->| ->]]; auto).
    rewrite Fo by auto. destruct (c_closed C Hi Hs') as (L & a & b & r & E1 & Hp). split; auto. exists a, b, r. split; auto.
    revert Hp. apply Path_mono. intros u v w _ Hv _. apply Hturn. apply (F_rng C Hi). rewrite E1 in *. simpl in *.
    rewrite in_app_iff in Hv. simpl in Hv. tauto.
  - intros v Hv. destruct (cases v Hv) as [D|[->|[->|[->| ->]]]].
    + rewrite Uo by auto. destruct (c_dart C D) as [K1 K2]. destruct (Hcov _ _ K1) as (i & Hi & Q1). destruct (Hcov _ _ K2) as (j & Hj & Q2).
      exists i, j. auto.
    + rewrite Ua. exists (wl vc), (wl va). auto.
    + rewrite Ub. exists (wl va), (wl vb). auto.
    + rewrite Uc. exists (wl vb), (wl vc). auto.
    + rewrite UN. exists (wl vc), (wl vb). auto.
  - exists N, vc. split; auto. split; auto. split; auto. split; auto. unfold wl', wp', A', B'. rewrite !upd_eq. rewrite !upd_ne by auto.
    split; auto. split; auto. split; auto. split; auto. intros v Hv K. destruct (cases v Hv) as [D|[->|[->|[->| ->]]]]; auto.
    + exfalso. rewrite (Uo v) in K by auto. destruct (c_up C D) as [Q1 Q2]. destruct (c_node C Q1) as (R1 & R2 & _ & _ & _ & R3 & R4 & _).
      destruct (cases (U v)) as [D2|[E|[E|[E|E]]]]; [lia| | | | |lia].
      * rewrite (Uo (U v)) in K by auto. destruct (c_up C D2) as [Q3 Q4]. rewrite K in *. destruct (c_node C Q3) as (S1 & S2 & _). 
        destruct Q2, Q4; lia.
      * rewrite E, Ua in K. destruct D. lia.
      * rewrite E, Ub in K. destruct D. lia.
      * rewrite E, Uc in K. destruct D. lia.
    + exfalso. rewrite Ua, UN in K. auto.
    + exfalso. rewrite Ub, UN in K. auto.
Qed.
End Peak.
End Comb.
