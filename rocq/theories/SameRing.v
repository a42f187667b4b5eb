(** * SameRing: the order of the corners of a convex polygon follows from their places (C63) *)

From Coq Require Import Permutation Reals Lra Lia.
From Verif Require Import Py Arith ArithR Euclid GeoSpec BisSpec GeoLines ConvexGeo.
Set Implicit Arguments.
Unset Strict Implicit.
Local Open Scope R_scope.

(** the corners turn left, and no corner is to the right of a side *)
Definition left_ring (l : list pt) : Prop :=
  (forall i a b d, (i < length l)%nat -> nth_error l i = Some a -> nth_error l ((i + 1) mod length l) = Some b -> nth_error l ((i + 2) mod length l) = Some d -> 0 < orient a b d) /\
  (forall i a b w, (i < length l)%nat -> nth_error l i = Some a -> nth_error l ((i + 1) mod length l) = Some b -> In w l -> 0 <= orient a b w).

Lemma nth_mod (l : list pt) i : l <> [] -> exists a, nth_error l (i mod length l) = Some a.
Proof.
  intros Hl. destruct (nth_error l (i mod length l)) as [a|] eqn:E; eauto. apply nth_error_None in E. exfalso.
  assert (length l <> 0)%nat by (destruct l; simpl; congruence). pose proof (Nat.mod_upper_bound i _ H). lia.
Qed.

Lemma on_line (u v w : pt) : u <> v -> orient u v w = 0 -> exists t, w = rvec (vx u + t * (vx v - vx u)) (vy u + t * (vy v - vy u)).
Proof.
  destruct u as [ux uy], v as [wx' wy'], w as [x y]. unfold orient, rvec. cbn [vx vy]. change (num RA) with R in *. intros N E.
  destruct (Req_EM_T ux wx') as [Ex|Nx].
  - assert (Ny : wy' - uy <> 0) by (intros K; apply N; f_equal; lra). exists ((y - uy) / (wy' - uy)).
    assert (K : (x - ux) * (wy' - uy) = 0) by (rewrite <- Ex in E; lra). apply Rmult_integral in K as [K|K]; [|contradiction].
    f_equal; [rewrite <- Ex; lra|field; auto].
  - assert (Nx' : wx' - ux <> 0) by (intros K; apply Nx; lra). exists ((x - ux) / (wx' - ux)).
    f_equal; [field; auto|]. apply (Rmult_eq_reg_l (wx' - ux)); [|auto]. field_simplify; [|auto]. lra.
Qed.

(** a corner on the line of the side from u to v is not beyond v *)
Lemma next_limit l i u v w : (3 <= length l)%nat -> left_ring l -> (i < length l)%nat -> nth_error l i = Some u -> nth_error l ((i + 1) mod length l) = Some v ->
  In w l -> w <> u -> orient u v w = 0 -> u <> v /\ exists t, 0 < t <= 1 /\ w = rvec (vx u + t * (vx v - vx u)) (vy u + t * (vy v - vy u)).
Proof.
  intros L3 [T S] Li Hu Hv Hw Nw O. assert (Hl : l <> []) by (intros ->; simpl in L3; lia).
  destruct (nth_mod (i + 2) Hl) as (x & Hx). pose proof (T i u v x Li Hu Hv Hx) as Tx.
  set (j := ((i + (length l - 1)) mod length l)%nat). assert (Lj : (j < length l)%nat) by (apply Nat.mod_upper_bound; lia).
  destruct (nth_mod (i + (length l - 1)) Hl) as (z & Hz). fold j in Hz.
  assert (J1 : ((j + 1) mod length l = i)%nat).
  { unfold j. rewrite Nat.add_mod_idemp_l by lia. replace (i + (length l - 1) + 1)%nat with (i + 1 * length l)%nat by lia. rewrite Nat.mod_add by lia. apply Nat.mod_small. auto. }
  assert (J2 : ((j + 2) mod length l = (i + 1) mod length l)%nat).
  { rewrite <- J1. rewrite Nat.add_mod_idemp_l by lia. f_equal. lia. }
  assert (Tz : 0 < orient z u v) by (apply (T j z u v); auto; [rewrite J1|rewrite J2]; auto).
  assert (Sz : 0 <= orient z u w) by (apply (S j z u w); auto; rewrite J1; auto).
  set (k := ((i + 1) mod length l)%nat) in *. assert (Lk : (k < length l)%nat) by (apply Nat.mod_upper_bound; lia).
  assert (Sx : 0 <= orient v x w).
  { apply (S k v x w); auto. unfold k. rewrite Nat.add_mod_idemp_l by lia. rewrite <- Hx. f_equal. f_equal. lia. }
  assert (N : u <> v). { intros E. rewrite E in Tx. unfold orient in Tx. lra. }
  split; auto. destruct (on_line N O) as (t & E). exists t. split; auto.
  assert (E1 : orient z u w = t * orient z u v) by (rewrite E; unfold orient, rvec; cbn [vx vy]; change (num RA) with R in *; ring).
  assert (E2 : orient v x w = (1 - t) * orient u v x) by (rewrite E; unfold orient, rvec; cbn [vx vy]; change (num RA) with R in *; ring).
  rewrite E1 in Sz. rewrite E2 in Sx.
  assert (t <> 0). { intros ->. apply Nw. rewrite E. apply vec_ext; unfold rvec; cbn [vx vy]; change (num RA) with R in *; ring. }
  split.
  - destruct (Rlt_dec 0 t) as [G|G]; auto. exfalso. assert (0 < - t) by lra. pose proof (Rmult_lt_0_compat _ _ H0 Tz). lra.
  - destruct (Rle_dec t 1) as [G|G]; auto. exfalso. assert (0 < t - 1) by lra. pose proof (Rmult_lt_0_compat _ _ H0 Tx). lra.
Qed.

Lemma same_next l m i u v w : (3 <= length l)%nat -> length m = length l -> left_ring l -> left_ring m -> (forall p, In p l <-> In p m) ->
  (i < length l)%nat -> nth_error l i = Some u -> nth_error m i = Some u ->
  nth_error l ((i + 1) mod length l) = Some v -> nth_error m ((i + 1) mod length l) = Some w -> v <> u -> w <> u -> v = w.
Proof.
  intros L3 Lm Rl Rm Hin Li Hu Hu' Hv Hw Nv Nw.
  assert (Iv : In v l) by (eapply nth_error_In; eauto). assert (Iw : In w m) by (eapply nth_error_In; eauto).
  assert (O1 : 0 <= orient u v w) by (apply (proj2 Rl i u v w); auto; apply Hin; auto).
  assert (O2 : 0 <= orient u w v) by (apply (proj2 Rm i u w v); auto; rewrite ?Lm; auto; apply Hin; auto).
  assert (O : orient u w v = - orient u v w) by (unfold orient; ring).
  destruct (@next_limit l i u v w) as (N1 & t & T & E); auto; [apply Hin; auto|lra|].
  destruct (@next_limit m i u w v) as (N2 & t' & T' & E'); auto; rewrite ?Lm; auto; [apply Hin; auto|lra|].
  assert (K : t = 1).
  { assert (Ex : (t * t' - 1) * (vx v - vx u) = 0) by (pose proof (f_equal (@vx RA) E) as Q; pose proof (f_equal (@vx RA) E') as Q'; unfold rvec in Q, Q'; cbn [vx] in Q, Q'; rewrite Q in Q'; change (num RA) with R in *; lra).
    assert (Ey : (t * t' - 1) * (vy v - vy u) = 0) by (pose proof (f_equal (@vy RA) E) as Q; pose proof (f_equal (@vy RA) E') as Q'; unfold rvec in Q, Q'; cbn [vy] in Q, Q'; rewrite Q in Q'; change (num RA) with R in *; lra).
    apply Rmult_integral in Ex as [Ex|Ex]; [|apply Rmult_integral in Ey as [Ey|Ey]]; [| |exfalso; apply N1, vec_ext; change (num RA) with R in *; lra].
    - assert (t * t' <= t * 1) by (apply Rmult_le_compat_l; lra). lra.
    - assert (t * t' <= t * 1) by (apply Rmult_le_compat_l; lra). lra. }
  subst t. rewrite E. apply vec_ext; unfold rvec; cbn [vx vy]; [generalize (vx u) (vx v)|generalize (vy u) (vy v)]; change (num RA) with R; intros; ring.
Qed.

Lemma ring_unique l m : (3 <= length l)%nat -> NoDup l -> NoDup m -> left_ring l -> left_ring m -> (forall p, In p l <-> In p m) ->
  nth_error l 0 = nth_error m 0 -> l = m.
Proof.
  intros L3 Nl Nm Rl Rm Hin H0. assert (Lm : length m = length l) by (apply Permutation_length, NoDup_Permutation; auto; intros p; split; apply Hin).
  assert (G : forall i, (i < length l)%nat -> nth_error l i = nth_error m i).
  { induction i as [|i IH]; intros Li; auto. specialize (IH ltac:(lia)).
    destruct (nth_error l i) as [u|] eqn:Hu; [|apply nth_error_None in Hu; lia].
    destruct (nth_error l (S i)) as [v|] eqn:Hv; [|apply nth_error_None in Hv; lia].
    destruct (nth_error m (S i)) as [w|] eqn:Hw; [|apply nth_error_None in Hw; lia].
    assert (M : ((i + 1) mod length l = S i)%nat) by (rewrite Nat.mod_small; lia).
    f_equal. apply (@same_next l m i u v w); rewrite ?M; auto; try lia.
    - intros ->. assert (S i = i); [|lia]. apply (proj1 (NoDup_nth_error l) Nl); [lia|congruence].
    - intros ->. assert (S i = i); [|lia]. apply (proj1 (NoDup_nth_error m) Nm); [lia|congruence]. }
  assert (Q : forall a b : list pt, length a = length b -> (forall i, (i < length a)%nat -> nth_error a i = nth_error b i) -> a = b).
  { clear. induction a as [|x a IH]; intros [|y b] L E; simpl in L; try discriminate; auto. f_equal; [specialize (E 0%nat ltac:(simpl; lia)); simpl in E; congruence|].
    apply IH; [lia|]. intros i Hi. exact (E (S i) ltac:(simpl; lia)). }
  apply Q; auto.
Qed.
