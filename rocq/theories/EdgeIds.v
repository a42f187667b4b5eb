(** * EdgeIds: every edge of the contours is an object of its own *)

From Coq Require Import Lia ZArith.
From Verif Require Import Py PyFacts Arith ArithF Euclid Lav Cluster Poly PolyFaces PropsLav.
Set Implicit Arguments.
Unset Strict Implicit.
Local Open Scope nat_scope.

Section Ids.
Context {A : arith}.

Lemma mapM_seq_ids (f : nat -> res (@edge2 A)) id0 n : (forall k e, f k = Ok e -> eid e = id0 + k) -> forall k0 l,
  mapM f (seq k0 n) = Ok l -> map (@eid A) l = seq (id0 + k0) n.
Proof.
  intros Hf. induction n as [|n IH]; intros k0 l H; cbn [seq mapM] in H.
  - apply Ok_inj in H. subst. auto.
  - apply bind_ok in H as (e & He & H). apply bind_ok in H as (t & Ht & H). apply Ok_inj in H. subst l.
    cbn [map seq]. f_equal; [apply Hf; auto|]. rewrite (IH _ _ Ht). f_equal. lia.
Qed.

Lemma contour_ids (verts : list (vec3 A)) center us u0 id0 first cnt es :
  contour_edges verts center us u0 id0 first cnt = Ok es -> map (@eid A) es = seq id0 (length es).
Proof.
  unfold contour_edges. cbv zeta. intros H. apply bind_ok in H as (body & Hb & H). apply bind_ok in H as (u & Hu & H).
  apply bind_ok in H as (e & He & H). apply Ok_inj in H. subst es.
  pose proof (mapM_length _ _ Hb) as Hl. rewrite seq_length in Hl.
  apply mapM_seq_ids with (id0 := id0) in Hb.
  - rewrite map_app, app_length, Nat.add_comm. cbn [map length]. rewrite Hb, Nat.add_0_r, <- Hl. cbn [Nat.add].
    rewrite seq_S. f_equal. apply Edge2_idx_ok in He as (-> & _). rewrite Hl. auto.
  - intros k x Hx. apply bind_ok in Hx as (w & _ & Hx). apply Edge2_idx_ok in Hx as (-> & _). auto.
Qed.

Lemma hole_ids (verts : list (vec3 A)) center us : forall holes u0 id0 hs,
  hole_edges verts center us u0 id0 holes = Ok hs -> map (@eid A) (concat hs) = seq id0 (length (concat hs)).
Proof.
  induction holes as [|[f c] t IH]; cbn [hole_edges]; intros u0 id0 hs H.
  - apply Ok_inj in H. subst. auto.
  - apply bind_ok in H as (es & He & H). apply bind_ok in H as (rest & Hr & H). apply Ok_inj in H. subst hs.
    cbn [concat]. rewrite map_app, app_length, seq_app. rewrite (contour_ids He), (IH _ _ _ Hr). auto.
Qed.

Theorem prepare_ids (verts : list (vec3 A)) first cnt holes us zBase center contours :
  prepare verts first cnt holes us = Ok (zBase, center, contours) ->
  map (@eid A) (concat contours) = seq 0 (length (concat contours)).
Proof.
  intros H. apply prepare_ok in H as (_ & _ & outer & hs & -> & Ho & Hhs). cbn [concat].
  rewrite map_app, app_length, seq_app, (contour_ids Ho), (hole_ids Hhs). auto.
Qed.

Theorem prepare_distinct (verts : list (vec3 A)) first cnt holes us zBase center contours :
  prepare verts first cnt holes us = Ok (zBase, center, contours) ->
  forall i j e f, nth_error (concat contours) i = Some e -> nth_error (concat contours) j = Some f -> eid e = eid f -> i = j.
Proof.
  intros H i j e f Hi Hj E. apply prepare_ids in H. pose proof (seq_NoDup (length (concat contours)) 0) as N. rewrite <- H in N.
  rewrite NoDup_nth_error in N. apply N.
  - rewrite map_length. apply nth_error_Some. congruence.
  - rewrite (map_nth_error _ _ _ Hi), (map_nth_error _ _ _ Hj). congruence.
Qed.
End Ids.

(** ** faces merged by the spike removal *)
Lemma find_enum T (P : nat * T -> bool) (l : list T) : forall k,
  match find P (combine (seq k (length l)) l) with
  | Some (i, x) => exists j, i = k + j /\ nth_error l j = Some x /\ P (i, x) = true /\
                             forall j' y, j' < j -> nth_error l j' = Some y -> P (k + j', y) = false
  | None => forall j y, nth_error l j = Some y -> P (k + j, y) = false
  end.
Proof.
  induction l as [|x t IH]; intros k; cbn [length seq combine find].
  - intros [|j] y H; discriminate.
  - destruct (P (k, x)) eqn:E.
    + exists 0. rewrite Nat.add_0_r. split; auto. split; auto. split; auto. intros; lia.
    + specialize (IH (S k)). destruct (find P _) as [[i y]|].
      * destruct IH as (j & -> & H1 & H2 & H3). exists (S j). split; [lia|]. split; auto. split; auto.
        intros [|j'] z Hj Hz; [injection Hz as <-; rewrite Nat.add_0_r; auto|]. replace (k + S j') with (S k + j') by lia. apply H3; auto. lia.
      * intros [|j] y Hy; [injection Hy as <-; rewrite Nat.add_0_r; auto|]. replace (k + S j) with (S k + j) by lia. apply IH; auto.
Qed.
