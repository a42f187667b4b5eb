(** * PyFacts: lemmas about the Python fragment of Py.v *)

From Coq Require Import Permutation.
From Verif Require Import Py.
Set Implicit Arguments.

(** ** res *)
Lemma Ok_inj A (a b : A) : Ok a = Ok b -> a = b.
Proof. congruence. Qed.

Lemma bind_ok A B (x : res A) (f : A -> res B) b :
  bind x f = Ok b -> exists a, x = Ok a /\ f a = Ok b.
Proof. destruct x as [a|e]; simpl; intros H; [eauto | discriminate]. Qed.

Lemma bind_err A B (x : res A) (f : A -> res B) e :
  bind x f = Err e -> x = Err e \/ exists a, x = Ok a /\ f a = Err e.
Proof. destruct x as [a|e']; simpl; intros H; [eauto | injection H; intros; subst; auto]. Qed.

Ltac inv_ok H :=
  match type of H with
  | bind _ _ = Ok _ =>
    let a := fresh "a" in let Ha := fresh "Ha" in let Hb := fresh "Hb" in
    apply bind_ok in H; destruct H as [a [Ha Hb]]
  | Ok _ = Ok _ => apply Ok_inj in H
  | Err _ = Ok _ => discriminate H
  end.

Lemma of_option_ok A (e : exn) (o : option A) a : of_option e o = Ok a -> o = Some a.
Proof. destruct o; simpl; congruence. Qed.

Lemma mapM_ok A B (f : A -> res B) l l' :
  mapM f l = Ok l' -> Forall2 (fun x y => f x = Ok y) l l'.
Proof.
  revert l'; induction l as [|x t IH]; simpl; intros l' H.
  - injection H; intros; subst; constructor.
  - inv_ok H. inv_ok Hb. inv_ok Hb0. subst. constructor; auto.
Qed.

Lemma Forall2_mapM A B (f : A -> res B) l l' :
  Forall2 (fun x y => f x = Ok y) l l' -> mapM f l = Ok l'.
Proof. induction 1; simpl; auto. rewrite H, IHForall2; reflexivity. Qed.

Lemma mapM_length A B (f : A -> res B) l l' : mapM f l = Ok l' -> length l' = length l.
Proof. intros H; apply mapM_ok in H; induction H; simpl; congruence. Qed.

Lemma mapM_total A B (f : A -> res B) l :
  (forall x, In x l -> exists y, f x = Ok y) -> exists l', mapM f l = Ok l'.
Proof.
  induction l as [|x t IH]; simpl; intros H; [eauto|].
  destruct (H x (or_introl eq_refl)) as [y Hy].
  destruct IH as [ys Hys]; [intros; apply H; auto|].
  rewrite Hy; simpl; rewrite Hys; simpl; eauto.
Qed.

Lemma mapM_err A B (f : A -> res B) l e :
  mapM f l = Err e -> exists x, In x l /\ f x = Err e.
Proof.
  induction l as [|x t IH]; simpl; intros H; [discriminate|].
  apply bind_err in H; destruct H as [H|[y [Hy H]]]; [eauto|].
  apply bind_err in H; destruct H as [H|[ys [Hys H]]]; [|discriminate].
  destruct (IH H) as [z [Hz Hf]]; eauto.
Qed.

Lemma mapM_ext A B (f g : A -> res B) l :
  (forall x, In x l -> f x = g x) -> mapM f l = mapM g l.
Proof.
  induction l as [|x t IH]; simpl; intros H; [reflexivity|].
  rewrite (H x), IH; auto.
Qed.

Lemma mapM_Ok_map A B (f : A -> B) l : mapM (fun x => Ok (f x)) l = Ok (map f l).
Proof. induction l; simpl; auto. rewrite IHl; reflexivity. Qed.

Lemma Forall2_In_r A B (R : A -> B -> Prop) l l' y :
  Forall2 R l l' -> In y l' -> exists x, In x l /\ R x y.
Proof. induction 1; simpl; [tauto|]. intros [->|Hy]; [eauto|]. destruct (IHForall2 Hy) as [z [? ?]]; eauto. Qed.

Lemma Forall2_In_l A B (R : A -> B -> Prop) l l' x :
  Forall2 R l l' -> In x l -> exists y, In y l' /\ R x y.
Proof. induction 1; simpl; [tauto|]. intros [->|Hy]; [eauto|]. destruct (IHForall2 Hy) as [z [? ?]]; eauto. Qed.

Lemma Forall2_nth A B (R : A -> B -> Prop) l l' i x :
  Forall2 R l l' -> nth_error l i = Some x -> exists y, nth_error l' i = Some y /\ R x y.
Proof.
  intros H; revert i; induction H; intros [|i]; simpl; try discriminate; intros E.
  - injection E; intros; subst; eauto.
  - eauto.
Qed.

Lemma Forall2_nth_r A B (R : A -> B -> Prop) l l' i y :
  Forall2 R l l' -> nth_error l' i = Some y -> exists x, nth_error l i = Some x /\ R x y.
Proof.
  intros H; revert i; induction H; intros [|i]; simpl; try discriminate; intros E.
  - injection E; intros; subst; eauto.
  - eauto.
Qed.

(** ** py_get *)
Lemma py_get_nonneg A (l : list A) (i : Z) :
  (0 <= i)%Z -> py_get l i = of_option IndexError (nth_error l (Z.to_nat i)).
Proof.
  intros Hi; unfold py_get. destruct (Z.ltb_spec i 0); [lia|].
  destruct (Z.leb_spec 0 i); [|lia]; simpl.
  destruct (Z.ltb_spec i (Z.of_nat (length l))) as [Hl|Hl]; [reflexivity|].
  assert (E : nth_error l (Z.to_nat i) = None) by (apply nth_error_None; lia).
  rewrite E; reflexivity.
Qed.

Lemma py_get_nat A (l : list A) (i : nat) :
  py_get l (Z.of_nat i) = of_option IndexError (nth_error l i).
Proof. rewrite py_get_nonneg by lia. rewrite Nat2Z.id; reflexivity. Qed.

Lemma py_get_in A (l : list A) i a : py_get l i = Ok a -> In a l.
Proof.
  unfold py_get. destruct (_ && _); [|discriminate].
  intros H; apply of_option_ok in H. eapply nth_error_In; eauto.
Qed.

Lemma py_get_app_l A (l l2 : list A) i a :
  (0 <= i)%Z -> py_get l i = Ok a -> py_get (l ++ l2) i = Ok a.
Proof.
  intros Hi; rewrite !py_get_nonneg by auto. intros H; apply of_option_ok in H.
  rewrite nth_error_app1; [rewrite H; reflexivity|].
  apply nth_error_Some; congruence.
Qed.

Lemma py_get_range A (l : list A) i :
  (0 <= i < Z.of_nat (length l))%Z -> exists a, py_get l i = Ok a.
Proof.
  intros Hi; rewrite py_get_nonneg by lia.
  destruct (nth_error l (Z.to_nat i)) eqn:E; simpl; [eauto|].
  apply nth_error_None in E; lia.
Qed.

Lemma py_get_range' A (l : list A) i :
  (- Z.of_nat (length l) <= i < Z.of_nat (length l))%Z -> exists a, py_get l i = Ok a.
Proof.
  intros Hi. unfold py_get.
  set (j := if (i <? 0)%Z then (i + Z.of_nat (length l))%Z else i).
  assert (Hj : (0 <= j < Z.of_nat (length l))%Z) by (unfold j; destruct (Z.ltb_spec i 0); lia).
  destruct (Z.leb_spec 0 j); [|lia]; destruct (Z.ltb_spec j (Z.of_nat (length l))); [|lia]; simpl.
  destruct (nth_error l (Z.to_nat j)) eqn:E; simpl; [eauto|].
  apply nth_error_None in E; lia.
Qed.

(** ** membership and removal *)
Lemma py_in_In A (eqb : A -> A -> bool) (Heqb : forall a b, eqb a b = true <-> a = b) x l :
  py_in eqb x l = true <-> In x l.
Proof.
  unfold py_in; rewrite existsb_exists; split.
  - intros [y [Hy E]]; apply Heqb in E; subst; auto.
  - intros H; exists x; split; auto; apply Heqb; auto.
Qed.

Lemma py_in_exists A (eqb : A -> A -> bool) x l :
  py_in eqb x l = true <-> exists y, In y l /\ eqb y x = true.
Proof. unfold py_in; apply existsb_exists. Qed.

Lemma py_remove_ok A (eqb : A -> A -> bool) x l l' :
  py_remove eqb x l = Ok l' ->
  exists l1 y l2, l = l1 ++ y :: l2 /\ l' = l1 ++ l2 /\ eqb y x = true /\ py_in eqb x l1 = false.
Proof.
  revert l'; induction l as [|z t IH]; simpl; intros l' H; [discriminate|].
  destruct (eqb z x) eqn:E.
  - injection H; intros; subst. exists [], z, l'; auto.
  - inv_ok H. inv_ok Hb. subst. destruct (IH _ Ha) as (l1 & y & l2 & -> & -> & E2 & E3).
    exists (z :: l1), y, l2. simpl. rewrite E; auto.
Qed.

Lemma py_remove_total A (eqb : A -> A -> bool) x l :
  py_in eqb x l = true -> exists l', py_remove eqb x l = Ok l'.
Proof.
  induction l as [|z t IH]; simpl; intros H; [discriminate|].
  unfold py_in in *; simpl in H. destruct (eqb z x); [eauto|].
  destruct (IH H) as [l' ->]; simpl; eauto.
Qed.

Lemma py_remove_fail A (eqb : A -> A -> bool) x l :
  py_in eqb x l = false -> py_remove eqb x l = Err ValueError.
Proof.
  induction l as [|z t IH]; simpl; intros H; [reflexivity|].
  unfold py_in in *; simpl in H. destruct (eqb z x); [discriminate|].
  rewrite IH; auto.
Qed.

Lemma py_remove_incl A (eqb : A -> A -> bool) x l l' : py_remove eqb x l = Ok l' -> incl l' l.
Proof.
  intros H; apply py_remove_ok in H. destruct H as (l1 & y & l2 & -> & -> & _).
  intros z Hz; apply in_app_or in Hz; apply in_or_app; simpl; tauto.
Qed.

Lemma py_remove_length A (eqb : A -> A -> bool) x l l' :
  py_remove eqb x l = Ok l' -> length l = S (length l').
Proof.
  intros H; apply py_remove_ok in H. destruct H as (l1 & y & l2 & -> & -> & _).
  rewrite !app_length; simpl; lia.
Qed.

Lemma py_remove_all_incl A (eqb : A -> A -> bool) xs l l' :
  py_remove_all eqb xs l = Ok l' -> incl l' l.
Proof.
  revert l; induction xs as [|x t IH]; simpl; intros l H.
  - inv_ok H; subst; apply incl_refl.
  - inv_ok H. eapply incl_tran; [eapply IH; eauto | eapply py_remove_incl; eauto].
Qed.

(** ** find_pos *)
Lemma find_pos_some A (p : A -> bool) l i :
  find_pos p l = Some i ->
  exists x, nth_error l i = Some x /\ p x = true /\ forallb (fun y => negb (p y)) (firstn i l) = true.
Proof.
  revert i; induction l as [|x t IH]; simpl; intros i H; [discriminate|].
  destruct (p x) eqn:E.
  - injection H; intros; subst; exists x; auto.
  - destruct (find_pos p t) as [n|]; [|discriminate]. injection H; intros; subst.
    destruct (IH n eq_refl) as (y & H1 & H2 & H3). exists y; simpl; rewrite E; auto.
Qed.

Lemma find_pos_none A (p : A -> bool) l : find_pos p l = None <-> forall x, In x l -> p x = false.
Proof.
  induction l as [|x t IH]; simpl; [split; [tauto|auto]|].
  destruct (p x) eqn:E; split; intros H.
  - discriminate.
  - rewrite H in E; [discriminate|auto].
  - destruct (find_pos p t); [discriminate|]. intros y [->|Hy]; auto. apply IH; auto.
  - destruct (find_pos p t); auto. exfalso.
    assert (K : Some n = None) by (apply IH; auto). discriminate.
Qed.

Lemma find_pos_total A (p : A -> bool) l x : In x l -> p x = true -> exists i, find_pos p l = Some i.
Proof.
  intros H E; destruct (find_pos p l) eqn:F; [eauto|].
  rewrite find_pos_none in F; rewrite F in E; [discriminate|auto].
Qed.

Lemma find_pos_lt A (p : A -> bool) l i : find_pos p l = Some i -> i < length l.
Proof. intros H; apply find_pos_some in H; destruct H as (x & H & _). apply nth_error_Some; congruence. Qed.

(** ** del_at, set_at, rot *)
Lemma set_at_length A i (x : A) l : length (set_at i x l) = length l.
Proof. revert i; induction l; intros [|i]; simpl; auto. Qed.

Lemma nth_error_set_at_eq A i (x : A) l : i < length l -> nth_error (set_at i x l) i = Some x.
Proof. revert i; induction l; intros [|i]; simpl; intros; try lia; auto. apply IHl; lia. Qed.

Lemma nth_error_set_at_neq A i j (x : A) l : i <> j -> nth_error (set_at i x l) j = nth_error l j.
Proof. revert i j; induction l; intros [|i] [|j]; simpl; intros; auto; try congruence. Qed.

Lemma nth_set_at A i j (x d : A) l :
  nth j (set_at i x l) d = if Nat.eqb i j then (if Nat.ltb i (length l) then x else d) else nth j l d.
Proof.
  revert i j; induction l as [|y t IH]; intros i j.
  - simpl. destruct i, j; simpl; auto; destruct (Nat.eqb _ _); auto.
  - destruct i, j; simpl; auto. rewrite IH; reflexivity.
Qed.

Lemma nth_set_at_eq A i (x d : A) l : i < length l -> nth i (set_at i x l) d = x.
Proof. intros H; rewrite nth_set_at, Nat.eqb_refl. destruct (Nat.ltb_spec i (length l)); auto; lia. Qed.

Lemma nth_set_at_neq A i j (x d : A) l : i <> j -> nth j (set_at i x l) d = nth j l d.
Proof. intros H; rewrite nth_set_at. destruct (Nat.eqb_spec i j); congruence. Qed.

Lemma set_at_out A i (x : A) l : length l <= i -> set_at i x l = l.
Proof. revert i; induction l as [|y t IH]; intros [|i]; simpl; intros; try lia; auto. rewrite IH; auto; lia. Qed.

Lemma In_set_at A i (x y : A) l : In y (set_at i x l) -> y = x \/ In y l.
Proof.
  revert i; induction l as [|z t IH]; intros [|i]; simpl; try tauto.
  - intros [->|H]; auto.
  - intros [->|H]; auto. destruct (IH _ H); auto.
Qed.

Lemma del_at_split A (l1 l2 : list A) x : del_at (length l1) (l1 ++ x :: l2) = l1 ++ l2.
Proof. induction l1; simpl; congruence. Qed.

Lemma del_at_length A i (l : list A) : i < length l -> S (length (del_at i l)) = length l.
Proof. revert i; induction l as [|x t IH]; intros [|i]; simpl; intros; try lia. rewrite IH; lia. Qed.

Lemma del_at_incl A i (l : list A) : incl (del_at i l) l.
Proof.
  revert i; induction l as [|x t IH]; intros [|i] y; simpl; auto.
  intros [->|H]; auto. right; eapply IH; eauto.
Qed.

Lemma Permutation_del_at A i (l : list A) x : nth_error l i = Some x -> Permutation l (x :: del_at i l).
Proof.
  revert i; induction l as [|y t IH]; intros [|i]; simpl; try discriminate; intros E.
  - injection E; intros; subst; auto.
  - rewrite (IH _ E) at 1. apply perm_swap.
Qed.

Lemma Permutation_set_at A i (l : list A) x y :
  nth_error l i = Some x -> Permutation (x :: set_at i y l) (y :: l).
Proof.
  revert i; induction l as [|z t IH]; intros [|i]; simpl; try discriminate; intros E.
  - injection E; intros; subst. apply perm_swap.
  - etransitivity; [apply perm_swap|]. rewrite (IH _ E). apply perm_swap.
Qed.

Lemma Permutation_rot A i (l : list A) : Permutation (rot i l) l.
Proof. unfold rot. rewrite Permutation_app_comm. rewrite firstn_skipn; reflexivity. Qed.

Lemma rot_length A i (l : list A) : length (rot i l) = length l.
Proof. apply Permutation_length, Permutation_rot. Qed.

Lemma In_rot A i (l : list A) x : In x (rot i l) <-> In x l.
Proof. split; apply Permutation_in; [|symmetry]; apply Permutation_rot. Qed.

Lemma map_rot A B (f : A -> B) i l : map f (rot i l) = rot i (map f l).
Proof. unfold rot; rewrite map_app, skipn_map, firstn_map; reflexivity. Qed.

Lemma skipn_nth_error A i (l : list A) x : nth_error l i = Some x -> skipn i l = x :: skipn (S i) l.
Proof. revert i; induction l; intros [|i]; simpl; try discriminate; intros H; [congruence|]. rewrite (IHl _ H); reflexivity. Qed.

Lemma rot_hd A i (l : list A) x : nth_error l i = Some x -> rot i l = x :: skipn (S i) l ++ firstn i l.
Proof. intros H; unfold rot; rewrite (skipn_nth_error _ _ H); reflexivity. Qed.

(** ** enumerate, zrange *)
Lemma combine_seq_nth A (l : list A) i0 i :
  nth_error (combine (seq i0 (length l)) l) i =
  match nth_error l i with Some x => Some (i0 + i, x) | None => None end.
Proof.
  revert i0 i; induction l as [|x t IH]; intros i0 [|i]; simpl; auto.
  - rewrite Nat.add_0_r; auto.
  - rewrite IH. rewrite Nat.add_succ_comm; auto.
Qed.

Lemma enumerate_nth A (l : list A) i :
  nth_error (enumerate l) i = match nth_error l i with Some x => Some (i, x) | None => None end.
Proof. unfold enumerate; rewrite combine_seq_nth; reflexivity. Qed.

Lemma In_enumerate A (l : list A) i x : In (i, x) (enumerate l) <-> nth_error l i = Some x.
Proof.
  split; intros H.
  - apply In_nth_error in H. destruct H as [k Hk]. rewrite enumerate_nth in Hk.
    destruct (nth_error l k) eqn:E; [|discriminate]. injection Hk; intros; subst; auto.
  - apply nth_error_In with (n := i). rewrite enumerate_nth, H; reflexivity.
Qed.

Lemma enumerate_length A (l : list A) : length (enumerate l) = length l.
Proof. unfold enumerate; rewrite combine_length, seq_length; lia. Qed.

Lemma map_snd_combine A B (l : list A) (l' : list B) :
  length l = length l' -> map snd (combine l l') = l'.
Proof. revert l'; induction l; intros [|y t]; simpl; intros H; try discriminate; auto. rewrite IHl; auto. Qed.

Lemma map_fst_combine A B (l : list A) (l' : list B) :
  length l = length l' -> map fst (combine l l') = l.
Proof. revert l'; induction l; intros [|y t]; simpl; intros H; try discriminate; auto. rewrite IHl; auto. Qed.

Lemma map_snd_enumerate A (l : list A) : map snd (enumerate l) = l.
Proof. apply map_snd_combine; rewrite seq_length; auto. Qed.

Lemma map_fst_enumerate A (l : list A) : map fst (enumerate l) = seq 0 (length l).
Proof. apply map_fst_combine; rewrite seq_length; auto. Qed.

Lemma In_zrange a b i : In i (zrange a b) <-> (a <= i < b)%Z.
Proof.
  unfold zrange; rewrite in_map_iff; split.
  - intros [k [<- H]]; apply in_seq in H; lia.
  - intros H; exists (Z.to_nat (i - a)); split; [lia|]. apply in_seq; lia.
Qed.

Lemma zrange_length a b : length (zrange a b) = Z.to_nat (b - a).
Proof. unfold zrange; rewrite map_length, seq_length; auto. Qed.

Lemma zrange_nth a b k : k < Z.to_nat (b - a) -> nth_error (zrange a b) k = Some (a + Z.of_nat k)%Z.
Proof.
  intros H; unfold zrange. rewrite nth_error_map.
  assert (E : nth_error (seq 0 (Z.to_nat (b - a))) k = Some k).
  { rewrite nth_error_nth' with (d := 0) by (rewrite seq_length; auto).
    rewrite seq_nth; auto. }
  rewrite E; reflexivity.
Qed.

(** ** circular iteration *)
Lemma removelast_nth A (l : list A) i : S i < length l -> nth_error (removelast l) i = nth_error l i.
Proof.
  revert i; induction l as [|x t IH]; intros i H; simpl in H; [lia|].
  destruct t as [|y t']; [simpl in H; lia|].
  destruct i; [reflexivity|]. change (removelast (x :: y :: t')) with (x :: removelast (y :: t')).
  simpl nth_error. rewrite IH; [reflexivity|simpl in *; lia].
Qed.

Lemma removelast_length A (l : list A) : length (removelast l) = length l - 1.
Proof.
  induction l as [|x t IH]; [reflexivity|]. destruct t; [reflexivity|].
  change (removelast (x :: a :: t)) with (x :: removelast (a :: t)). simpl in *; lia.
Qed.

Lemma combine_nth A B (l : list A) (l' : list B) i :
  nth_error (combine l l') i =
  match nth_error l i, nth_error l' i with Some a, Some b => Some (a, b) | _, _ => None end.
Proof.
  revert l' i; induction l as [|x t IH]; intros [|y t'] [|i]; simpl; auto.
  destruct (nth_error t i); auto.
Qed.

Lemma last_nth A (l : list A) d : l <> [] -> nth_error l (length l - 1) = Some (last l d).
Proof.
  induction l as [|x t IH]; [congruence|]. intros _. destruct t as [|y t']; [reflexivity|].
  change (last (x :: y :: t') d) with (last (y :: t') d).
  rewrite <- IH by discriminate. simpl. rewrite Nat.sub_0_r; reflexivity.
Qed.

Lemma shifted_nth A (l : list A) d i : l <> [] -> i < length l ->
  nth_error (last l d :: removelast l) i = nth_error l ((i + length l - 1) mod length l).
Proof.
  intros Hne Hi. destruct i as [|i].
  - simpl nth_error at 1. rewrite Nat.add_0_l, Nat.mod_small by lia.
    rewrite last_nth with (d := d); auto.
  - simpl nth_error at 1. rewrite removelast_nth by auto.
    replace (S i + length l - 1) with (i + 1 * length l) by lia.
    rewrite Nat.mod_add by lia. rewrite Nat.mod_small by lia. reflexivity.
Qed.

Lemma circ_prev_next_length A (l : list A) pn : circ_prev_next l = Ok pn -> length pn = length l.
Proof.
  destruct l as [|x t]; [discriminate|]. unfold circ_prev_next.
  intros E; apply Ok_inj in E; subst. rewrite combine_length.
  cbn [length]. rewrite removelast_length. cbn [length]. lia.
Qed.

Lemma circ_prev_next_nth A (l : list A) pn i : circ_prev_next l = Ok pn -> i < length l ->
  exists p n, nth_error l ((i + length l - 1) mod length l) = Some p /\
              nth_error l i = Some n /\ nth_error pn i = Some (p, n).
Proof.
  destruct l as [|x t]; [discriminate|]. unfold circ_prev_next.
  intros E Hi; apply Ok_inj in E; subst.
  rewrite combine_nth. rewrite shifted_nth by (auto; discriminate).
  set (l := x :: t) in *.
  assert (H1 : (i + length l - 1) mod length l < length l) by (apply Nat.mod_upper_bound; simpl; lia).
  destruct (nth_error l ((i + length l - 1) mod length l)) as [p|] eqn:Ep;
    [|apply nth_error_None in Ep; lia].
  destruct (nth_error l i) as [n|] eqn:En; [|apply nth_error_None in En; lia].
  exists p, n; auto.
Qed.

Lemma circ_prev_this_next_length A (l : list A) ptn :
  circ_prev_this_next l = Ok ptn -> length ptn = length l.
Proof.
  destruct l as [|x t]; [discriminate|]. unfold circ_prev_this_next.
  intros E; apply Ok_inj in E; subst. rewrite !combine_length, app_length.
  cbn [length]. rewrite removelast_length. cbn [length]. lia.
Qed.

Lemma circ_prev_this_next_nth A (l : list A) ptn i : circ_prev_this_next l = Ok ptn -> i < length l ->
  exists p c n, nth_error l ((i + length l - 1) mod length l) = Some p /\
                nth_error l i = Some c /\ nth_error l ((i + 1) mod length l) = Some n /\
                nth_error ptn i = Some (p, c, n).
Proof.
  destruct l as [|x t]; [discriminate|]. unfold circ_prev_this_next.
  intros E Hi; apply Ok_inj in E; subst.
  rewrite !combine_nth. rewrite shifted_nth by (auto; discriminate).
  set (l := x :: t) in *.
  assert (H1 : (i + length l - 1) mod length l < length l) by (apply Nat.mod_upper_bound; simpl; lia).
  assert (H2 : (i + 1) mod length l < length l) by (apply Nat.mod_upper_bound; simpl; lia).
  destruct (nth_error l ((i + length l - 1) mod length l)) as [p|] eqn:Ep;
    [|apply nth_error_None in Ep; lia].
  destruct (nth_error l i) as [c|] eqn:Ec; [|apply nth_error_None in Ec; lia].
  destruct (nth_error l ((i+1) mod length l)) as [n|] eqn:En; [|apply nth_error_None in En; lia].
  exists p, c, n. repeat split; auto.
  assert (E : nth_error (t ++ [x]) i = Some n).
  { rewrite <- En. simpl in Hi.
    destruct (Nat.eq_dec i (length t)) as [->|Hne].
    - rewrite nth_error_app2 by auto. rewrite Nat.sub_diag.
      replace ((length t + 1) mod length l) with 0; [reflexivity|].
      replace (length t + 1) with (length l) by (simpl; lia). rewrite Nat.mod_same; simpl; lia.
    - rewrite nth_error_app1 by lia. rewrite Nat.mod_small by (simpl; lia).
      rewrite Nat.add_1_r; reflexivity. }
  rewrite E; reflexivity.
Qed.

Lemma circ_prev_next_total A (l : list A) : l <> [] -> exists pn, circ_prev_next l = Ok pn.
Proof. destruct l; [congruence|]; simpl; eauto. Qed.

(** ** first_best *)
Lemma first_best_in A (better : A -> A -> bool) b l : In (first_best better b l) (b :: l).
Proof.
  revert b; induction l as [|x t IH]; intros b; simpl; auto.
  destruct (better x b); [destruct (IH x) | destruct (IH b)]; simpl in *; auto.
Qed.

(** For a strict weak order [better], no element beats the result. *)
Lemma first_best_best A (better : A -> A -> bool)
  (Htr : forall x y z, better x y = true -> better z y = false -> better x z = true)
  (Has : forall x y, better x y = true -> better y x = false) b l :
  forall y, In y (b :: l) -> better y (first_best better b l) = false.
Proof.
  assert (Hirr : forall x, better x x = false).
  { intros x; destruct (better x x) eqn:E; auto. pose proof (Has _ _ E); congruence. }
  revert b; induction l as [|x t IH]; intros b y; simpl.
  - intros [->|[]]; auto.
  - destruct (better x b) eqn:E.
    + intros [->|[->|Hy]].
      * destruct (better y (first_best better x t)) eqn:F; auto.
        pose proof (IH x x (or_introl eq_refl)) as Hx.
        pose proof (Htr _ _ _ F Hx) as K. apply Has in K; congruence.
      * apply IH; simpl; auto.
      * apply IH; simpl; auto.
    + intros [->|[->|Hy]].
      * apply IH; simpl; auto.
      * destruct (better y (first_best better b t)) eqn:F; auto.
        pose proof (IH b b (or_introl eq_refl)) as Hb.
        pose proof (Htr _ _ _ F Hb) as K. congruence.
      * apply IH; simpl; auto.
Qed.

(** ** list_eqb *)
Lemma list_eqb_eq A (eqb : A -> A -> bool) (H : forall a b, eqb a b = true <-> a = b) l1 l2 :
  list_eqb eqb l1 l2 = true <-> l1 = l2.
Proof.
  revert l2; induction l1 as [|x t IH]; intros [|y t2]; simpl; try (split; congruence).
  rewrite andb_true_iff, H, IH. split; [intros [-> ->]; auto | intros E; injection E; auto].
Qed.

(** ** combinations2 *)
Lemma In_combinations2 A (l : list A) x y :
  In (x, y) (combinations2 l) -> In x l /\ In y l.
Proof.
  induction l as [|z t IH]; simpl; [tauto|].
  rewrite in_app_iff, in_map_iff. intros [[w [E Hw]]|H].
  - injection E; intros; subst; auto.
  - destruct (IH H); auto.
Qed.

Lemma count_b_perm A (p : A -> bool) l l' : Permutation l l' -> count_b p l = count_b p l'.
Proof.
  unfold count_b; induction 1; simpl; auto.
  - destruct (p x); simpl; auto.
  - destruct (p x), (p y); simpl; auto.
  - congruence.
Qed.

Lemma count_b_app A (p : A -> bool) l l' : count_b p (l ++ l') = count_b p l + count_b p l'.
Proof. unfold count_b; rewrite filter_app, app_length; auto. Qed.

Lemma count_b_cons A (p : A -> bool) x l : count_b p (x :: l) = (if p x then 1 else 0) + count_b p l.
Proof. unfold count_b; simpl; destruct (p x); auto. Qed.

(** ** NoDup and append *)
Lemma NoDup_app_iff A (l1 l2 : list A) :
  NoDup (l1 ++ l2) <-> NoDup l1 /\ NoDup l2 /\ (forall x, In x l1 -> ~ In x l2).
Proof.
  induction l1 as [|a t IH]; simpl.
  - split; [intros H; repeat split; auto; constructor | tauto].
  - rewrite !NoDup_cons_iff, IH, in_app_iff. split.
    + intros (H1 & H2 & H3 & H4); repeat split; auto. intros x [->|Hx]; auto.
    + intros ((H1 & H2) & H3 & H4); repeat split; auto. intros [H|H]; [auto|]. apply (H4 a); auto.
Qed.

Lemma nth_error_skipn A i (l : list A) k : nth_error (skipn i l) k = nth_error l (i + k).
Proof.
  revert l; induction i as [|i IH]; intros [|x t]; simpl; auto. destruct k; auto.
Qed.

Lemma nth_error_firstn A i (l : list A) k : k < i -> nth_error (firstn i l) k = nth_error l k.
Proof.
  revert l k; induction i as [|i IH]; intros [|x t] [|k] H; simpl; auto; try lia. apply IH; lia.
Qed.

Lemma nth_error_rot A i (l : list A) k : i <= length l -> k < length l ->
  nth_error (rot i l) k = nth_error l ((i + k) mod length l).
Proof.
  intros Hi Hk. unfold rot. destruct (Nat.lt_ge_cases (i + k) (length l)) as [H|H].
  - rewrite nth_error_app1 by (rewrite skipn_length; lia).
    rewrite nth_error_skipn, Nat.mod_small by lia; auto.
  - rewrite nth_error_app2 by (rewrite skipn_length; lia). rewrite skipn_length.
    rewrite nth_error_firstn by lia. f_equal.
    replace (i + k) with (k - (length l - i) + 1 * length l) by lia.
    rewrite Nat.mod_add by lia. rewrite Nat.mod_small by lia. reflexivity.
Qed.

Lemma nth_error_ext A (l1 l2 : list A) : (forall i, nth_error l1 i = nth_error l2 i) -> l1 = l2.
Proof.
  revert l2; induction l1 as [|x t IH]; intros [|y t2] H; auto.
  - specialize (H 0); discriminate.
  - specialize (H 0); discriminate.
  - pose proof (H 0) as H0; simpl in H0. injection H0; intros; subst. f_equal.
    apply IH. intros i; apply (H (S i)).
Qed.

Lemma Permutation_filter A (p : A -> bool) l1 l2 :
  Permutation l1 l2 -> Permutation (filter p l1) (filter p l2).
Proof.
  induction 1; simpl; auto.
  - destruct (p x); auto.
  - destruct (p x), (p y); auto. apply perm_swap.
  - etransitivity; eauto.
Qed.

Lemma Forall2_filter A B (R : A -> B -> Prop) (p : A -> bool) (q : B -> bool) l1 l2 :
  (forall x y, R x y -> p x = q y) -> Forall2 R l1 l2 -> Forall2 R (filter p l1) (filter q l2).
Proof.
  intros H; induction 1; simpl; auto. rewrite (H x y) by auto. destruct (q y); auto.
Qed.

Lemma Forall2_map A B A' B' (f : A -> A') (g : B -> B') (R : A' -> B' -> Prop) l1 l2 :
  Forall2 (fun x y => R (f x) (g y)) l1 l2 -> Forall2 R (map f l1) (map g l2).
Proof. induction 1; simpl; auto. Qed.

Lemma Forall2_impl_in A B (R R' : A -> B -> Prop) l1 l2 :
  (forall x y, In x l1 -> In y l2 -> R x y -> R' x y) -> Forall2 R l1 l2 -> Forall2 R' l1 l2.
Proof.
  intros H; induction 1; constructor; [apply H; simpl; auto|].
  apply IHForall2. intros; apply H; simpl; auto.
Qed.

Lemma existsb_perm A (p : A -> bool) l1 l2 : Permutation l1 l2 -> existsb p l1 = existsb p l2.
Proof.
  induction 1; simpl; auto.
  - congruence.
  - destruct (p x), (p y); auto.
  - congruence.
Qed.
