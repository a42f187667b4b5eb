(** * WholeCases: the trapezoid meets the hypotheses of C49 *)

From Coq Require Import Reals Lra ZArith.
From Verif Require Import Py Arith ArithR ArithF RSpec Euclid Lav Cluster Poly ClusterSpec GeoSpec BisSpec BisProofs TriSpec ConvexSpec ConvexCases ConvexRoofCases RoofSpec FootSpec FootCases.
Set Implicit Arguments.
Unset Strict Implicit.
Local Open Scope R_scope.

(** the walls are nearest to each other over the points (4,2) and (6,2), at distance 2 *)
Lemma trap_points q h : roof_point trap q h -> h = 2 /\ (q = rvec 4 2 \/ q = rvec 6 2).
Proof.
  intros [(e1 & e2 & e3 & H1 & H2 & H3 & N1 & N2 & N3 & D1 & D2 & Eh) Hall].
  destruct trap_convex as ((_ & Hd & _) & _).
  assert (HA : forall e, In e trap -> h <= ndist e q) by (intros e He; rewrite <- edge_dist_n by auto; auto).
  rewrite !edge_dist_n in * by auto. pose proof (HA e1 H1) as L1. rewrite Rabs_right in Eh by (pose proof (Rabs_pos (ndist e1 q)); rewrite <- Eh in *; lra).
  clear Hd Hall L1.
  pose proof (HA _ (or_introl eq_refl)) as A0. pose proof (HA _ (or_intror (or_introl eq_refl))) as A1.
  pose proof (HA _ (or_intror (or_intror (or_introl eq_refl)))) as A2. pose proof (HA _ (or_intror (or_intror (or_intror (or_introl eq_refl))))) as A3. clear HA.
  destruct q as [x y]. cbn [trap In] in *. subst h.
  assert (G : (x = 4 /\ y = 2 \/ x = 6 /\ y = 2) /\ ndist e1 (V2 (A := RA) x y) = 2).
  { destruct H1 as [<-|[<-|[<-|[<-|[]]]]]; destruct H2 as [<-|[<-|[<-|[<-|[]]]]]; try congruence;
    destruct H3 as [<-|[<-|[<-|[<-|[]]]]]; try congruence; clear N1 N2 N3; unfold ndist in *; cbn [ep1 enorm rvec vx vy] in *; change (num RA) with R in *;
    first [exfalso; lra | split; [left; lra|lra] | split; [right; lra|lra]]. }
  destruct G as [G1 G2]. split; auto. destruct G1 as [[-> ->]|[-> ->]]; auto.
Qed.

Lemma trap_simple : simple_roof trap.
Proof.
  intros x h e1 e2 e3 e4 Hx H1 H2 H3 H4 Hn (D1 & D2 & D3 & D4). destruct (trap_points Hx) as [-> Hq].
  destruct trap_convex as ((_ & Hd & _) & _). rewrite edge_dist_n in * by auto. clear Hd Hx.
  assert (S : forall P : @edge2 RA -> Prop, (forall e, In e [e1; e2; e3; e4] -> P e) -> forall e, In e trap -> P e).
  { intros P HP. assert (I : incl [e1; e2; e3; e4] trap) by (intros e [<-|[<-|[<-|[<-|[]]]]]; auto).
    intros e He. apply HP. apply (@NoDup_length_incl _ [e1; e2; e3; e4] trap Hn); auto. }
  assert (K : forall e, In e trap -> ndist e x = 2).
  { apply S. intros e [<-|[<-|[<-|[<-|[]]]]]; auto. }
  pose proof (K _ (or_intror (or_introl eq_refl))) as A1. pose proof (K _ (or_intror (or_intror (or_intror (or_introl eq_refl))))) as A3.
  unfold ndist in *. cbn [ep1 enorm rvec vx vy] in *. destruct Hq as [-> | ->]; cbn [rvec vx vy] in *; change (num RA) with R in *; lra.
Qed.

Lemma trap_apart : RoofSpec.apart trap.
Proof.
  intros x h y k Hx Hy. destruct (trap_points Hx) as [_ [-> | ->]]; destruct (trap_points Hy) as [_ [-> | ->]]; auto; right; cbn [rvec vx vy];
    unfold Rabs; destruct (Rcase_abs _); destruct (Rcase_abs _); change (num RA) with R in *; lra.
Qed.

Lemma below_roots x p q : 0 <= p -> 0 <= q -> x <= 0 \/ x * x <= (99 / 100) * (99 / 100) * (p * q) -> x <= (1 - 1 / 100) * (sqrt p * sqrt q).
Proof.
  intros Hp Hq H. pose proof (sqrt_pos p) as S1. pose proof (sqrt_pos q) as S2. pose proof (sqrt_sqrt p Hp) as E1. pose proof (sqrt_sqrt q Hq) as E2.
  set (a := sqrt p) in *. set (b := sqrt q) in *. assert (M : 0 <= a * b) by (apply Rmult_le_pos; auto).
  destruct (Rle_dec x 0) as [K|K]; [lra|]. destruct H as [H|H]; [lra|].
  apply Rsqr_incr_0; [|lra|lra]. unfold Rsqr. replace ((1 - 1 / 100) * (a * b) * ((1 - 1 / 100) * (a * b))) with (99 / 100 * (99 / 100) * ((a * a) * (b * b))) by field.
  rewrite E1, E2. auto.
Qed.

Lemma trap_blunt : blunt trap.
Proof.
  intros e1 e2 e3 H1 H2 H3 Hn. cbn [trap In] in *.
  destruct H1 as [<-|[<-|[<-|[<-|[]]]]]; destruct H2 as [<-|[<-|[<-|[<-|[]]]]];
    (try (exfalso; apply NoDup_cons_iff in Hn as [Hn _]; apply Hn; simpl; tauto));
    destruct H3 as [<-|[<-|[<-|[<-|[]]]]];
    (try (exfalso; apply NoDup_cons_iff in Hn as [Hn _]; apply Hn; simpl; tauto));
    (try (exfalso; apply NoDup_cons_iff in Hn as [_ Hn]; apply NoDup_cons_iff in Hn as [Hn _]; apply Hn; simpl; tauto));
    clear Hn; cbn [enorm rvec vx vy]; cbv zeta; change (num RA) with R in *; apply below_roots; first [lra | left; lra | right; lra].
Qed.

Lemma trap_nearest : forall e f, nth_error trap 0 = Some e -> nth_error trap 2 = Some f ->
  nearest_wall trap e (rvec 5 1) /\ ~ nearest_wall trap f (rvec 5 1) /\
  nearest_wall trap e (rvec 5 2) /\ nearest_wall trap f (rvec 5 2) /\ ~ nearest_wall trap e (rvec 5 (-1)).
Proof.
  intros e f He Hf. destruct trap_convex as ((_ & Hd & _) & _). unfold nearest_wall.
  assert (G : forall q, nearest_wall trap e q <-> 0 <= ndist e q /\ forall e', In e' trap -> ndist e q <= ndist e' q).
  { intros q. unfold nearest_wall. rewrite edge_dist_n by (apply Hd; eapply nth_error_In; eauto). split; intros [H1 H2]; split; auto; intros e' K; specialize (H2 e' K); rewrite edge_dist_n in *; auto. }
  assert (G' : forall q, nearest_wall trap f q <-> 0 <= ndist f q /\ forall e', In e' trap -> ndist f q <= ndist e' q).
  { intros q. unfold nearest_wall. rewrite edge_dist_n by (apply Hd; eapply nth_error_In; eauto). split; intros [H1 H2]; split; auto; intros e' K; specialize (H2 e' K); rewrite edge_dist_n in *; auto. }
  fold (nearest_wall trap e (rvec 5 1)). fold (nearest_wall trap f (rvec 5 1)). fold (nearest_wall trap e (rvec 5 2)). fold (nearest_wall trap f (rvec 5 2)). fold (nearest_wall trap e (rvec 5 (-1))).
  rewrite !G, !G'. clear G G' Hd. simpl in He, Hf. injection He as <-. injection Hf as <-.
  assert (I0 : In (nth 0 trap (Edge (A := RA) 0 (rvec 0 0) (rvec 0 0) (rvec 0 0) 0 0)) trap) by (simpl; auto).
  split; [|split; [|split; [|split]]].
  - split; [|intros e' [<-|[<-|[<-|[<-|[]]]]]]; unfold ndist; cbn [ep1 enorm rvec vx vy]; change (num RA) with R in *; lra.
  - intros [_ K]. specialize (K _ I0). unfold ndist in K. cbn [trap nth ep1 enorm rvec vx vy] in K. change (num RA) with R in *; lra.
  - split; [|intros e' [<-|[<-|[<-|[<-|[]]]]]]; unfold ndist; cbn [ep1 enorm rvec vx vy]; change (num RA) with R in *; lra.
  - split; [|intros e' [<-|[<-|[<-|[<-|[]]]]]]; unfold ndist; cbn [ep1 enorm rvec vx vy]; change (num RA) with R in *; lra.
  - intros [K _]. unfold ndist in K. cbn [ep1 enorm rvec vx vy] in K. change (num RA) with R in *; lra.
Qed.

(** the trapezoid is the footprint at index 1 *)
Definition trap_verts : list (vec3 RA) :=
  [V3 (A := RA) 100 100 0; V3 (A := RA) 0 0 3; V3 (A := RA) 10 0 3; V3 (A := RA) 7 4 3; V3 (A := RA) 3 4 3].

Lemma trap_foot : footprint trap_verts 1 trap.
Proof.
  assert (T : / 10 ^ 35 < 1) by (rewrite <- Rinv_1; apply Rinv_lt_contravar; [|apply Rlt_pow_R1; [lra|lia]]; rewrite Rmult_1_l; apply pow_lt; lra).
  intros i e Hi. destruct i as [|[|[|[|i]]]]; simpl in Hi; [| | | |destruct i; discriminate]; injection Hi as <-;
    (split; [unfold long_enough; cbn [ep1 ep2 rvec vx vy]; change (num RA) with R in *; lra|eexists; split; [reflexivity|reflexivity]]).
Qed.

(** the roof of the same footprint in binary64 *)
Definition trap_ints : list (Z * Z) := [(0, 0); (10, 0); (7, 4); (3, 4)]%Z.
Lemma trap_faces : faces_of 1 trap_ints = [[3; 0; 4]; [2; 3; 4; 5]; [0; 1; 5; 4]; [1; 2; 5]]%Z.
Proof. vm_compute. reflexivity. Qed.
