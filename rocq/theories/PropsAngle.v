(** * PropsAngle: properties C15 and C16 of pseudoangle and circular_embedding, over the real numbers *)

From Coq Require Import Reals Lra Permutation Sorting.Sorted.
From Verif Require Import Py Arith ArithR ArithF GraphSpec Graph AngleSpec AngleProofs.
Set Implicit Arguments.
Unset Strict Implicit.
Local Open Scope R_scope.

(** ** C15 *)
Theorem C15_pseudoangle_monotone :
  forall (d1 d2 : vec3 RA) t1 t2, polar d1 t1 -> polar d2 t2 ->
  exists a1 a2 : R, pseudoangle d1 = Ok a1 /\ pseudoangle d2 = Ok a2 /\ 0 <= a1 < 4 /\ 0 <= a2 < 4 /\
    (a1 < a2 <-> t1 < t2) /\ (a1 = a2 <-> t1 = t2).
Proof. exact pseudoangle_monotone. Qed.
Print Assumptions C15_pseudoangle_monotone.

(** the hypotheses are met by every non-zero vector *)
Theorem C15_every_vector_has_an_angle :
  forall d : vec3 RA, wx d <> 0 \/ wy d <> 0 -> exists th, polar d th.
Proof. exact polar_exists. Qed.
Print Assumptions C15_every_vector_has_an_angle.

Theorem C15_pseudoangle_raises_only_for_zero :
  forall d : vec3 RA, (exists e, pseudoangle d = Err e) <-> wx d = 0 /\ wy d = 0.
Proof. exact pseudoangle_zero. Qed.
Print Assumptions C15_pseudoangle_raises_only_for_zero.

(** ** C16 *)
Theorem C16_neighbours_sorted :
  forall (g : gdict) (vl : list (vec3 RA)) (ang : Z -> Z -> R),
  (forall v ns, In (v, ns) g -> NoDup (map (ang v) ns) /\ forall w, In w ns -> direction vl v w (ang v w)) ->
  exists emb, circular_embedding g vl true = Ok emb /\
    circular_embedding g vl false = Ok (map (fun vl => (fst vl, rev (snd vl))) emb) /\
    Forall2 (fun a b => fst b = fst a /\ Permutation (snd a) (snd b) /\
                        StronglySorted (fun x y => ang (fst a) y < ang (fst a) x) (snd b)) g emb.
Proof. exact embedding_sorted. Qed.
Print Assumptions C16_neighbours_sorted.

Theorem C16_next_neighbour_is_next_clockwise :
  forall (g : gdict) (vl : list (vec3 RA)) (ang : Z -> Z -> R) emb v l u w x tw tx,
  (forall v ns, In (v, ns) g -> NoDup (map (ang v) ns) /\ forall w, In w ns -> direction vl v w (ang v w)) ->
  circular_embedding g vl true = Ok emb -> In (v, l) emb ->
  rotation_succ l u w -> In x l -> x <> u ->
  clockwise_turn (ang v u) (ang v w) tw -> clockwise_turn (ang v u) (ang v x) tx -> 0 < tw <= tx.
Proof. exact embedding_clockwise. Qed.
Print Assumptions C16_next_neighbour_is_next_clockwise.

(** two neighbours in the same direction: each comes before the other, whichever way they are compared *)
Theorem C16_ties_come_first_both_ways :
  forall (vl : list (vec3 RA)) c a b th, direction vl c a th -> direction vl c b th ->
  compare_angles vl a b c = Ok (-1)%Z /\ compare_angles vl b a c = Ok (-1)%Z.
Proof. exact compare_angles_tie. Qed.
Print Assumptions C16_ties_come_first_both_ways.

(** ** concrete cases *)

(** a vertex at (1,1) with neighbours to the east, north and west *)
Definition star : list (vec3 RA) := [V3 (A := RA) 1 1 0; V3 (A := RA) 5 1 0; V3 (A := RA) 1 3 7; V3 (A := RA) (-1) 1 2].
Definition star_ang (v w : Z) : R := if (w =? 1)%Z then 0 else if (w =? 2)%Z then PI / 2 else PI.

Example ex_star :
  exists emb, circular_embedding [(0, [1; 2; 3])]%Z star true = Ok emb /\
  exists l, emb = [(0%Z, l)] /\ Permutation [1; 2; 3]%Z l /\ StronglySorted (fun x y => star_ang 0 y < star_ang 0 x) l.
Proof.
  pose proof PI_RGT_0 as HP.
  destruct (@C16_neighbours_sorted [(0, [1; 2; 3])]%Z star star_ang) as (emb & E & _ & HF).
  - intros v ns [H|[]]. injection H as <- <-. split.
    + unfold star_ang; simpl. repeat constructor; simpl; intuition lra.
    + intros w Hw. simpl in Hw. unfold star_ang.
      destruct Hw as [<-|[<-|[<-|[]]]]; cbn [Z.eqb Pos.eqb].
      * exists (V3 (A := RA) 1 1 0), (V3 (A := RA) 5 1 0), (V3 (A := RA) 4 0 0). repeat split; cbn [wx wy]; try (simpl; lra).
        exists 4. rewrite cos_0, sin_0. repeat split; simpl; lra.
      * exists (V3 (A := RA) 1 1 0), (V3 (A := RA) 1 3 7), (V3 (A := RA) 0 2 0). repeat split; cbn [wx wy]; try (simpl; lra).
        exists 2. rewrite cos_PI2, sin_PI2. repeat split; simpl; lra.
      * exists (V3 (A := RA) 1 1 0), (V3 (A := RA) (-1) 1 2), (V3 (A := RA) (-2) 0 0). repeat split; cbn [wx wy]; try (simpl; lra).
        exists 2. rewrite cos_PI, sin_PI. repeat split; simpl; lra.
  - exists emb. split; auto. inversion HF as [|? [v l] ? ? (E1 & E2 & E3) H]; subst. inversion H; subst.
    cbn [fst snd] in *. subst v. exists l. auto.
Qed.

(** the same in IEEE arithmetic *)
Example ex_star_ieee :
  let n := fun k : Z => lit (a := F64) k 1%positive in let P := fun x y z => @mkvec3 F64 (n x) (n y) (n z) in
  match circular_embedding [(0, [1; 2; 3])]%Z [P 1 1 0; P 5 1 0; P 1 3 7; P (-1) 1 2]%Z true with
  | Ok emb => emb | Err _ => [] end = [(0, [3; 2; 1])]%Z.
Proof. vm_compute. reflexivity. Qed.
