(** * OrderCases: footprints whose faces do and do not depend on the order of Python's sets *)

From Coq Require Import ZArith List Lia Permutation Bool.
From Verif Require Import Py PyFacts Arith ArithF Euclid Lav Cluster Graph GraphSpec GraphProofs Poly PolySpec PolyProofs FootSpec FootCases BorderSpec BorderProofs BorderCases SpikeEnd OrderSpec OrderProofs TestCases.
Set Implicit Arguments.
Unset Strict Implicit.
Local Open Scope nat_scope.

(** ** deciding the conditions *)
Definition plainb {A : arith} (V : list (vec3 A)) (F : list (list Z)) : bool :=
  forallb (fun f => nodupb f && match circ_prev_this_next f with
    | Ok ptn => forallb (fun x => match is_spike V x with Ok b => negb b | Err _ => false end) ptn | Err _ => false end) F.

Lemma plainb_ok (A : arith) (V : list (vec3 A)) F : plainb V F = true -> plain_faces V F.
Proof.
  unfold plainb. rewrite forallb_forall. intros H f Hf. specialize (H f Hf). apply andb_prop in H as [H1 H2]. split; [apply nodupb_spec; auto|].
  intros p t n C S. destruct (circ_prev_this_next f) as [ptn|] eqn:E; [|discriminate]. rewrite forallb_forall in H2.
  specialize (H2 _ (consecutive_corner C E)). apply spiky_is_spike in S. rewrite S in H2. discriminate.
Qed.

Section Run.
Variables (sw : Z -> Z -> bool) (sch : schedule) (den : positive) (ps : list (Z * Z)).

Definition verts_of : list (vec3 F64) := map (corner3 den) ps.
Definition cnt_of : Z := Z.of_nat (length ps).

(** the conditions of the theorem for one footprint *)
Definition plain_footprint : Prop := exists z ctr cs sk,
  prepare verts_of 0 cnt_of None None = Ok (z, ctr, cs) /\ skeletonize 300 cs = Ok sk /\
  no_parallel_edges (lines_of_roof 0 cnt_of [] (skeleton_graph_edges (concat cs) sk (Z.of_nat (length verts_of)))) /\
  forall g emb F, build_graph sw 0 cnt_of [] (concat cs) sk (Z.of_nat (length verts_of)) = Ok g ->
    circular_embedding g (o_verts (ordered sw sch den ps)) true = Ok emb -> graph_faces sch g emb (Z.of_nat (length verts_of)) = Ok F ->
    plain_faces (o_verts (ordered sw sch den ps)) F.

Definition plain_footprintb (o : @outcome F64) : bool :=
  match prepare verts_of 0 cnt_of None None with
  | Ok (z, ctr, cs) => match skeletonize 300 cs with
    | Ok sk => GraphProofs.simpleb (lines_of_roof 0 cnt_of [] (skeleton_graph_edges (concat cs) sk (Z.of_nat (length verts_of)))) &&
      match build_graph sw 0 cnt_of [] (concat cs) sk (Z.of_nat (length verts_of)) with
      | Ok g => match circular_embedding g (o_verts o) true with
        | Ok emb => match graph_faces sch g emb (Z.of_nat (length verts_of)) with Ok F => plainb (o_verts o) F | Err _ => false end
        | Err _ => false end
      | Err _ => false end
    | Err _ => false end
  | Err _ => false end.

Lemma plain_footprintb_ok : plain_footprintb (ordered sw sch den ps) = true -> plain_footprint.
Proof.
  unfold plain_footprint, plain_footprintb. generalize (ordered sw sch den ps). intros o H.
  destruct (prepare verts_of 0 cnt_of None None) as [[[z ctr] cs]|]; [|discriminate]. exists z, ctr, cs.
  destruct (skeletonize 300 cs) as [sk|]; [|discriminate]. exists sk. split; auto. split; auto. apply andb_prop in H as [H1 H2].
  split; [apply simpleb_ok; auto|]. intros g emb F Hg He HF. rewrite Hg, He, HF in H2. apply plainb_ok; auto.
Qed.
End Run.

(** ** two runs with different faces *)
Definition corner_count (r : res (list (list Z))) : option nat := match r with Ok fs => Some (length (concat fs)) | Err _ => None end.

Lemma differ r r' fs fs' a b : corner_count r = Some a -> corner_count r' = Some b -> a <> b -> r = Ok fs -> r' = Ok fs' -> ~ same_faces fs fs'.
Proof.
  intros H1 H2 N -> -> S. cbn [corner_count] in *. injection H1 as H1. injection H2 as H2. apply same_concat in S. apply Permutation_length in S. lia.
Qed.

Lemma some_faces r a : corner_count r = Some a -> exists fs, r = Ok fs.
Proof. destruct r; [eauto|discriminate]. Qed.

(** the footprint of debug/repeated_indices/test_733383913_joho.py, rounded to 1/256 *)
Definition joho : list (Z * Z) := [(0, 0); (54, 0); (54, -26); (170, -26); (170, 0); (209, 0); (209, 11); (220, 11); (209, 162); (3, 145)]%Z.
Definition unswapped : Z -> Z -> bool := fun _ _ => false.
Definition swapped : Z -> Z -> bool := fun _ _ => true.
Definition from_first : schedule := fun _ _ => O.
Definition from_last : schedule := fun _ s => length s - 1.

Lemma joho_simple : simple_foot joho.
Proof. apply simpleb_spec. vm_compute. reflexivity. Qed.

Lemma joho_first : corner_count (o_result (ordered unswapped from_first 256 joho)) = Some 40.
Proof. vm_compute. reflexivity. Qed.

Lemma joho_last : corner_count (o_result (ordered unswapped from_last 256 joho)) = Some 41.
Proof. vm_compute. reflexivity. Qed.

Lemma order_refuted : exists den ps sw sch sw' sch' fs fs', simple_foot ps /\ o_result (ordered sw sch den ps) = Ok fs /\
  o_result (ordered sw' sch' den ps) = Ok fs' /\ ~ same_faces fs fs'.
Proof.
  destruct (some_faces joho_first) as (fs & H1). destruct (some_faces joho_last) as (fs' & H2).
  exists 256%positive, joho, unswapped, from_first, unswapped, from_last, fs, fs'.
  exact (conj joho_simple (conj H1 (conj H2 (differ joho_first joho_last (n_Sn 40) H1 H2)))).
Qed.

Definition ok_faces (r : res (list (list Z))) : list (list Z) := match r with Ok fs => fs | Err _ => [] end.

Lemma joho_faces : ok_faces (o_result (ordered unswapped from_first 256 joho)) = [[9; 0; 14]; [8; 9; 14; 16; 12; 13]; [0; 1; 17; 16; 14];
    [1; 2; 10; 11; 5; 6; 12; 16; 11; 4; 5; 15]; [2; 3; 10]; [3; 4; 11; 10]; [6; 7; 13; 12]; [7; 8; 13]]%Z /\
  ok_faces (o_result (ordered unswapped from_last 256 joho)) = [[0; 1; 17; 16; 14]; [4; 5; 1; 2; 10; 11; 5; 6; 12; 16; 17; 15; 11]; [8; 9; 14; 16; 12; 13];
    [6; 7; 13; 12]; [3; 4; 11; 10]; [7; 8; 13]; [2; 3; 10]; [9; 0; 14]]%Z.
Proof. split; vm_compute; reflexivity. Qed.

(** ** an L-shaped footprint *)
Definition ell : list (Z * Z) := [(0, 0); (12, 0); (12, 5); (5, 5); (5, 9); (0, 9)]%Z.

Lemma ell_plain : plain_footprint unswapped from_first 1 ell.
Proof. apply plain_footprintb_ok. vm_compute. reflexivity. Qed.

Lemma ell_faces : ok_faces (o_result (ordered unswapped from_first 1 ell)) = [[5; 0; 8; 7]; [4; 5; 7]; [0; 1; 6; 8]; [1; 2; 6]; [2; 3; 8; 6]; [3; 4; 7; 8]]%Z /\
  ok_faces (o_result (ordered swapped from_last 1 ell)) = [[5; 0; 8; 7]; [3; 4; 7; 8]; [2; 3; 8; 6]; [0; 1; 6; 8]; [4; 5; 7]; [1; 2; 6]]%Z.
Proof. split; vm_compute; reflexivity. Qed.
