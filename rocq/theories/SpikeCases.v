(** * SpikeCases: a footprint with a sharp corner; the edges of a footprint with a hole *)

From Coq Require Import ZArith List Lia Bool.
From Verif Require Import Py PyFacts Arith ArithF Euclid Lav Cluster Graph GraphSpec GraphProofs Poly PolyProofs PropsPoly FootSpec FootCases BorderSpec BorderProofs BorderCases EdgeIds SpikeEnd.
Import ListNotations.
Set Implicit Arguments.
Unset Strict Implicit.
Local Open Scope Z_scope.

(** a face turns back at the sharp corner 0 *)
Definition wedge : list (Z * Z) := [(0, 0); (40, 0); (40, 4); (38, 4)].
Definition wedge_faces : list (list Z) := [[3; 0; 5; 4]; [2; 3; 4]; [0; 1; 5]; [1; 2; 4; 5]].

Lemma wedge_stages : stages 1 wedge = Ok (wedge_faces, wedge_faces).
Proof. vm_compute. reflexivity. Qed.

Lemma wedge_spike : is_spike (o_verts (roof_of 1 wedge)) (3, 0, 5) = Ok true.
Proof. vm_compute. reflexivity. Qed.

Lemma wedge_removed : remove_spikes (o_verts (roof_of 1 wedge)) 4 wedge_faces = Ok wedge_faces.
Proof. exact (proj1 (stages_roof wedge_stages)). Qed.

Lemma wedge_spiky : consecutive [3; 0; 5; 4] 3 0 5 /\ spiky (o_verts (roof_of 1 wedge)) 3 0 5.
Proof. split; [exists [4]; apply rotation_of_refl|exact (is_spike_spiky wedge_spike)]. Qed.

(** all edges that occur more often in one direction than in the other *)
Definition gaps (F : list (list Z)) : list (Z * Z) :=
  filter (fun d => negb (border F (fst d) (snd d) =? 0)) (darts F ++ map (fun d => (snd d, fst d)) (darts F)).

Lemma gaps_spec nr F : forallb (fun d => (fst d <? nr) && (snd d <? nr)) (gaps F) = true ->
  forall a b, nr <= a \/ nr <= b -> border F a b = 0.
Proof.
  intros H a b Hab. destruct (Z.eqb_spec (border F a b) 0) as [E|E]; auto. exfalso.
  assert (K : In (a, b) (gaps F)).
  { apply filter_In. split; [|apply negb_true_iff, Z.eqb_neq; auto]. apply in_app_iff.
    destruct (in_dec dart_dec (a, b) (darts F)) as [D|D]; auto. right. apply in_map_iff. exists (b, a). split; auto.
    destruct (in_dec dart_dec (b, a) (darts F)) as [D'|D']; auto. exfalso. apply E. unfold border.
    apply (count_occ_not_In dart_dec) in D, D'. rewrite D, D'. auto. }
  rewrite forallb_forall in H. specialize (H _ K). apply andb_prop in H as [H1 H2]. apply Z.ltb_lt in H1, H2. cbn [fst snd] in *. lia.
Qed.

Lemma wedge_no_gap : forall a b, 4 <= a \/ 4 <= b -> border wedge_faces a b = 0.
Proof. apply gaps_spec. vm_compute. reflexivity. Qed.

Lemma spike10_no_gap : forall a b, 10 <= a \/ 10 <= b -> border spike10_merged a b = 0.
Proof. apply gaps_spec. vm_compute. reflexivity. Qed.

(** nothing is left in the roof of spike10; the list of vertices is an argument, so that it is computed once *)
Definition spike_free (vs : list (vec3 F64)) (F : list (list Z)) : bool :=
  forallb (fun f => forallb (fun c => match is_spike vs c with Ok b => negb b | Err _ => true end) (corners_of f))
    (filter (fun f => Nat.ltb 3 (length f)) F).

Lemma spike10_free : spike_free (o_verts (roof_of 1 spike10)) spike10_merged = true.
Proof. vm_compute. reflexivity. Qed.

Lemma spike10_clean : forall f, In f spike10_merged -> (3 < length f)%nat ->
  forall p t n, consecutive f p t n -> ~ spiky (o_verts (roof_of 1 spike10)) p t n.
Proof.
  pose proof spike10_free as K. revert K. generalize (o_verts (roof_of 1 spike10)). intros vs K f Hf H3 p t n Hc Hs. unfold spike_free in K.
  rewrite forallb_forall in K. specialize (K f ltac:(apply filter_In; split; auto; apply Nat.ltb_lt; auto)). rewrite forallb_forall in K.
  specialize (K _ (corners_of_spec Hc)). cbn beta in K. rewrite (spiky_is_spike Hs) in K. discriminate.
Qed.

(** the merged face of spike10: rings are opened at 11 and 10, the joint ring starts at the vertex 9 *)
Lemma spike10_merge : merge_faces 10 [9; 0; 15; 10; 11] [5; 6; 10; 15; 16; 17; 14] 11 10 = Ok [9; 0; 15; 10; 15; 16; 17; 14; 5; 6; 11].
Proof. reflexivity. Qed.

(** the test of the position: here the only vertices of the footprint come too late *)
Lemma late_merge : merge_faces 3 [4; 5; 6; 7] [5; 4; 8; 2; 0] 4 5 = Err StopIteration.
Proof. reflexivity. Qed.

Definition holed_ids : list nat :=
  match prepare holed 0 4 (Some [(4, 4)%Z]) None with Ok (_, _, cs) => map (@eid F64) (concat cs) | Err _ => [] end.

Lemma holed_ids_eq : holed_ids = [0; 1; 2; 3; 4; 5; 6; 7]%nat.
Proof. vm_compute. reflexivity. Qed.
