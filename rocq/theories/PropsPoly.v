(** * PropsPoly: theorems about polygonize that hold for every arithmetic
    (properties C01, C02, C07, C09, C10, C11, C41) *)

From Verif Require Import Py Arith Euclid Graph Lav Cluster Poly PolySpec PolyProofs PolyFaces ArithF.
Set Implicit Arguments.

(** ** C01 *)
(** At every exit verts is the old list followed by new nodes.  Either there are none (an
    exception was raised) or there is exactly one per skeleton node, in order, at the node's
    position moved back by the center. *)
Theorem C01_verts_only_extended :
  forall (A : arith) fuel sw sch dbg (verts : list (vec3 A)) first cnt holes hgt tan faces us,
  let o := polygonize fuel sw sch dbg verts first cnt holes hgt tan faces us in
  exists nodes, o_verts o = verts ++ nodes /\
    ((nodes = [] /\ exists e, o_result o = Err e) \/
     exists zBase center contours sk ta,
       prepare verts first cnt holes us = Ok (zBase, center, contours) /\ skeletonize fuel contours = Ok sk /\
       slope sk hgt tan = Ok ta /\ length nodes = length sk /\
       forall i a, nth_error sk i = Some a ->
         nth_error nodes i = Some (w_add (mkvec3 (vx (source a)) (vy (source a))
                                                 (nadd (nmul (height a) ta) zBase)) center)).
Proof. exact (@polygonize_appends). Qed.
Print Assumptions C01_verts_only_extended.

(** ** C02 *)
Theorem C02_faces_only_extended_on_success :
  forall (A : arith) fuel sw sch dbg (verts : list (vec3 A)) first cnt holes hgt tan us old,
  let o0 := polygonize fuel sw sch dbg verts first cnt holes hgt tan None us in
  let o := polygonize fuel sw sch dbg verts first cnt holes hgt tan (Some old) us in
  o_verts o = o_verts o0 /\ o_debug o = o_debug o0 /\ o_faces o0 = None /\
  match o_result o0 with
  | Ok fs => o_result o = Ok (old ++ fs) /\ o_faces o = Some (old ++ fs)
  | Err e => o_result o = Err e /\ o_faces o = Some old
  end.
Proof. exact (@polygonize_faces). Qed.
Print Assumptions C02_faces_only_extended_on_success.

(** ** C07 *)
Theorem C07_unrelated_vertices_do_not_matter :
  forall (A : arith) fuel sw sch dbg (v1 v2 : list (vec3 A)) first cnt holes hgt tan faces us,
  let hs := match holes with Some h => h | None => [] end in
  (0 <= first)%Z -> (1 <= cnt)%Z -> (forall h, In h hs -> 0 <= fst h /\ 1 <= snd h)%Z ->
  length v1 = length v2 ->
  (forall i, in_blocks first cnt hs i -> nth_error v1 (Z.to_nat i) = nth_error v2 (Z.to_nat i)) ->
  let o1 := polygonize fuel sw sch dbg v1 first cnt holes hgt tan faces us in
  let o2 := polygonize fuel sw sch dbg v2 first cnt holes hgt tan faces us in
  o_result o1 = o_result o2 /\ o_faces o1 = o_faces o2 /\ o_debug o1 = o_debug o2 /\
  exists nodes, o_verts o1 = v1 ++ nodes /\ o_verts o2 = v2 ++ nodes.
Proof. exact (@polygonize_unrelated). Qed.
Print Assumptions C07_unrelated_vertices_do_not_matter.

(** ** C09 *)
Theorem C09_contours_are_the_blocks :
  forall (A : arith) (verts : list (vec3 A)) first cnt holes us zBase center contours,
  (1 <= cnt)%Z -> (forall h, In h (match holes with Some h => h | None => [] end) -> (1 <= snd h)%Z) ->
  prepare verts first cnt holes us = Ok (zBase, center, contours) ->
  Forall2 (fun b es => ring_of verts center (fst b) (snd b) es)
          ((first, cnt) :: match holes with Some h => h | None => [] end) contours.
Proof. exact (@prepare_rings). Qed.
Print Assumptions C09_contours_are_the_blocks.

(** ** C10 *)
(** The loop ends (the fuel of the model is enough, and more fuel changes nothing), after at
    most as many removals as the faces have entries. *)
Theorem C10_spike_removal_terminates :
  forall (A : arith) (verts : list (vec3 A)) firstSkel faces,
  remove_spikes verts firstSkel faces <> Err OutOfFuel /\
  (forall fuel, total_length faces < fuel ->
     spike_loop fuel verts firstSkel faces = remove_spikes verts firstSkel faces) /\
  (forall fs, remove_spikes verts firstSkel faces = Ok fs ->
     exists steps, spike_run verts firstSkel faces steps /\ fs = last steps faces /\
       length steps + length (concat fs) <= length (concat faces)).
Proof.
  exact (fun A verts firstSkel faces =>
    conj (@spike_loop_fuel A verts firstSkel _ faces (le_n _))
   (conj (fun fuel Hf => @spike_loop_mono A verts firstSkel _ fuel faces Hf
                           (@spike_loop_fuel A verts firstSkel _ faces (le_n _)))
         (fun fs H => @spike_loop_steps A verts firstSkel _ faces fs H))).
Qed.
Print Assumptions C10_spike_removal_terminates.

(** ** C11 *)
(** A cleaned face is the face with entries deleted; if it has two different entries that
    are not removable (footprint vertices, or nodes in three or more corners), then all its
    non-removable vertices are still there, and a face without repetitions keeps its footprint
    vertices in order and is untouched if it is a triangle. *)
Theorem C11_cleanup_keeps_footprint :
  forall (A : arith) (verts : list (vec3 A)) firstSkel faces fs,
  clean_faces verts firstSkel faces = Ok fs ->
  let removable v := (firstSkel <= v)%Z /\ corners faces v < 3 in
  Forall2 (fun f f' =>
    subsequence f' f /\
    (forall a b, In a f -> In b f -> a <> b -> ~ removable a -> ~ removable b ->
       (forall v, In v f -> ~ removable v -> In v f') /\
       (NoDup f -> footprint_part firstSkel f' = footprint_part firstSkel f /\
                   (length f <= 3 -> f' = f)))) faces fs.
Proof. exact (@clean_faces_spec). Qed.
Print Assumptions C11_cleanup_keeps_footprint.

(** The parallel-edge step alone: multiplicities included, no condition on the face. *)
Theorem C11_parallel_step :
  forall (A : arith) (verts : list (vec3 A)) firstSkel faces f f',
  fix_parallel verts (fun v => count_b (Z.eqb v) (concat faces)) firstSkel f = Ok f' ->
  subsequence f' f /\
  footprint_part firstSkel f' = footprint_part firstSkel f /\
  (forall v, ~ ((firstSkel <= v)%Z /\ corners faces v < 3) ->
     count_occ Z.eq_dec f' v = count_occ Z.eq_dec f v) /\
  (length f <= 3 -> f' = f).
Proof. exact (@fix_parallel_spec). Qed.
Print Assumptions C11_parallel_step.

(** The removals never fail: a ValueError needs a face made of removable nodes only. *)
Theorem C11_cleanup_exceptions :
  forall (A : arith) (verts : list (vec3 A)) firstSkel faces e,
  clean_faces verts firstSkel faces = Err e ->
  (e = IndexError \/ e = ZeroDivisionError) \/
  (e = ValueError /\ exists f, In f faces /\
     forall v, In v f -> (firstSkel <= v)%Z /\ corners faces v < 3).
Proof. exact (@clean_faces_err). Qed.
Print Assumptions C11_cleanup_exceptions.

(** ** C41 *)
Theorem C41_circular_pairs :
  forall (T : Type) (l : list T),
  (l = [] -> circ_prev_next l = Err ValueError) /\
  (l <> [] -> exists pn, circ_prev_next l = Ok pn /\ length pn = length l /\
     forall i, i < length l -> exists p n, nth_error l ((i + length l - 1) mod length l) = Some p /\
       nth_error l i = Some n /\ nth_error pn i = Some (p, n)).
Proof. exact (@circ_prev_next_spec). Qed.
Print Assumptions C41_circular_pairs.

Theorem C41_circular_triples :
  forall (T : Type) (l : list T),
  (l = [] -> circ_prev_this_next l = Err ValueError) /\
  (l <> [] -> exists ptn, circ_prev_this_next l = Ok ptn /\ length ptn = length l /\
     forall i, i < length l -> exists p c n, nth_error l ((i + length l - 1) mod length l) = Some p /\
       nth_error l i = Some c /\ nth_error l ((i + 1) mod length l) = Some n /\ nth_error ptn i = Some (p, c, n)).
Proof. exact (@circ_prev_this_next_spec). Qed.
Print Assumptions C41_circular_triples.

(** ** concrete cases (IEEE arithmetic) *)
Definition q (z : Z) : num F64 := lit (a := F64) z 1.
Definition P (x y : Z) : vec3 F64 := V3 (q x) (q y) (q 0).
Definition pg verts first cnt holes hgt faces :=
  polygonize (A := F64) 50 (fun _ _ => false) (fun _ _ => 0) true verts first cnt holes hgt (q 1) faces None.

(** an L-shaped footprint behind an unrelated vertex, appended to an existing face list *)
Definition lshape (x y : Z) : list (vec3 F64) :=
  [P x y; P 0 0; P 20 0; P 20 8; P 8 8; P 8 20; P 0 20].
Example ex_lshape :
  o_result (pg (lshape 77 5) 1 6 None (q 3) (Some [[4; 2; 0]%Z])) =
  Ok [[4; 2; 0]; [6; 1; 9; 8]; [5; 6; 8]; [1; 2; 7; 9]; [2; 3; 7]; [3; 4; 9; 7]; [4; 5; 8; 9]]%Z /\
  length (o_verts (pg (lshape 77 5) 1 6 None (q 3) (Some [[4; 2; 0]%Z]))) = 10.
Proof. vm_compute. auto. Qed.
(** and an exceptional exit: a hole index outside verts *)
Example ex_raises :
  o_result (pg (lshape 77 5) 1 6 (Some [(90, 4)%Z]) (q 3) (Some [[4; 2; 0]%Z])) = Err IndexError.
Proof. vm_compute. reflexivity. Qed.

(** C07: a different unrelated vertex *)
Example ex_unrelated :
  o_result (pg (lshape 77 5) 1 6 None (q 3) None) = o_result (pg (lshape (-9) 3) 1 6 None (q 3) None).
Proof.
  apply C07_unrelated_vertices_do_not_matter; try lia; try reflexivity.
  - intros h [].
  - intros i [Hi|(h & [] & _)]. unfold in_block in Hi. unfold lshape.
    destruct (Z.to_nat i) as [|k] eqn:E; [lia|]. reflexivity.
Qed.

(** C09: contours of a footprint with a hole *)
Definition holed : list (vec3 F64) :=
  [P 0 0; P 20 0; P 20 20; P 0 20; P 8 8; P 8 12; P 12 12; P 12 8].
Example ex_contours :
  match prepare holed 0 4 (Some [(4, 4)%Z]) None with
  | Ok (_, _, cs) => map (map (fun e => (ei1 e, ei2 e))) cs
  | Err _ => []
  end = [[(0, 1); (1, 2); (2, 3); (3, 0)]; [(4, 5); (5, 6); (6, 7); (7, 4)]]%Z.
Proof. vm_compute. reflexivity. Qed.

(** C10: face 0 has a spike at node 5; removing it merges the faces on its two sides, and the
    merged face has a spike of its own *)
Definition sp_verts : list (vec3 F64) := [P 0 0; P 10 0; P 10 6; P 0 6; P 5 3; P 5 1; P 5 4].
Example ex_spike :
  spike_pass sp_verts 4 [[0; 1; 4; 5; 6]; [1; 2; 5; 4]; [2; 3; 0; 6; 5]]%Z [0; 1; 2] =
  Ok (Some [[0; 1; 4; 6]; [1; 2; 5; 2; 3; 0; 6; 4]]%Z) /\
  remove_spikes sp_verts 4 [[0; 1; 4; 5; 6]; [1; 2; 5; 4]; [2; 3; 0; 6; 5]]%Z =
  Ok [[0; 1; 4; 6]; [1; 2; 3; 0; 6; 4]]%Z.
Proof. vm_compute. auto. Qed.
(** C11: node 4 lies on the edge 0-1 and is dropped from the face with more than three vertices *)
Definition cl_verts : list (vec3 F64) := [P 0 0; P 10 0; P 10 6; P 0 6; P 5 0].
Example ex_cleanup :
  clean_faces cl_verts 4 [[0; 4; 1; 2; 3]; [0; 1; 4]]%Z = Ok [[0; 1; 2; 3]; [0; 1; 4]]%Z.
Proof. vm_compute. reflexivity. Qed.
