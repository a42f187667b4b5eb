(** * Poly: model of polygonize, /repo/bpypolyskel/bpypolyskel.py:882-1177 *)

From Verif Require Import Py Arith Euclid PySort Heapq Graph Lav Cluster.
Set Implicit Arguments.

Section Poly.
Context {A : arith}.
Notation num := (num A).
Notation vec := (vec A).
Notation vec3 := (vec3 A).
Notation edge2 := (@edge2 A).
Notation subtree := (@subtree A).

(** ** 957-965: base height and center of gravity *)
Fixpoint sum_verts (verts : list vec3) (acc : vec3) (is : list Z) : res vec3 :=
  match is with
  | [] => Ok acc
  | i :: t => v <- py_get verts i ;; sum_verts verts (w_add acc v) t
  end.

Definition poly_center (verts : list vec3) (firstVertIndex numVerts : Z) : res vec3 :=
  c <- sum_verts verts (mkvec3 zeroN zeroN zeroN) (zrange firstVertIndex (firstVertIndex + numVerts)) ;;
  let n := rnd (nofZ numVerts) in
  if neqb n zeroN then Err ZeroDivisionError           (* Vector division by zero *)
  else
    let c' := mkvec3 (ndiv (wx c) n) (ndiv (wy c) n) (ndiv (wz c) n) in
    Ok (V3 (wx c') (wy c') (rnd zeroN)).

(** ** 967-980 and 986-998: the edges of one contour.  [u0] is the position in
    unitVectors of the contour's first vector; [id0] the identity of the first edge. *)
Definition opt_unit (unitVectors : option (list vec3)) (u : Z) : res (option vec3) :=
  match unitVectors with
  | None => Ok None
  | Some us => v <- py_get us u ;; Ok (Some v)
  end.

Definition contour_edges (verts : list vec3) (center : vec3) (unitVectors : option (list vec3))
           (u0 : Z) (id0 : nat) (first cnt : Z) : res (list edge2) :=
  let lastI := (first + cnt - 1)%Z in
  body <- mapM (fun k : nat =>
                  let i := (first + Z.of_nat k)%Z in
                  u <- opt_unit unitVectors (u0 + Z.of_nat k) ;;
                  Edge2_idx (id0 + k) i (i + 1) u verts center)
               (seq 0 (Z.to_nat (cnt - 1))) ;;
  u <- opt_unit unitVectors (u0 + cnt - 1) ;;
  e <- Edge2_idx (id0 + Z.to_nat (cnt - 1)) lastI first u verts center ;;
  Ok (body ++ [e]).

(** 983-1001 *)
Fixpoint hole_edges (verts : list vec3) (center : vec3) (unitVectors : option (list vec3))
         (uIndex : Z) (id0 : nat) (holes : list (Z * Z)) : res (list (list edge2)) :=
  match holes with
  | [] => Ok []
  | (first, cnt) :: t =>
    es <- contour_edges verts center unitVectors uIndex id0 first cnt ;;
    rest <- hole_edges verts center unitVectors (uIndex + cnt) (id0 + length es) t ;;
    Ok (es :: rest)
  end.

(** [if unitVectors:] -- an empty list counts as None; same for holesInfo *)
Definition truthy_list {T} (o : option (list T)) : option (list T) :=
  match o with Some [] => None | _ => o end.

(** 957-1001: center and the contours handed to skeletonize *)
Definition prepare (verts : list vec3) (first cnt : Z) (holesInfo : option (list (Z * Z)))
           (unitVectors : option (list vec3)) : res (num * vec3 * list (list edge2)) :=
  v0 <- py_get verts first ;;
  center <- poly_center verts first cnt ;;
  let us := truthy_list unitVectors in
  outer <- contour_edges verts center us 0 0 first cnt ;;
  holes <- hole_edges verts center us cnt (length outer)
                      (match holesInfo with Some h => h | None => [] end) ;;
  Ok (wz v0, center, outer :: holes).

(** ** 1012-1022: heights and the new vertices *)
Definition max_height (sk : list subtree) : res num :=
  match map (@height A) sk with
  | [] => Err ValueError                       (* max() arg is an empty sequence *)
  | h :: t => Ok (first_best (fun x best => ngtb x best) h t)
  end.

Definition slope (sk : list subtree) (height tan : num) : res num :=
  if ntruth height then m <- max_height sk ;; pdiv height m else Ok tan.

Definition skeleton_node3D (center : vec3) (tan_alpha zBase : num) (arc : subtree) : vec3 :=
  w_add (mkvec3 (vx (source arc)) (vy (source arc)) (nadd (nmul (height arc) tan_alpha) zBase)) center.

(** ** 1024-1050: the graph *)
Definition sink_index (edges2D : list edge2) (sk : list subtree) (firstSkel : Z) (sink : vec) : Z :=
  match find (fun e => veq (ep1 e) sink) edges2D with
  | Some e => ei1 e
  | None => match find_pos (fun arc => veq (source arc) sink) sk with
            | Some i => (Z.of_nat i + firstSkel)%Z
            | None => (-1)%Z                   (* error *)
            end
  end.

Definition contour_graph_edges (first cnt : Z) : res (list dart) :=
  circ_prev_next (zrange first (first + cnt)).

Definition skeleton_graph_edges (edges2D : list edge2) (sk : list subtree) (firstSkel : Z) : list dart :=
  flat_map (fun ia : nat * subtree =>
              map (fun sink => ((Z.of_nat (fst ia) + firstSkel)%Z, sink_index edges2D sk firstSkel sink))
                  (sinks (snd ia)))
           (enumerate sk).

Definition build_graph (swap_first : Z -> Z -> bool) (first cnt : Z) (holes : list (Z * Z))
           (edges2D : list edge2) (sk : list subtree) (firstSkel : Z) : res gdict :=
  outer <- contour_graph_edges first cnt ;;
  hs <- mapM (fun h => contour_graph_edges (fst h) (snd h)) holes ;;
  Ok (fold_left (add_edge swap_first) (outer ++ concat hs ++ skeleton_graph_edges edges2D sk firstSkel) []).

(** ** 1058-1137: spike removal *)

(** 1067-1083: is 'this' the peak of a spike? *)
Definition is_spike (verts : list vec3) (ptn : Z * Z * Z) : res bool :=
  let '(prev, this, nxt) := ptn in
  vt <- py_get verts this ;;
  vp <- py_get verts prev ;;
  vn <- py_get verts nxt ;;
  let s0 := w_xy (w_sub vt vp) in
  let s1 := w_xy (w_sub vn vt) in
  let s0m := vlen s0 in
  let s1m := vlen s1 in
  if ntruth s0m && ntruth s1m then
    dotCosine <- pdiv (vdot s0 s1) (nmul s0m s1m) ;;
    let crossSine := vcross s0 s1 in
    Ok (nltb (nabs (nadd dotCosine oneN)) PARALLEL && ngtb crossSine (nneg EPSILON))
  else Ok false.

Fixpoint find_spike (verts : list vec3) (l : list (Z * Z * Z)) : res (option (Z * Z * Z)) :=
  match l with
  | [] => Ok None
  | p :: t => b <- is_spike verts p ;; if b then Ok (Some p) else find_spike verts t
  end.

(** [x for p,n in _iterCircularPrevNext(f) if p == a and n == b] is non-empty *)
Definition has_edge (a b : Z) (f : list Z) : res bool :=
  pn <- circ_prev_next f ;;
  Ok (existsb (fun p => (fst p =? a) && (snd p =? b))%Z pn).

(** 1091-1096: the last faces containing this->prev and next->this *)
Fixpoint adjacent_faces (prev this nxt : Z) (i : nat) (faces : list (list Z)) (r l : option nat)
  : res (option nat * option nat) :=
  match faces with
  | [] => Ok (r, l)
  | f :: t =>
    br <- has_edge this prev f ;;
    bl <- has_edge nxt this f ;;
    adjacent_faces prev this nxt (S i) t (if br then Some i else r) (if bl then Some i else l)
  end.

(** [next(i for i, x in enumerate(l) if p i x)] *)
Definition rotate_to (x : Z) (l : list Z) : res (list Z) :=
  i <- of_option StopIteration (find_pos (fun y => (y =? x)%Z) l) ;; Ok (rot i l).

(** 1125: the position of the first entry that is an original vertex; the test
    [x[0] < firstSkelIndex] bounds the position as well *)
Definition next_orig (firstSkel : Z) (l : list Z) : res nat :=
  match find (fun ix => ((Z.of_nat (fst ix) <? firstSkel) && (snd ix <? firstSkel))%Z) (enumerate l) with
  | Some (i, _) => Ok i
  | None => Err StopIteration
  end.

Definition zlist_eqb := list_eqb Z.eqb.

(** 1122-1126 *)
Definition merge_faces (firstSkel : Z) (rightFace leftFace : list Z) (prev this : Z) : res (list Z) :=
  r <- rotate_to prev rightFace ;;
  l <- rotate_to this leftFace ;;
  let merged := r ++ tl l in
  i <- next_orig firstSkel merged ;;
  Ok (rot i merged).

(** delete two different positions, the larger one first *)
Definition del_two (i j : nat) (l : list (list Z)) : list (list Z) :=
  if Nat.ltb i j then del_at i (del_at j l) else del_at j (del_at i l).

(** 1103-1136: removal of the spike (prev, this, next) found in the face at position fi *)
Definition remove_spike (firstSkel : Z) (faces : list (list Z)) (fi : nat) (prev this : Z) (r l : nat)
  : res (list (list Z)) :=
  if Nat.eqb r l then
    c1 <- py_remove Z.eqb this (nth r faces []) ;;
    c2 <- py_remove Z.eqb prev c1 ;;
    let faces1 := set_at r c2 faces in
    let face := nth fi faces1 [] in
    if py_in Z.eqb this face
    then f' <- py_remove Z.eqb this face ;; Ok (set_at fi f' faces1)
    else Ok faces1
  else
    merged <- merge_faces firstSkel (nth r faces []) (nth l faces []) prev this ;;
    if zlist_eqb merged (nth fi faces []) then Err EndlessSpike
    else
      f' <- py_remove Z.eqb this (nth fi faces []) ;;
      Ok (del_two r l (set_at fi f' faces) ++ [merged]).

(** 1063-1136: one pass over the faces; Some faces' if a spike was removed *)
Fixpoint spike_pass (verts : list vec3) (firstSkel : Z) (faces : list (list Z)) (fis : list nat)
  : res (option (list (list Z))) :=
  match fis with
  | [] => Ok None
  | fi :: t =>
    let face := nth fi faces [] in
    if Nat.leb (length face) 3 then spike_pass verts firstSkel faces t
    else
      ptn <- circ_prev_this_next face ;;
      sp <- find_spike verts ptn ;;
      match sp with
      | None => spike_pass verts firstSkel faces t
      | Some (prev, this, nxt) =>
        '(r, l) <- adjacent_faces prev this nxt 0 faces None None ;;
        match r, l with
        | Some ri, Some li => fs <- remove_spike firstSkel faces fi prev this ri li ;; Ok (Some fs)
        | _, _ => spike_pass verts firstSkel faces t
        end
      end
  end.

Fixpoint spike_loop (fuel : nat) (verts : list vec3) (firstSkel : Z) (faces : list (list Z))
  : res (list (list Z)) :=
  match fuel with
  | O => Err OutOfFuel
  | S f =>
    o <- spike_pass verts firstSkel faces (seq 0 (length faces)) ;;
    match o with
    | None => Ok faces
    | Some faces' => spike_loop f verts firstSkel faces'
    end
  end.

Definition total_length (faces : list (list Z)) : nat := length (concat faces).

(** fuel proved sufficient in PolyProofs.v: every removal shortens the total length *)
Definition remove_spikes (verts : list vec3) (firstSkel : Z) (faces : list (list Z)) : res (list (list Z)) :=
  spike_loop (S (total_length faces)) verts firstSkel faces.

(** ** 1139-1171: adjacent parallel edges and duplicates *)

(** 1148-1161 for one vertex: is it to be removed? *)
Definition parallel_at (verts : list vec3) (counts : Z -> nat) (firstSkel : Z)
           (acc : list Z) (ptn : Z * Z * Z) : res (list Z) :=
  let '(prev, this, nxt) := ptn in
  if (Nat.ltb (counts this) 3 && (firstSkel <=? this)%Z)%bool then
    vt <- py_get verts this ;;
    vp <- py_get verts prev ;;
    vn <- py_get verts nxt ;;
    let d0 := w_sub vt vp in
    let d1 := w_sub vn vt in
    let s0 := mkvec (wx d0) (wy d0) in
    let s1 := mkvec (wx d1) (wy d1) in
    let s0m := vlen s0 in
    let s1m := vlen s1 in
    if ntruth s0m && ntruth s1m then
      dotCosine <- pdiv (vdot s0 s1) (nmul s0m s1m) ;;
      Ok (if nltb (nabs (nsub dotCosine oneN)) PARALLEL then acc ++ [this] else acc)
    else Ok (if py_in Z.eqb this acc then acc else acc ++ [this])
  else Ok acc.

Fixpoint parallel_scan (verts : list vec3) (counts : Z -> nat) (firstSkel : Z)
         (acc : list Z) (l : list (Z * Z * Z)) : res (list Z) :=
  match l with
  | [] => Ok acc
  | p :: t => acc' <- parallel_at verts counts firstSkel acc p ;; parallel_scan verts counts firstSkel acc' t
  end.

(** 1142-1163 *)
Definition fix_parallel (verts : list vec3) (counts : Z -> nat) (firstSkel : Z) (face : list Z) : res (list Z) :=
  if Nat.ltb 3 (length face) then
    ptn <- circ_prev_this_next face ;;
    rm <- parallel_scan verts counts firstSkel [] ptn ;;
    py_remove_all Z.eqb rm face
  else Ok face.

(** 1165-1171 *)
Definition fix_identical (face : list Z) : res (list Z) :=
  pn <- circ_prev_next face ;;
  py_remove_all Z.eqb (map fst (filter (fun p => (fst p =? snd p)%Z) pn)) face.

Definition clean_faces (verts : list vec3) (firstSkel : Z) (faces : list (list Z)) : res (list (list Z)) :=
  let all := concat faces in
  let counts v := count_b (Z.eqb v) all in
  mapM (fun face => f1 <- fix_parallel verts counts firstSkel face ;; fix_identical f1) faces.

(** ** polygonize *)

(** What a call leaves behind: the caller's verts, the caller's faces list (if one
    was passed), debugOutputs['skeleton'] if that key was present, and the result
    or exception. *)
Record outcome : Type := Outcome {
  o_verts : list vec3;
  o_faces : option (list (list Z));
  o_debug : option (list subtree);
  o_result : res (list (list Z)) }.

(** 1024-1171: the new faces, for the extended verts *)
Definition roof_faces (swap_first : Z -> Z -> bool) (sch : schedule) (verts' : list vec3)
           (first cnt : Z) (holes : list (Z * Z)) (edges2D : list edge2) (sk : list subtree)
           (firstSkel : Z) : res (list (list Z)) :=
  g <- build_graph swap_first first cnt holes edges2D sk firstSkel ;;
  emb <- circular_embedding g verts' true ;;
  faces <- graph_faces sch g emb firstSkel ;;
  faces1 <- remove_spikes verts' firstSkel faces ;;
  clean_faces verts' firstSkel faces1.

Definition polygonize (fuel : nat) (swap_first : Z -> Z -> bool) (sch : schedule) (debug : bool)
           (verts : list vec3) (first cnt : Z) (holesInfo : option (list (Z * Z)))
           (hgt tan : num) (faces : option (list (list Z))) (unitVectors : option (list vec3))
  : outcome :=
  let holes := match holesInfo with Some h => h | None => [] end in
  match (p <- prepare verts first cnt holesInfo unitVectors ;;
         let '(zBase, center, contours) := p in
         sk <- skeletonize fuel contours ;; Ok (zBase, center, contours, sk)) with
  | Err e => Outcome verts faces None (Err e)
  | Ok (zBase, center, contours, sk) =>
    let dbg := if debug then Some sk else None in                  (* 1007-1008 *)
    match slope sk hgt tan with
    | Err e => Outcome verts faces dbg (Err e)
    | Ok tan_alpha =>
      let verts' := verts ++ map (skeleton_node3D center tan_alpha zBase) sk in  (* 1017-1022 *)
      match roof_faces swap_first sch verts' first cnt holes (concat contours) sk
                       (Z.of_nat (length verts)) with
      | Err e => Outcome verts' faces dbg (Err e)
      | Ok fs =>
        match faces with                                             (* 1173-1177 *)
        | None => Outcome verts' None dbg (Ok fs)
        | Some old => Outcome verts' (Some (old ++ fs)) dbg (Ok (old ++ fs))
        end
      end
    end
  end.

End Poly.
