(** * Cluster: post-processing and pattern detection of
    /repo/bpypolyskel/bpypolyskel.py (lines 470-802) *)

From Verif Require Import Py Arith Euclid Lav.
Set Implicit Arguments.

Section Cluster.
Context {A : arith}.
Notation num := (num A).
Notation vec := (vec A).
Notation edge2 := (@edge2 A).
Notation subtree := (@subtree A).
Notation event := (@event A).

(** ** 470-493 checkEdgeCrossing *)
Definition skeleton_edges (sk : list subtree) : list (vec * vec) :=
  flat_map (fun arc => map (fun p2 => (source arc, p2)) (sinks arc)) sk.

(** 482-492 for one pair of edges; None: the divisor is zero ([continue]).
    Edge2(p1,p2) copies the points componentwise, which does not change them. *)
Definition edges_cross (e : (vec * vec) * (vec * vec)) : bool :=
  let '((p1, p2), (q1, q2)) := e in
  let denom := nsub (nmul (nsub (vx p2) (vx p1)) (nsub (vy q2) (vy q1)))
                    (nmul (nsub (vy p2) (vy p1)) (nsub (vx q2) (vx q1))) in
  if negb (ntruth denom) then false
  else
    let n1 := nsub (nmul (nsub (vy p1) (vy q1)) (nsub (vx q2) (vx q1)))
                   (nmul (nsub (vx p1) (vx q1)) (nsub (vy q2) (vy q1))) in
    let r := ndiv n1 denom in
    let n2 := nsub (nmul (nsub (vy p1) (vy q1)) (nsub (vx p2) (vx p1)))
                   (nmul (nsub (vx p1) (vx q1)) (nsub (vy p2) (vy p1))) in
    let s := ndiv n2 denom in
    let hi := nsub oneN EPSILON in
    negb ((nleb r EPSILON || ngeb r hi) || (nleb s EPSILON || ngeb s hi)).

Definition checkEdgeCrossing (sk : list subtree) : nat :=
  count_b edges_cross (combinations2 (skeleton_edges sk)).

(** ** 496-546 removeGhosts *)
Definition with_sinks (l : list vec) (a : subtree) : subtree := Subtree (source a) (height a) l.

Definition dummy_subtree : subtree := Subtree dummy_vec zeroN [].
Definition get_arc (sk : list subtree) (i : nat) : subtree := nth i sk dummy_subtree.
Definition set_sinks (i : nat) (l : list vec) (sk : list subtree) : list subtree :=
  set_at i (with_sinks l (get_arc sk i)) sk.

(** 498-500: remove loops *)
Definition remove_loop (a : subtree) : subtree :=
  if py_in veq (source a) (sinks a)
  then match py_remove veq (source a) (sinks a) with
       | Ok l => with_sinks l a
       | Err _ => a                      (* unreachable: the element is there *)
       end
  else a.

(** 532-534 (= 542-544): hand farSink over to the node of nearSink, drop both from arc k *)
Definition ghost_move (sk : list subtree) (k nodeIndex : nat) (farSink nearSink : vec)
  : res (list subtree) :=
  let sk1 := set_sinks nodeIndex (sinks (get_arc sk nodeIndex) ++ [farSink]) sk in
  l1 <- py_remove veq farSink (sinks (get_arc sk1 k)) ;;
  let sk2 := set_sinks k l1 sk1 in
  l2 <- py_remove veq nearSink (sinks (get_arc sk2 k)) ;;
  Ok (set_sinks k l2 sk2).

(** what one pair of sinks does *)
Inductive pair_outcome : Type :=
| PairNext (sk : list subtree) (altered : bool)     (* go on with the next pair *)
| PairBreak (sk : list subtree) (altered : bool).   (* break out of the pairs loop *)

(** 509-546: body of the pairs loop *)
Definition ghost_pair (sk : list subtree) (k : nat) (altered : bool) (pair : vec * vec)
  : res pair_outcome :=
  let src := source (get_arc sk k) in
  let s0 := vsub (fst pair) src in
  let s1 := vsub (snd pair) src in
  let s0m := vlen s0 in
  let s1m := vlen s1 in
  if ntruth s0m && ntruth s1m then
    c <- pdiv (vdot s0 s1) (nmul s0m s1m) ;;
    let dotCosineAbs := nabs (nsub c oneN) in
    if nltb dotCosineAbs PARALLEL then
      let (farSink, nearSink) := if nltb s0m s1m then (snd pair, fst pair) else (fst pair, snd pair) in
      match find_pos (fun node => veq (source node) nearSink) sk with
      | None => Ok (PairBreak sk altered)                        (* 526-527 *)
      | Some nodeIndex =>
        if nltb dotCosineAbs EPSILON then                        (* 531-536 *)
          sk' <- ghost_move sk k nodeIndex farSink nearSink ;;
          Ok (PairBreak sk' true)
        else if existsb (fun sink => seg_intersect src farSink nearSink sink)
                        (sinks (get_arc sk nodeIndex))           (* 540-546 *)
        then sk' <- ghost_move sk k nodeIndex farSink nearSink ;;
             Ok (PairNext sk' true)
        else Ok (PairNext sk altered)
      end
    else Ok (PairNext sk altered)
  else Ok (PairNext sk altered).

(** 509: [for pair in combs]; combs was built from the sinks at line 508 and does
    not follow later changes of arc.sinks *)
Fixpoint ghost_pairs (sk : list subtree) (k : nat) (altered : bool) (pairs : list (vec * vec))
  : res (list subtree * bool) :=
  match pairs with
  | [] => Ok (sk, altered)
  | p :: t =>
    o <- ghost_pair sk k altered p ;;
    match o with
    | PairNext sk' a' => ghost_pairs sk' k a' t
    | PairBreak sk' a' => Ok (sk', a')
    end
  end.

(** 505-546: the while loop of one arc *)
Fixpoint ghost_while (fuel : nat) (sk : list subtree) (k : nat) : res (list subtree) :=
  match fuel with
  | O => Err OutOfFuel
  | S f =>
    '(sk', altered) <- ghost_pairs sk k false (combinations2 (sinks (get_arc sk k))) ;;
    if altered then ghost_while f sk' k else Ok sk'
  end.

(** 502: [for arc in skeleton]; fuel: every alteration removes more sinks from arc
    k than it adds (proved sufficient in GhostProofs.v) *)
Fixpoint ghost_arcs (sk : list subtree) (ks : list nat) : res (list subtree) :=
  match ks with
  | [] => Ok sk
  | k :: t => sk' <- ghost_while (S (length (sinks (get_arc sk k)))) sk k ;; ghost_arcs sk' t
  end.

Definition removeGhosts (sk : list subtree) : res (list subtree) :=
  let sk1 := map remove_loop sk in
  ghost_arcs sk1 (seq 0 (length sk1)).

(** ** 548-575 detectApses *)

(** maximal runs of [true] of length at least 6: re.finditer("(L){6,}"); (start, end) *)
Fixpoint runs (pos start : nat) (l : list bool) : list (nat * nat) :=
  match l with
  | [] => if Nat.leb 6 (pos - start) then [(start, pos)] else []
  | true :: t => runs (S pos) start t
  | false :: t => (if Nat.leb 6 (pos - start) then [(start, pos)] else []) ++ runs (S pos) (S pos) t
  end.

Definition low_angle (pn : edge2 * edge2) : bool :=
  nltb (nabs (vcross (enorm (fst pn)) (enorm (snd pn)))) (lit 1 2).

(** 552: the sequence of 'L' (true) and 'H' (false) *)
Definition apse_sequence (contour : list edge2) : res (list bool) :=
  pn <- circ_prev_next contour ;; Ok (map low_angle pn).

(** None: no apses.  (nextStart is never advanced in the code, so its test is always true.) *)
Definition detectApses (contour : list edge2) : res (option (list vec)) :=
  sq <- apse_sequence contour ;;
  if forallb (fun b => b) sq then Ok None
  else
    let n := length sq in
    match runs 0 0 (sq ++ sq) with
    | [] => Ok None
    | ms =>
      cs <- mapM (fun se : nat * nat =>
              vs <- mapM (fun i => e <- of_option IndexError (nth_error contour (Nat.modulo i n)) ;;
                                   Ok (ep1 e))
                         (seq (fst se) (snd se - fst se)) ;;
              c <- fitCircle3Points vs ;; Ok (fst c))
            (filter (fun se : nat * nat => Nat.ltb (fst se) n) ms) ;;
      Ok (Some cs)
    end.

(** ** 577-629 findClusters *)
Definition manhattan (a b : vec) : num :=
  nadd (nabs (nsub (vx a) (vx b))) (nabs (nsub (vy a) (vy b))).

(** 594-604 *)
Definition near_apse (sk : list subtree) (centers : list vec) (cluster : list nat) : bool :=
  existsb (fun c => existsb (fun node => nltb (manhattan c (source (get_arc sk node))) (lit 3 1))
                            cluster) centers.

(** 607-612 *)
Definition contour_sinks (sk : list subtree) (contourVertices : list vec) (cluster : list nat) : list vec :=
  flat_map (fun node => filter (fun s => py_in veq s contourVertices) (sinks (get_arc sk node))) cluster.
Definition nr_contour_sinks (sk : list subtree) (contourVertices : list vec) (cluster : list nat) : nat :=
  fold_left (fun n node => n + count_b (fun el => py_in veq el (sinks (get_arc sk node))) contourVertices)
            cluster 0.

(** 621-624 *)
Definition min_pair_dist (init : num) (pts : list vec) : num :=
  fold_left (fun m p => nmin (vlen (vsub (fst p) (snd p))) m) (combinations2 pts) init.

(** 592-627: is this cluster to be merged? *)
Definition accept_cluster (sk : list subtree) (contourVertices : list vec)
           (apses : option (list vec)) (thresh : num) (cluster : list nat) : bool :=
  if Nat.leb (length cluster) 1 then false
  else if match apses with Some cs => near_apse sk cs cluster | None => false end then false
  else if Nat.ltb (nr_contour_sinks sk contourVertices cluster) 2 then true
  else ngtb (min_pair_dist (nmul (lit 3 1) thresh) (contour_sinks sk contourVertices cluster))
            (nmul twoN thresh).

(** 580-629; [fuel]: every round removes its first candidate *)
Fixpoint cluster_loop (fuel : nat) (sk : list subtree) (contourVertices : list vec)
         (apses : option (list vec)) (thresh : num) (cands : list nat) : list (list nat) :=
  match fuel, cands with
  | S f, c0 :: rest =>
    let cluster := c0 :: filter (fun c => nltb (manhattan (source (get_arc sk c0))
                                                           (source (get_arc sk c))) thresh) rest in
    let cands' := filter (fun c => negb (existsb (Nat.eqb c) cluster)) cands in
    let more := cluster_loop f sk contourVertices apses thresh cands' in
    if accept_cluster sk contourVertices apses thresh cluster then cluster :: more else more
  | _, _ => []
  end.

Definition findClusters (sk : list subtree) (cands : list nat) (contourVertices : list vec)
           (edgeContours : list (list edge2)) (thresh : num) : res (list (list nat)) :=
  outer <- py_get edgeContours 0 ;;
  apses <- detectApses outer ;;
  Ok (cluster_loop (length cands) sk contourVertices apses thresh cands).

(** ** 631-675 mergeCluster *)

(** 648-652 *)
Definition collect_sinks (mergedSources : list vec) (acc l : list vec) : list vec :=
  fold_left (fun acc s => if py_in veq s mergedSources || py_in veq s acc then acc else acc ++ [s]) l acc.

(** 660-669: the sinks of an arc outside the cluster.  [pre] are the entries
    already passed (rewritten in place), the deletions happen at the end: an
    entry marked for deletion still counts for [new_source in arc.sinks]. *)
Fixpoint redirect (mergedSources : list vec) (new_source : vec) (pre post : list vec)
  : list (vec * bool) :=                      (* bool: keep? *)
  match post with
  | [] => []
  | s :: t =>
    if py_in veq s mergedSources then
      if py_in veq new_source (pre ++ s :: t)
      then (s, false) :: redirect mergedSources new_source (pre ++ [s]) t
      else (new_source, true) :: redirect mergedSources new_source (pre ++ [new_source]) t
    else (s, true) :: redirect mergedSources new_source (pre ++ [s]) t
  end.

Definition redirect_arc (mergedSources : list vec) (new_source : vec) (a : subtree) : subtree :=
  if py_in veq (source a) mergedSources then a
  else with_sinks (map fst (filter snd (redirect mergedSources new_source [] (sinks a)))) a.

Definition mergeCluster (sk : list subtree) (cluster : list nat) : res (list subtree) :=
  let nodes := map (get_arc sk) cluster in
  let x := fold_left (fun a n => nadd a (vx (source n))) nodes zeroN in
  let y := fold_left (fun a n => nadd a (vy (source n))) nodes zeroN in
  let h := fold_left (fun a n => nadd a (height n)) nodes zeroN in
  let n := nofZ (Z.of_nat (length cluster)) in
  cx <- pdiv x n ;;
  cy <- pdiv y n ;;
  ch <- pdiv h n ;;
  let mergedSources := map (@source A) nodes in
  let new_source := mkvec cx cy in
  let new_sinks := fold_left (fun acc a => collect_sinks mergedSources acc (sinks a)) nodes [] in
  let sk1 := map (redirect_arc mergedSources new_source) sk in
  (* 673-675: delete the clustered positions, append the new node *)
  let sk2 := map snd (filter (fun ia => negb (existsb (Nat.eqb (fst ia)) cluster)) (enumerate sk1)) in
  Ok (sk2 ++ [Subtree new_source ch new_sinks]).

(** ** 677-713 mergeNodeClusters *)

(** 682-684: dict lookup of the tuple of coordinates, exact float equality *)
Definition same_coords (a b : vec) : bool := neqb (vx a) (vx b) && neqb (vy a) (vy b).

(** 681-693: [acc] is the list of the nodes kept so far, in order *)
Fixpoint add_node (acc : list subtree) (p : subtree) : list subtree :=
  match acc with
  | [] => [p]
  | q :: t =>
    if same_coords (source q) (source p)
    then with_sinks (fold_left (fun l s => if py_in veq s l then l else l ++ [s]) (sinks p) (sinks q)) q :: t
    else q :: add_node t p
  end.

Definition merge_same_sources (sk : list subtree) : list subtree := fold_left add_node sk [].

(** 710 [max(clusters, key=len)]: the first longest *)
Definition largest_cluster (c : list nat) (cs : list (list nat)) : list nat :=
  first_best (fun x best => Nat.ltb (length best) (length x)) c cs.

(** 698-711; fuel: every round shortens the skeleton (proved in MergeProofs.v) *)
Definition smallThresh : num := lit 1 10.

Fixpoint merge_loop (fuel : nat) (sk : list subtree) (contourVertices : list vec)
         (edgeContours : list (list edge2)) : res (list subtree) :=
  match fuel with
  | O => Err OutOfFuel
  | S f =>
    cs <- findClusters sk (seq 0 (length sk)) contourVertices edgeContours smallThresh ;;
    match cs with
    | [] => Ok sk
    | c :: t => sk' <- mergeCluster sk (largest_cluster c t) ;;
                merge_loop f sk' contourVertices edgeContours
    end
  end.

Definition mergeNodeClusters (sk : list subtree) (edgeContours : list (list edge2)) : res (list subtree) :=
  let sk1 := merge_same_sources sk in
  let contourVertices := map (@ep1 A) (concat edgeContours) in
  merge_loop (S (length sk1)) sk1 contourVertices edgeContours.

(** ** 715-775 detectDormers *)
Inductive turn : Set := TL | TR | T0.
Definition turn_eqb (a b : turn) : bool :=
  match a, b with TL, TL => true | TR, TR => true | T0, T0 => true | _, _ => false end.

(** 718-725 *)
Definition coder (cp : num) : turn :=
  if ngtb cp (lit 99 100) then TL
  else if nltb cp (lit (-99) 100) then TR
  else T0.

Definition turn_sequence (contour : list edge2) : res (list turn) :=
  pn <- circ_prev_next contour ;;
  Ok (map (fun p => coder (vcross (enorm (fst p)) (enorm (snd p)))) pn).

(** 731-733: start positions of all (overlapping) matches of RLLR *)
Fixpoint rllr_matches (pos : nat) (l : list turn) : list nat :=
  match l with
  | [] => []
  | _ :: t =>
    (match l with
     | TR :: TL :: TL :: TR :: _ => [pos]
     | _ => []
     end) ++ rllr_matches (S pos) t
  end.

(** 738-743 *)
Fixpoint dormer_starts (n nextStart : nat) (ms : list nat) : list nat :=
  match ms with
  | [] => []
  | s :: t => if Nat.ltb s n && Nat.leb nextStart s
              then s :: dormer_starts n (s + 3) t
              else dormer_starts n nextStart t
  end.

Definition dormer_index (n s : nat) : list nat :=
  map (fun i => Nat.modulo i n) (seq s 4).

Definition nlist_eqb := list_eqb Nat.eqb.

(** 745-752: filter overlapping dormers *)
Definition overlapping (ds : list (list nat)) : list (list nat) :=
  match ds with
  | [] => []
  | d0 :: rest =>
    flat_map (fun p => if Nat.eqb (nth 3 (fst p) 0) (nth 0 (snd p) 0) then [fst p; snd p] else [])
             (combine ds (rest ++ [d0]))
  end.
Definition remove_if_in (ds : list (list nat)) (sp : list nat) : list (list nat) :=
  match py_remove nlist_eqb sp ds with Ok ds' => ds' | Err _ => ds end.
Definition filter_overlapping (ds : list (list nat)) : list (list nat) :=
  fold_left remove_if_in (overlapping ds) ds.

(** 756-760 *)
Definition distinct_count (ds : list (list nat)) : nat := length (nodup Nat.eq_dec (concat ds)).

(** 763-773 for one dormer.  [s_last] is the loop variable s left over from
    line 738: the start of the LAST regular-expression match. *)
Definition dormer_check (contour : list edge2) (sq : list turn) (s_last : nat) (oi : list nat)
  : res (list (list nat * num)) :=
  let n := length sq in
  let edge i := of_option IndexError (nth_error contour i) in
  let o i := nth i oi 0 in
  e0 <- edge (o 0) ;; e1 <- edge (o 1) ;; e2 <- edge (o 2) ;;
  let w := edge_length_squared e1 in
  let d1 := edge_length_squared e0 in
  let d2 := edge_length_squared e2 in
  d <- pdiv (nabs (nsub d1 d2)) (nadd d1 d2) ;;
  e3 <- edge (Nat.modulo (o 0 + n - 1) n) ;;
  let d3 := edge_length_squared e3 in
  e4 <- edge (o 3) ;;
  let d4 := edge_length_squared e4 in
  let fac i := if turn_eqb (nth i sq T0) TL then lit 3 2 else lit 1 8 in
  let facLeft := fac (Nat.modulo (s_last + n - 1) n) in
  let facRight := fac (Nat.modulo (s_last + 4) n) in
  Ok (if nltb w (lit 100 1) && nltb d (lit 35 100) && ngeb d3 (nmul w facLeft) && ngeb d4 (nmul w facRight)
      then [(oi, vlen (vsub (ep1 e1) (ep2 e1)))]
      else []).

Definition detectDormers (contours : list (list edge2)) : res (list (list nat * num)) :=
  outer <- py_get contours 0 ;;
  sq <- turn_sequence outer ;;
  let n := length sq in
  let ms := rllr_matches 0 (sq ++ sq) in
  let ds := filter_overlapping (map (dormer_index n) (dormer_starts n 0 ms)) in
  if Nat.eqb (distinct_count ds) (length outer) then Ok []
  else
    r <- mapM (dormer_check outer sq (last ms 0)) ds ;;
    Ok (concat r).

(** ** 777-801 processDormers *)

(** 782-797 for one dormer *)
Definition dormer_event (s : @slav A) (initial : list (option event)) (dm : list nat * num)
  : res (option event) :=
  let evs := map snd (filter (fun ie => existsb (Nat.eqb (fst ie)) (fst dm)) (enumerate initial)) in
  if forallb (fun o => match o with Some _ => true | None => false end) evs then
    e0 <- of_option IndexError (nth_error evs 0) ;;
    match e0 with
    | Some (SplitEv dp _ vp _) =>
      e1 <- of_option IndexError (nth_error evs 1) ;;
      match e1 with
      | Some (EdgeEv de ipe va vb) =>
        e3 <- of_option IndexError (nth_error evs 3) ;;
        match e3 with
        | Some (SplitEv dn _ vn _) =>
          Ok (Some (DormerEv (ndiv (snd dm) twoN) dp vp dn vn de ipe va vb))
        | _ => Ok None
        end
      | _ => Ok None
      end
    | _ => Ok None
    end
  else Ok None.

Definition processDormers (s : @slav A) (dormers : list (list nat * num)) (initial : list (option event))
  : res (list (option event)) :=
  des <- mapM (fun dm => e <- dormer_event s initial dm ;; Ok (e, fst dm)) dormers ;;
  let made := filter (fun p => match fst p with Some _ => true | None => false end) des in
  let used := flat_map snd made in
  let remaining := map snd (filter (fun ie => negb (existsb (Nat.eqb (fst ie)) used)) (enumerate initial)) in
  Ok (remaining ++ map fst made).

(** ** 804-880 skeletonize *)

(** 840-843 *)
Definition initial_events (s : @slav A) : res (list (option event)) :=
  ids <- chain_list s (s_act s) ;; mapM (next_event s) ids.

(** 836-852: everything before the loop *)
Definition skeleton_start (contours : list (list edge2)) : res (@loop_state A) :=
  s <- init_slav contours ;;
  dormers <- detectDormers contours ;;
  evs <- initial_events s ;;
  evs' <- (match dormers with [] => Ok evs | _ => processDormers s dormers evs end) ;;
  Ok (Loop s (fold_left put evs' []) []).

(** the nodes produced by the event loop, before merging *)
Definition raw_skeleton (fuel : nat) (contours : list (list edge2)) : res (list subtree) :=
  st <- skeleton_start contours ;;
  st' <- event_loop fuel st ;;
  Ok (lo_out st').

Definition skeletonize (fuel : nat) (contours : list (list edge2)) : res (list subtree) :=
  out <- raw_skeleton fuel contours ;;
  out' <- mergeNodeClusters out contours ;;
  removeGhosts out'.

End Cluster.
