(** * Lav: model of the wavefront data structures and the event loop of
    /repo/bpypolyskel/bpypolyskel.py (lines 57-467 and 804-880).

    Objects with identity live in stores: [s_vs] holds every _LAVertex ever
    created, [s_ls] every _LAV ever created; a reference is the position in its
    store.  [s_act] is the list slav._lavs.  References of freshly built
    vertices are None in Python until they are assigned; the code assigns them
    before the first read, and the model uses the vertex' own position as the
    placeholder. *)

From Verif Require Import Py Arith Euclid Heapq.
Set Implicit Arguments.

Section Lav.
Context {A : arith}.
Notation num := (num A).
Notation vec := (vec A).
Notation edge2 := (@edge2 A).
Notation lin := (@lin A).

(** bpypolyskel.py:35 and :36 *)
Definition EPSILON : num := lit 1 100000.
Definition PARALLEL : num := lit 1 100.

(** 57-58 *)
Definition approximately_equals (a b : vec) : bool :=
  veq a b || nleb (vlen (vsub a b)) (nmul (nmax (vlen a) (vlen b)) (lit 1 1000)).

(** 60-64 *)
Definition robustFloatEqual (f1 f2 : num) : bool :=
  if nleb (nabs (nsub f1 f2)) EPSILON then true
  else nleb (nabs (nsub f1 f2)) (nmul EPSILON (nmax (nabs f1) (nabs f2))).

(** 66-89: the three kinds of events.  A DormerEvent keeps its two split events
    (distance and vertex are all that is read from them) and its edge event. *)
Inductive event : Type :=
| EdgeEv (dist : num) (ip : vec) (va vb : nat)
| SplitEv (dist : num) (ip : vec) (v : nat) (opp : edge2)
| DormerEv (dist : num) (d_prev : num) (v_prev : nat) (d_next : num) (v_next : nat)
           (d_edge : num) (ip_edge : vec) (va vb : nat).

Definition ev_distance (e : event) : num :=
  match e with
  | EdgeEv d _ _ _ => d
  | SplitEv d _ _ _ => d
  | DormerEv d _ _ _ _ _ _ _ _ => d
  end.

(** __lt__ of all three classes: 69-70, 75-76, 83-85 *)
Definition ev_lt (a b : event) : bool := nltb (ev_distance a) (ev_distance b).

(** 91 *)
Record orig_edge : Type := OrigEdge { oe_edge : edge2; oe_bprev : lin; oe_bnext : lin }.

(** 93 *)
Record subtree : Type := Subtree { source : vec; height : num; sinks : list vec }.

(** 95-121 (attributes) *)
Record lavertex : Type := LAVertex {
  v_point : vec; v_eprev : edge2; v_enext : edge2;
  v_prev : nat; v_next : nat; v_lav : option nat; v_valid : bool;
  v_reflex : bool; v_bis : lin }.

Record lav : Type := LAV { l_head : nat; l_len : Z }.

Record slav : Type := SLAV {
  s_vs : list lavertex; s_ls : list lav; s_act : list nat; s_orig : list orig_edge }.

(** 96-121 _LAVertex.__init__.  [self_id] is the placeholder for prev and next. *)
Definition mk_vertex (self_id : nat) (point : vec) (e_prev e_next : edge2)
           (dirs : option (vec * vec)) (forceConvex : bool) : lavertex :=
  let cv0 := vscale (enorm e_prev) (lit (-1) 1) in
  let cv1 := enorm e_next in
  let (dv0, dv1) := match dirs with Some d => d | None => (cv0, cv1) end in
  let reflex := if forceConvex then false else ngtb (vcross dv0 dv1) zeroN in
  let s := vadd cv0 cv1 in
  LAVertex point e_prev e_next self_id self_id None true reflex
           (Ray2 point (vscale s (if reflex then lit (-1) 1 else lit 1 1))).

(** field updates *)
Definition with_prev (p : nat) (v : lavertex) :=
  LAVertex (v_point v) (v_eprev v) (v_enext v) p (v_next v) (v_lav v) (v_valid v) (v_reflex v) (v_bis v).
Definition with_next (n : nat) (v : lavertex) :=
  LAVertex (v_point v) (v_eprev v) (v_enext v) (v_prev v) n (v_lav v) (v_valid v) (v_reflex v) (v_bis v).
Definition with_lav (l : option nat) (v : lavertex) :=
  LAVertex (v_point v) (v_eprev v) (v_enext v) (v_prev v) (v_next v) l (v_valid v) (v_reflex v) (v_bis v).
Definition with_valid (b : bool) (v : lavertex) :=
  LAVertex (v_point v) (v_eprev v) (v_enext v) (v_prev v) (v_next v) (v_lav v) b (v_reflex v) (v_bis v).

(** The default is never used: every stored reference is in range
    (proved in LavWalk.v). *)
Definition dummy_vec : vec := V2 zeroN zeroN.
Definition dummy_edge : edge2 := Edge 0 dummy_vec dummy_vec dummy_vec 0 0.
Definition dummy_vertex : lavertex :=
  LAVertex dummy_vec dummy_edge dummy_edge 0 0 None false false (Ray2 dummy_vec dummy_vec).
Definition getv (vs : list lavertex) (i : nat) : lavertex := nth i vs dummy_vertex.
Definition getl (ls : list lav) (i : nat) : lav := nth i ls (LAV 0 0).
Definition modv (i : nat) (f : lavertex -> lavertex) (vs : list lavertex) : list lavertex :=
  set_at i (f (getv vs i)) vs.

Definition with_vs (vs : list lavertex) (s : slav) := SLAV vs (s_ls s) (s_act s) (s_orig s).
Definition with_ls (ls : list lav) (s : slav) := SLAV (s_vs s) ls (s_act s) (s_orig s).
Definition with_act (a : list nat) (s : slav) := SLAV (s_vs s) (s_ls s) a (s_orig s).

(** 277-287 _LAV.__iter__: the vertices yielded, and the exception that ends the
    iteration if it does not return.  [fuel] is the number of vertices plus one
    (proved sufficient in LavWalk.v). *)
Fixpoint walk (fuel : nat) (vs : list lavertex) (head cur : nat) (visited : list nat)
  : list nat * option exn :=
  match fuel with
  | O => ([], Some OutOfFuel)
  | S f =>
    let nxt := v_next (getv vs cur) in
    if Nat.eqb nxt head then ([cur], None)
    else if existsb (Nat.eqb nxt) visited then ([cur], Some RuntimeError)
    else let (l, e) := walk f vs head nxt (nxt :: visited) in (cur :: l, e)
  end.

Definition lav_iter (s : slav) (l : nat) : list nat * option exn :=
  let h := l_head (getl (s_ls s) l) in
  walk (S (length (s_vs s))) (s_vs s) h h [].

(** [list(lav)] *)
Definition lav_list (s : slav) (l : nat) : res (list nat) :=
  match lav_iter s l with
  | (vs, None) => Ok vs
  | (_, Some e) => Err e
  end.

(** [chain.from_iterable(lavs)] consumed to the end *)
Fixpoint chain_list (s : slav) (ls : list nat) : res (list nat) :=
  match ls with
  | [] => Ok []
  | l :: t => a <- lav_list s l ;; b <- chain_list s t ;; Ok (a ++ b)
  end.

(** 123-127 and 248-253: vertex.invalidate().  The assertion of line 249 cannot
    fail on this path ([vertex.lav] is the very lav whose method is called). *)
Definition invalidate (s : slav) (v : nat) : slav :=
  match v_lav (getv (s_vs s) v) with
  | None => with_vs (modv v (with_valid false) (s_vs s)) s
  | Some l =>
    let lv := getl (s_ls s) l in
    let head' := if Nat.eqb (l_head lv) v then v_next (getv (s_vs s) (l_head lv)) else l_head lv in
    SLAV (modv v (fun x => with_lav None (with_valid false x)) (s_vs s))
         (set_at l (LAV head' (l_len lv)) (s_ls s)) (s_act s) (s_orig s)
  end.

Definition invalidate_all (s : slav) (l : list nat) : slav := fold_left invalidate l s.

(** 145-210 _LAVertex.next_event: one split candidate (lines 151-194) *)
Definition split_candidate (id : nat) (v : lavertex) (oe : orig_edge) : option event :=
  let e := oe_edge oe in
  if same_edge e (v_eprev v) || same_edge e (v_enext v) then None
  else
    let prevdot := nabs (vdot (enorm (v_eprev v)) (enorm e)) in
    let nextdot := nabs (vdot (enorm (v_enext v)) (enorm e)) in
    let selfedge := if nltb prevdot nextdot then v_eprev v else v_enext v in
    match line_intersect (Line2_edge selfedge) (Line2_edge e) with
    | None => None
    | Some i =>
      if approximately_equals i (v_point v) then None
      else
        let linvec0 := vnormalized (vsub (v_point v) i) in
        let edvec0 := enorm e in
        let linvec :=
          if nltb (nabs (nsub (vcross (lv (v_bis v)) linvec0) oneN)) EPSILON
          then vnormalized (vadd (vsub (v_point v) i) (vscale edvec0 (lit 1 100)))
          else linvec0 in
        let edvec := if nltb (vcross (lv (v_bis v)) linvec) zeroN then vneg edvec0 else edvec0 in
        let bisecvec := vadd edvec linvec in
        if negb (ntruth (vlen bisecvec)) then None
        else
          match line_intersect (Line2_pv i bisecvec) (v_bis v) with
          | None => None
          | Some b =>
            let xprev := nltb (vcross (vnormalized (lv (oe_bprev oe)))
                                      (vnormalized (vsub b (lp (oe_bprev oe))))) EPSILON in
            let xnext := ngtb (vcross (vnormalized (lv (oe_bnext oe)))
                                      (vnormalized (vsub b (lp (oe_bnext oe))))) (nneg EPSILON) in
            let xedge := ngtb (vcross (enorm e) (vnormalized (vsub b (ep1 e)))) (nneg EPSILON) in
            let parallel := neqb (vlen (lv (oe_bnext oe))) zeroN in
            if xprev && xnext && xedge && negb parallel
            then Some (SplitEv (line_distance (Line2_edge e) b) b id e)
            else None
          end
    end.

Definition ev_ip (dflt : vec) (e : event) : vec :=
  match e with
  | EdgeEv _ ip _ _ => ip
  | SplitEv _ ip _ _ => ip
  | DormerEv _ _ _ _ _ _ _ _ _ => dflt
  end.

Definition opt_list {T} (o : option T) : list T := match o with Some x => [x] | None => [] end.

Definition map_filter {T U} (f : T -> option U) (l : list T) : list U :=
  flat_map (fun x => opt_list (f x)) l.

(** 196-202: the edge events of a vertex with its two neighbours *)
Definition edge_candidates (vs : list lavertex) (id : nat) : list event :=
  let v := getv vs id in
  let i_prev := line_intersect (v_bis v) (v_bis (getv vs (v_prev v))) in
  let i_next := line_intersect (v_bis v) (v_bis (getv vs (v_next v))) in
  (match i_prev with
   | Some p => [EdgeEv (line_distance (Line2_edge (v_eprev v)) p) p (v_prev v) id]
   | None => [] end) ++
  (match i_next with
   | Some p => [EdgeEv (line_distance (Line2_edge (v_enext v)) p) p id (v_next v)]
   | None => [] end).

(** 145-202: all candidate events; the split part reads self.lav (AttributeError if None) *)
Definition candidates (s : slav) (id : nat) : res (list event) :=
  let v := getv (s_vs s) id in
  splits <- (if v_reflex v then
               match v_lav v with
               | None => Err AttributeError
               | Some _ => Ok (map_filter (split_candidate id v) (s_orig s))
               end
             else Ok []) ;;
  Ok (splits ++ edge_candidates (s_vs s) id).

(** 204-210 *)
Definition nearest (p : vec) (evs : list event) : option event :=
  match evs with
  | [] => None
  | e :: t =>
    let key x := vlen (vsub p (ev_ip p x)) in
    Some (first_best (fun x best => nltb (key x) (key best)) e t)
  end.

Definition next_event (s : slav) (id : nat) : res (option event) :=
  evs <- candidates s id ;;
  Ok (nearest (v_point (getv (s_vs s) id)) evs).

(** 218-237 _LAV.from_polygon: one vertex is appended before lav.head *)
Definition append_vertex (l first : nat) (vs : list lavertex) (pn : edge2 * edge2)
  : list lavertex :=
  let id := length vs in
  let v := with_lav (Some l) (mk_vertex id (ep1 (snd pn)) (fst pn) (snd pn) None false) in
  if Nat.eqb id first then vs ++ [v]                      (* head is None *)
  else
    let tail := v_prev (getv vs first) in
    let v' := with_prev tail (with_next first v) in
    modv first (with_prev id) (modv tail (with_next id) (vs ++ [v'])).

Definition from_polygon (s : slav) (contour : list edge2) : res slav :=
  pn <- circ_prev_next contour ;;
  let l := length (s_ls s) in
  let first := length (s_vs s) in
  let vs := fold_left (append_vertex l first) pn (s_vs s) in
  Ok (SLAV vs (s_ls s ++ [LAV first (Z.of_nat (length contour))]) (s_act s ++ [l]) (s_orig s)).

Fixpoint from_polygons (s : slav) (contours : list (list edge2)) : res slav :=
  match contours with
  | [] => Ok s
  | c :: t => s' <- from_polygon s c ;; from_polygons s' t
  end.

(** 290-297 _SLAV.__init__ *)
Definition init_slav (contours : list (list edge2)) : res slav :=
  s <- from_polygons (SLAV [] [] [] []) contours ;;
  ids <- chain_list s (s_act s) ;;
  Ok (SLAV (s_vs s) (s_ls s) (s_act s)
           (map (fun i => let v := getv (s_vs s) i in
                          OrigEdge (v_eprev v) (v_bis (getv (s_vs s) (v_prev v))) (v_bis v)) ids)).

(** 239-246 _LAV.from_chain: a new _LAV whose vertices are those reached from head *)
Definition from_chain (s : slav) (head : nat) : res (slav * nat) :=
  let l := length (s_ls s) in
  let s1 := with_ls (s_ls s ++ [LAV head 0]) s in
  ids <- lav_list s1 l ;;
  let vs := fold_left (fun vs i => modv i (with_lav (Some l)) vs) ids (s_vs s1) in
  Ok (SLAV vs (set_at l (LAV head (Z.of_nat (length ids))) (s_ls s1)) (s_act s1) (s_orig s1), l).

(** [self._lavs.remove(lav)] where lav may be None *)
Definition remove_lav (s : slav) (l : option nat) : res slav :=
  match l with
  | None => Err ValueError
  | Some l => a <- py_remove Nat.eqb l (s_act s) ;; Ok (with_act a s)
  end.

(** 255-272 _LAV.unify *)
Definition unify (s : slav) (l va vb : nat) (point : vec) : slav * nat :=
  let a := getv (s_vs s) va in
  let b := getv (s_vs s) vb in
  let id := length (s_vs s) in
  let r := with_lav (Some l)
             (mk_vertex id point (v_eprev a) (v_enext b)
                        (Some (vnormalized (lv (v_bis b)), vnormalized (lv (v_bis a)))) false) in
  let vs0 := s_vs s ++ [r] in
  let lv0 := getl (s_ls s) l in
  let head' := if Nat.eqb (l_head lv0) va || Nat.eqb (l_head lv0) vb then id else l_head lv0 in
  let ls0 := set_at l (LAV head' (l_len lv0)) (s_ls s) in
  (* 263 vertex_a.prev.next = replacement *)
  let vs1 := modv (v_prev (getv vs0 va)) (with_next id) vs0 in
  (* 264 vertex_b.next.prev = replacement *)
  let vs2 := modv (v_next (getv vs1 vb)) (with_prev id) vs1 in
  (* 265-266 *)
  let vs3 := modv id (with_prev (v_prev (getv vs2 va))) vs2 in
  let vs4 := modv id (with_next (v_next (getv vs3 vb))) vs3 in
  let s1 := SLAV vs4 ls0 (s_act s) (s_orig s) in
  let s2 := invalidate (invalidate s1 va) vb in
  let lv1 := getl (s_ls s2) l in
  (with_ls (set_at l (LAV (l_head lv1) (l_len lv1 - 1)) (s_ls s2)) s2, id).

(** 341-361 _SLAV.handle_edge_event *)
Definition handle_edge_event (s : slav) (d : num) (ip : vec) (va vb : nat)
  : res (slav * list subtree * list event) :=
  let lav := v_lav (getv (s_vs s) va) in
  if Nat.eqb (v_prev (getv (s_vs s) va)) (v_next (getv (s_vs s) vb)) then
    (* peak event *)
    s1 <- remove_lav s lav ;;
    l <- of_option ValueError lav ;;
    ids <- lav_list s1 l ;;
    let snks := map (fun i => v_point (getv (s_vs s1) i)) ids in
    Ok (invalidate_all s1 ids, [Subtree ip d snks], [])
  else
    l <- of_option AttributeError lav ;;
    let (s1, nv) := unify s l va vb ip in
    (* 355-356 *)
    let lv1 := getl (s_ls s1) l in
    let s2 := if Nat.eqb (l_head lv1) va || Nat.eqb (l_head lv1) vb
              then with_ls (set_at l (LAV nv (l_len lv1)) (s_ls s1)) s1 else s1 in
    let snks := [v_point (getv (s_vs s2) va); v_point (getv (s_vs s2) vb)] in
    ev <- next_event s2 nv ;;
    Ok (s2, [Subtree ip d snks], opt_list ev).

(** 371-387: the search for the wavefront edge hit by a split event.  Returns
    Some (x, y) for the accepted pair, None if the loop runs to its end. *)
Definition split_here (vs : list lavertex) (ip : vec) (opp : edge2) (v : nat)
  : option (nat * nat) :=
  let vv := getv vs v in
  let xy :=
    if veq (enorm opp) (enorm (v_eprev vv)) && veq (ep1 opp) (ep1 (v_eprev vv))
    then Some (v, v_prev vv)
    else if veq (enorm opp) (enorm (v_enext vv)) && veq (ep1 opp) (ep1 (v_enext vv))
    then Some (v_next vv, v)
    else None in
  match xy with
  | None => None
  | Some (x, y) =>
    let xv := getv vs x in
    let yv := getv vs y in
    let xprev := nleb (vcross (vnormalized (lv (v_bis yv))) (vnormalized (vsub ip (v_point yv)))) EPSILON in
    let xnext := ngeb (vcross (vnormalized (lv (v_bis xv))) (vnormalized (vsub ip (v_point xv)))) (nneg EPSILON) in
    if xprev && xnext then Some (x, y) else None
  end.

Fixpoint find_split (vs : list lavertex) (ip : vec) (opp : edge2) (ids : list nat)
  : option (nat * nat) :=
  match ids with
  | [] => None
  | v :: t => match split_here vs ip opp v with
              | Some xy => Some xy
              | None => find_split vs ip opp t
              end
  end.

(** the lazy [for v in chain.from_iterable(self._lavs): ... break] *)
Fixpoint find_split_lavs (s : slav) (ip : vec) (opp : edge2) (ls : list nat)
  : res (option (nat * nat)) :=
  match ls with
  | [] => Ok None
  | l :: t =>
    let (ids, e) := lav_iter s l in
    match find_split (s_vs s) ip opp ids with
    | Some xy => Ok (Some xy)
    | None => match e with
              | Some ex => Err ex
              | None => find_split_lavs s ip opp t
              end
    end
  end.

(** 415-423: keep a new LAV with more than two vertices, collapse the others *)
Definition settle_lav (acc : res (slav * list nat * list vec)) (l : nat)
  : res (slav * list nat * list vec) :=
  '(s, verts, snks) <- acc ;;
  let lv := getl (s_ls s) l in
  if (2 <? l_len lv)%Z
  then Ok (with_act (s_act s ++ [l]) s, verts ++ [l_head lv], snks)
  else
    let pt := v_point (getv (s_vs s) (v_next (getv (s_vs s) (l_head lv)))) in
    ids <- lav_list s l ;;
    Ok (invalidate_all s ids, verts, snks ++ [pt]).

(** 425-429 *)
Fixpoint next_events (s : slav) (vs : list nat) : res (list event) :=
  match vs with
  | [] => Ok []
  | v :: t => e <- next_event s v ;; es <- next_events s t ;; Ok (opt_list e ++ es)
  end.

(** 363-432 _SLAV.handle_split_event *)
Definition handle_split_event (s : slav) (d : num) (ip : vec) (v : nat) (opp : edge2)
  : res (slav * list subtree * list event) :=
  let vv := getv (s_vs s) v in
  let lav := v_lav vv in
  xy <- find_split_lavs s ip opp (s_act s) ;;
  match xy with
  | None => Ok (s, [], [])                                  (* 389-391 *)
  | Some (x, y) =>
    let n1 := length (s_vs s) in
    let n2 := S n1 in
    let v1 := mk_vertex n1 ip (v_eprev vv) opp None true in
    let v2 := mk_vertex n2 ip opp (v_enext vv) None true in
    let vs0 := s_vs s ++ [v1; v2] in
    (* 396-399 *)
    let vs1 := modv n1 (with_prev (v_prev (getv vs0 v))) vs0 in
    let vs2 := modv n1 (with_next x) vs1 in
    let vs3 := modv (v_prev (getv vs2 v)) (with_next n1) vs2 in
    let vs4 := modv x (with_prev n1) vs3 in
    (* 401-404 *)
    let vs5 := modv n2 (with_prev y) vs4 in
    let vs6 := modv n2 (with_next (v_next (getv vs5 v))) vs5 in
    let vs7 := modv (v_next (getv vs6 v)) (with_prev n2) vs6 in
    let vs8 := modv y (with_next n2) vs7 in
    let s1 := with_vs vs8 s in
    s2 <- remove_lav s1 lav ;;                              (* 407 *)
    let xlav := v_lav (getv vs8 x) in
    '(s3, new) <-
      (if match lav, xlav with Some a, Some b => negb (Nat.eqb a b) | None, None => false | _, _ => true end
       then (* 408-411: merges two lavs *)
         s' <- remove_lav s2 xlav ;;
         '(s'', l1) <- from_chain s' n1 ;; Ok (s'', [l1])
       else
         '(s', l1) <- from_chain s2 n1 ;;
         '(s'', l2) <- from_chain s' n2 ;; Ok (s'', [l1; l2])) ;;
    '(s4, verts, snks) <- fold_left settle_lav new (Ok (s3, [], [v_point vv])) ;;
    evs <- next_events s4 verts ;;
    Ok (invalidate s4 v, [Subtree ip d snks], evs)          (* 431-432 *)
  end.

(** 306-339 _SLAV.handle_dormer_event.  If the two bisectors do not meet
    ([p is None]) the code stores None as a node and dies with a TypeError in
    mergeNodeClusters; the model raises it at once (simplification). *)
Definition handle_dormer_event (s : slav) (d_prev : num) (vp : nat) (d_next : num) (vn : nat)
           (d_edge : num) (ip_edge : vec) (va vb : nat)
  : res (slav * list subtree * list event) :=
  match v_lav (getv (s_vs s) vp) with
  | None => Ok (s, [], [])
  | Some l =>
    let toRemove := [vp; v_next (getv (s_vs s) vp); vn; v_prev (getv (s_vs s) vn)] in
    let hd := v_prev (getv (s_vs s) vp) in
    let s1 := with_ls (set_at l (LAV hd (l_len (getl (s_ls s) l))) (s_ls s)) s in
    let vs1 := modv (v_prev (getv (s_vs s1) vp)) (with_next (v_next (getv (s_vs s1) vn))) (s_vs s1) in
    let vs2 := modv (v_next (getv vs1 vn)) (with_prev (v_prev (getv vs1 vp))) vs1 in
    '(s2, l2) <- from_chain (with_vs vs2 s1) hd ;;
    s3 <- remove_lav s2 (Some l) ;;
    let s4 := with_act (s_act s3 ++ [l2]) s3 in
    match line_intersect (v_bis (getv (s_vs s4) vp)) (v_bis (getv (s_vs s4) vn)) with
    | None => Err TypeError
    | Some p =>
      let arcs := [Subtree ip_edge d_edge [v_point (getv (s_vs s4) va); v_point (getv (s_vs s4) vb); p];
                   Subtree p (ndiv (nadd d_prev d_next) twoN)
                           [v_point (getv (s_vs s4) vp); v_point (getv (s_vs s4) vn)]] in
      Ok (invalidate_all s4 toRemove, arcs, [])
    end
  end.

(** ** 435-467 _EventQueue *)
Definition put (q : list event) (o : option event) : list event :=
  match o with Some e => heappush ev_lt q e | None => q end.
Definition put_all (q : list event) (es : list event) : list event :=
  fold_left (heappush ev_lt) es q.

Definition near_distance (a b : event) : bool :=
  nltb (nabs (nsub (ev_distance a) (ev_distance b))) (lit 1 1000).

Fixpoint pop_equal (fuel : nat) (item : event) (q : list event) : list event * list event :=
  match fuel, q with
  | S f, top :: _ =>
    if near_distance top item then
      match heappop ev_lt q with
      | Some (x, q') => let (l, q'') := pop_equal f item q' in (x :: l, q'')
      | None => ([], q)
      end
    else ([], q)
  | _, _ => ([], q)
  end.

(** 450-457; None: IndexError on an empty queue *)
Definition getAllEqualDistance (q : list event) : option (list event * list event) :=
  match heappop ev_lt q with
  | None => None
  | Some (item, q') => let (l, q'') := pop_equal (length q') item q' in Some (item :: l, q'')
  end.

(** ** 856-875: one event of the batch *)
Definition is_valid (s : slav) (v : nat) : bool := v_valid (getv (s_vs s) v).

Definition handle_event (s : slav) (e : event)
  : res (slav * list subtree * list event) :=
  match e with
  | EdgeEv d ip va vb =>
    if negb (is_valid s va) || negb (is_valid s vb) then Ok (s, [], [])
    else handle_edge_event s d ip va vb
  | SplitEv d ip v opp =>
    if negb (is_valid s v) then Ok (s, [], [])
    else handle_split_event s d ip v opp
  | DormerEv _ dp vp dn vn de ipe va vb =>
    if negb (is_valid s vp) || negb (is_valid s vn) then Ok (s, [], [])
    else handle_dormer_event s dp vp dn vn de ipe va vb
  end.

Record loop_state : Type := Loop { lo_slav : slav; lo_queue : list event; lo_out : list subtree }.

Fixpoint handle_batch (st : loop_state) (evs : list event) : res loop_state :=
  match evs with
  | [] => Ok st
  | e :: t =>
    '(s', arcs, new) <- handle_event (lo_slav st) e ;;
    handle_batch (Loop s' (put_all (lo_queue st) new) (lo_out st ++ arcs)) t
  end.

(** 854-875: the main loop *)
Fixpoint event_loop (fuel : nat) (st : loop_state) : res loop_state :=
  match fuel with
  | O => Err OutOfFuel
  | S f =>
    match lo_queue st, s_act (lo_slav st) with
    | [], _ => Ok st
    | _, [] => Ok st
    | _, _ =>
      match getAllEqualDistance (lo_queue st) with
      | None => Err IndexError
      | Some (batch, q') =>
        st' <- handle_batch (Loop (lo_slav st) q' (lo_out st)) batch ;;
        event_loop f st'
      end
    end
  end.

End Lav.
