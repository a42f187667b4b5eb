(** * SymLav: the event loop under a symmetry

    t moves vectors and keeps everything the event loop computes from them (sums, products, lengths, intersections and
    comparisons); the numbers of the vertices that an edge carries are replaced by r.  The event loop then gives the
    moved nodes, whatever the arithmetic.  Used for rotations (TurnCluster.v) and for renumbered footprints (RenumLav.v). *)

From Coq Require Import ZArith List Lia Bool.
From Verif Require Import Py PyFacts Arith Euclid Heapq Lav Cluster TurnSpec.
Set Implicit Arguments.
Unset Strict Implicit.

(** ** maps and lists *)
Section Maps.
Variables S T : Type.
Variable f : S -> T.

Lemma nth_map d i l : nth i (map f l) (f d) = f (nth i l d).
Proof. apply map_nth. Qed.

Lemma set_at_map i x l : set_at i (f x) (map f l) = map f (set_at i x l).
Proof. revert i. induction l as [|y l IH]; intros [|i]; cbn [map set_at]; auto. rewrite IH. auto. Qed.

Lemma del_at_map i l : del_at i (map f l) = map f (del_at i l).
Proof. revert i. induction l as [|y l IH]; intros [|i]; cbn [map del_at]; auto. rewrite IH. auto. Qed.

Lemma get_map l i : py_get (map f l) i = res_map f (py_get l i).
Proof. unfold py_get. rewrite map_length. cbv zeta. destruct (_ && _)%bool; auto. rewrite nth_error_map. destruct (nth_error l _); auto. Qed.

Lemma last_map_f l d : last (map f l) (f d) = f (last l d).
Proof. induction l as [|x [|y l] IH]; auto. Qed.

Lemma removelast_map l : removelast (map f l) = map f (removelast l).
Proof. induction l as [|x [|y l] IH]; auto. cbn [map] in *. cbn [removelast] in *. rewrite IH. reflexivity. Qed.

Variable lt : T -> T -> bool.
Variable lt' : S -> S -> bool.
Hypothesis same : forall a b, lt (f a) (f b) = lt' a b.

Lemma swap_map i j h : swap i j (map f h) = map f (swap i j h).
Proof. unfold swap. rewrite !nth_error_map. destruct (nth_error h i); cbn [option_map]; auto. destruct (nth_error h j); cbn [option_map]; auto. rewrite !set_at_map. auto. Qed.

Lemma lt_at_map h i j : lt_at lt (map f h) i j = lt_at lt' h i j.
Proof. unfold lt_at. rewrite !nth_error_map. destruct (nth_error h i); cbn [option_map]; auto. destruct (nth_error h j); cbn [option_map]; auto. Qed.

Lemma siftdown_map fuel : forall h pos, siftdown lt fuel (map f h) pos = map f (siftdown lt' fuel h pos).
Proof. induction fuel as [|n IH]; intros h [|p]; cbn [siftdown]; auto. rewrite lt_at_map. destruct (lt_at lt' h _ _); auto. rewrite swap_map. apply IH. Qed.

Lemma siftup_map fuel : forall h pos, siftup lt fuel (map f h) pos = map f (siftup lt' fuel h pos).
Proof.
  induction fuel as [|n IH]; intros h pos; auto. cbn [siftup]. rewrite map_length, lt_at_map. destruct (Nat.ltb _ _); [|apply siftdown_map]. rewrite swap_map. apply IH.
Qed.

Lemma heappush_map h x : heappush lt (map f h) (f x) = map f (heappush lt' h x).
Proof. unfold heappush. change [f x] with (map f [x]). rewrite <- map_app, !map_length. apply siftdown_map. Qed.

Lemma heappop_map h : heappop lt (map f h) = option_map (fun xh => (f (fst xh), map f (snd xh))) (heappop lt' h).
Proof.
  destruct h as [|x [|y h]]; auto. cbn [map heappop option_map fst snd]. f_equal. f_equal. change (f y :: map f h) with (map f (y :: h)).
  rewrite last_map_f, removelast_map. change (f (last (y :: h) x) :: map f (removelast (y :: h))) with (map f (last (y :: h) x :: removelast (y :: h))).
  rewrite map_length. apply siftup_map.
Qed.

Lemma first_best_map l : forall x, first_best lt (f x) (map f l) = f (first_best lt' x l).
Proof. induction l as [|y l IH]; intros x; auto. cbn [map first_best]. rewrite same. destruct (lt' y x); apply IH. Qed.
End Maps.

(** ** lists *)
Section Maps.
Variables S T : Type.
Variable f : S -> T.

Lemma mapM_res_map X Y (g : X -> res Y) (g' : X -> res Y) (h : Y -> Y) l : (forall x, g' x = res_map h (g x)) -> mapM g' l = res_map (map h) (mapM g l).
Proof.
  intros H. induction l as [|x l IH]; cbn [mapM]; auto. rewrite H, IH. destruct (g x); cbn [res_map bind]; auto. destruct (mapM g l); cbn [res_map bind]; auto.
Qed.

Lemma mapM_map X Y (g : S -> res X) (g' : T -> res Y) (h : X -> Y) l : (forall x, g' (f x) = res_map h (g x)) -> mapM g' (map f l) = res_map (map h) (mapM g l).
Proof.
  intros H. induction l as [|x l IH]; cbn [map mapM]; auto. rewrite H, IH. destruct (g x); cbn [res_map bind]; auto. destruct (mapM g l); cbn [res_map bind]; auto.
Qed.

Lemma filter_map_f (p : T -> bool) (q : S -> bool) l : (forall x, p (f x) = q x) -> filter p (map f l) = map f (filter q l).
Proof. intros H. induction l as [|x l IH]; cbn [map filter]; auto. rewrite H. destruct (q x); cbn [map]; rewrite IH; auto. Qed.

Lemma enumerate_map l : enumerate (map f l) = map (fun p => (fst p, f (snd p))) (enumerate l).
Proof.
  unfold enumerate. rewrite map_length. generalize (seq 0 (length l)). intros k. revert l. induction k as [|i k IH]; intros [|x l]; cbn [map combine]; auto. f_equal. apply IH.
Qed.

Lemma combinations_map l : combinations2 (map f l) = map (fun p => (f (fst p), f (snd p))) (combinations2 l).
Proof. induction l as [|x l IH]; cbn [map combinations2]; auto. rewrite map_app, IH, !map_map. auto. Qed.

Lemma find_pos_map (p : T -> bool) (q : S -> bool) l : (forall x, p (f x) = q x) -> find_pos p (map f l) = find_pos q l.
Proof. intros H. induction l as [|x l IH]; cbn [map find_pos]; auto. rewrite H, IH. auto. Qed.

Lemma existsb_map_f (p : T -> bool) (q : S -> bool) l : (forall x, p (f x) = q x) -> existsb p (map f l) = existsb q l.
Proof. intros H. induction l as [|x l IH]; cbn [map existsb]; auto. rewrite H, IH. auto. Qed.

Lemma count_map_f (p : T -> bool) (q : S -> bool) l : (forall x, p (f x) = q x) -> count_b p (map f l) = count_b q l.
Proof. intros H. unfold count_b. rewrite (filter_map_f _ H), map_length. auto. Qed.
End Maps.

Lemma circ_map (S T : Type) (f : S -> T) l : circ_prev_next (map f l) = res_map (map (fun p => (f (fst p), f (snd p)))) (circ_prev_next l).
Proof.
  destruct l as [|x l]; auto. unfold circ_prev_next. cbn [map]. change (f x :: map f l) with (map f (x :: l)). rewrite last_map_f, removelast_map. cbn [res_map]. f_equal.
  change (f (last (x :: l) x) :: map f (removelast (x :: l))) with (map f (last (x :: l) x :: removelast (x :: l))).
  generalize (last (x :: l) x :: removelast (x :: l)) as a. generalize (x :: l) as b. induction b as [|y b IH]; intros [|z a]; cbn [map combine]; auto. f_equal. apply IH.
Qed.

Section Sym.
Context {A : arith}.
Variable t : vec A -> vec A.
Variable r : Z -> Z.

(** what t keeps *)
Definition t_lin (l : @lin A) : @lin A := Lin (t (lp l)) (t (lv l)) (l_is_ray l).
Definition t_edge (e : @edge2 A) : @edge2 A := Edge (eid e) (t (ep1 e)) (t (ep2 e)) (t (enorm e)) (r (ei1 e)) (r (ei2 e)).
Definition t_node (a : @subtree A) : @subtree A := Subtree (t (source a)) (height a) (map t (sinks a)).

Record sym_laws : Prop := {
  t_add : forall a b, vadd (t a) (t b) = t (vadd a b);
  t_sub : forall a b, vsub (t a) (t b) = t (vsub a b);
  t_neg : forall a, vneg (t a) = t (vneg a);
  t_scale : forall a (k : num A), vscale (t a) k = t (vscale a k);
  t_dot : forall a b, vdot (t a) (t b) = vdot a b;
  t_cross : forall a b, vcross (t a) (t b) = vcross a b;
  t_len : forall a, vlen (t a) = vlen a;
  t_len2 : forall a, vlen2 (t a) = vlen2 a;
  t_normalized : forall a, vnormalized (t a) = t (vnormalized a);
  t_veq : forall a b, veq (t a) (t b) = veq a b;
  t_dummy : t dummy_vec = dummy_vec;
  t_approx : forall a b, approximately_equals (t a) (t b) = approximately_equals a b;
  t_intersect : forall a b, line_intersect (t_lin a) (t_lin b) = option_map t (line_intersect a b);
  t_distance : forall l p, line_distance (t_lin l) (t p) = line_distance l p;
  r_zero : r 0%Z = 0%Z }.

Hypothesis K : sym_laws.

Lemma t_line_edge e : Line2_edge (t_edge e) = t_lin (Line2_edge e).
Proof. unfold Line2_edge, t_lin. cbn [t_edge ep1 ep2 lp lv l_is_ray]. rewrite t_sub by auto. auto. Qed.

Definition tv (v : @lavertex A) : @lavertex A :=
  LAVertex (t (v_point v)) (t_edge (v_eprev v)) (t_edge (v_enext v)) (v_prev v) (v_next v) (v_lav v) (v_valid v) (v_reflex v) (t_lin (v_bis v)).
Definition toe (o : @orig_edge A) : @orig_edge A := OrigEdge (t_edge (oe_edge o)) (t_lin (oe_bprev o)) (t_lin (oe_bnext o)).
Definition ts (x : @slav A) : @slav A := SLAV (map tv (s_vs x)) (s_ls x) (s_act x) (map toe (s_orig x)).
Definition tev (e : @event A) : @event A :=
  match e with
  | EdgeEv d ip va vb => EdgeEv d (t ip) va vb
  | SplitEv d ip v opp => SplitEv d (t ip) v (t_edge opp)
  | DormerEv d dp vp dn vn de ipe va vb => DormerEv d dp vp dn vn de (t ipe) va vb
  end.
Definition tlo (l : @loop_state A) : @loop_state A := Loop (ts (lo_slav l)) (map tev (lo_queue l)) (map t_node (lo_out l)).

Lemma te_norm e : enorm (t_edge e) = t (enorm e).
Proof. reflexivity. Qed.
Lemma te_id e : eid (t_edge e) = eid e.
Proof. reflexivity. Qed.
Lemma te_p1 e : ep1 (t_edge e) = t (ep1 e).
Proof. reflexivity. Qed.
Lemma tl_v l : lv (t_lin l) = t (lv l).
Proof. reflexivity. Qed.
Lemma tl_p l : lp (t_lin l) = t (lp l).
Proof. reflexivity. Qed.

Lemma t_vertex id p e1 e2 dirs fc :
  mk_vertex id (t p) (t_edge e1) (t_edge e2) (option_map (fun d => (t (fst d), t (snd d))) dirs) fc = tv (mk_vertex id p e1 e2 dirs fc).
Proof.
  unfold mk_vertex, tv. cbv zeta. destruct dirs as [[d0 d1]|]; cbn [option_map fst snd v_point v_eprev v_enext v_prev v_next v_lav v_valid v_reflex v_bis];
    rewrite !te_norm, ?t_scale, ?t_cross, ?t_add, ?t_scale by auto; reflexivity.
Qed.

Lemma tv_dummy : tv dummy_vertex = dummy_vertex.
Proof. unfold tv, dummy_vertex, dummy_edge, t_lin, t_edge. cbn. rewrite (t_dummy K), (r_zero K). reflexivity. Qed.

Lemma t_getv vs i : getv (map tv vs) i = tv (getv vs i).
Proof. unfold getv. rewrite <- tv_dummy at 1. apply map_nth. Qed.

Lemma t_modv i (f : @lavertex A -> @lavertex A) vs : (forall v, f (tv v) = tv (f v)) -> modv i f (map tv vs) = map tv (modv i f vs).
Proof. intros H. unfold modv. rewrite t_getv, H, set_at_map. auto. Qed.

Ltac mv := rewrite ?t_modv by (intros; reflexivity).

Lemma t_walk vs h : forall fuel cur vis, walk fuel (map tv vs) h cur vis = walk fuel vs h cur vis.
Proof.
  induction fuel as [|f IH]; intros cur vis; cbn [walk]; auto. rewrite t_getv. cbn [tv v_next]. destruct (Nat.eqb _ _); auto. destruct (existsb _ _); auto. rewrite IH. auto.
Qed.

Lemma t_iter x l : lav_iter (ts x) l = lav_iter x l.
Proof. unfold lav_iter. cbn [ts s_vs s_ls]. rewrite map_length. apply t_walk. Qed.

Lemma t_list x l : lav_list (ts x) l = lav_list x l.
Proof. unfold lav_list. rewrite t_iter. auto. Qed.

Lemma t_chain x ls : chain_list (ts x) ls = chain_list x ls.
Proof. induction ls as [|l ls IH]; cbn [chain_list]; auto. rewrite t_list, IH. auto. Qed.

Lemma t_invalidate x v : invalidate (ts x) v = ts (invalidate x v).
Proof.
  unfold invalidate. cbn [ts s_vs s_ls s_act s_orig]. rewrite ?t_getv. cbn [tv v_lav]. destruct (v_lav (getv (s_vs x) v)) as [l|].
  - cbv zeta. rewrite ?t_getv. cbn [tv v_next]. mv. reflexivity.
  - unfold with_vs. cbn [s_ls s_act s_orig]. mv. reflexivity.
Qed.

Lemma t_invalidate_all l : forall x, invalidate_all (ts x) l = ts (invalidate_all x l).
Proof. unfold invalidate_all. induction l as [|v l IH]; intros x; cbn [fold_left]; auto. rewrite t_invalidate. apply IH. Qed.

(** ** the events a vertex schedules *)
Lemma t_split_candidate id v oe : split_candidate id (tv v) (toe oe) = option_map tev (split_candidate id v oe).
Proof.
  unfold split_candidate. cbv zeta. cbn [tv toe oe_edge oe_bprev oe_bnext v_eprev v_enext v_point v_bis]. unfold same_edge. rewrite !te_id.
  destruct (_ || _)%bool; auto. rewrite !te_norm, !t_dot by auto.
  assert (L : Line2_edge (if nltb (nabs (vdot (enorm (v_eprev v)) (enorm (oe_edge oe)))) (nabs (vdot (enorm (v_enext v)) (enorm (oe_edge oe)))) then t_edge (v_eprev v) else t_edge (v_enext v)) =
    t_lin (Line2_edge (if nltb (nabs (vdot (enorm (v_eprev v)) (enorm (oe_edge oe)))) (nabs (vdot (enorm (v_enext v)) (enorm (oe_edge oe)))) then v_eprev v else v_enext v))).
  { destruct (nltb _ _); apply t_line_edge; auto. }
  rewrite L, t_line_edge, t_intersect by auto. clear L.
  destruct (line_intersect _ _) as [i|]; cbn [option_map]; auto. rewrite t_approx by auto. destruct (approximately_equals i (v_point v)); auto.
  rewrite !tl_v, !tl_p. rewrite !t_sub, !t_normalized, !t_scale, !t_add, !t_cross, !t_normalized, !t_neg by auto.
  set (lin := if nltb (nabs (nsub (vcross (lv (v_bis v)) (vnormalized (vsub (v_point v) i))) oneN)) EPSILON
     then vnormalized (vadd (vsub (v_point v) i) (vscale (enorm (oe_edge oe)) (lit 1 100))) else vnormalized (vsub (v_point v) i)).
  assert (E : (if nltb (nabs (nsub (vcross (lv (v_bis v)) (vnormalized (vsub (v_point v) i))) oneN)) EPSILON
     then t (vnormalized (vadd (vsub (v_point v) i) (vscale (enorm (oe_edge oe)) (lit 1 100)))) else t (vnormalized (vsub (v_point v) i))) = t lin)
    by (unfold lin; destruct (nltb _ _); auto).
  rewrite !E. rewrite t_cross by auto. clear E. clearbody lin.
  set (ed := if nltb (vcross (lv (v_bis v)) lin) zeroN then vneg (enorm (oe_edge oe)) else enorm (oe_edge oe)).
  assert (E : (if nltb (vcross (lv (v_bis v)) lin) zeroN then t (vneg (enorm (oe_edge oe))) else t (enorm (oe_edge oe))) = t ed)
    by (unfold ed; destruct (nltb _ _); auto).
  rewrite !E. clear E. clearbody ed. rewrite t_add, t_len by auto. destruct (negb (ntruth _)); auto.
  change (Line2_pv (t i) (t (vadd ed lin))) with (t_lin (Line2_pv i (vadd ed lin))).
  rewrite t_intersect by auto. destruct (line_intersect (Line2_pv i _) _) as [b|]; cbn [option_map]; auto. rewrite te_p1.
  rewrite !t_sub, !t_normalized, !t_cross, t_len by auto. rewrite t_distance by auto. destruct (_ && _)%bool; auto.
Qed.

Lemma t_edge_candidates vs id : edge_candidates (map tv vs) id = map tev (edge_candidates vs id).
Proof.
  unfold edge_candidates. cbv zeta. rewrite ?t_getv. cbn [tv v_bis v_prev v_next v_eprev v_enext]. rewrite ?t_getv. cbn [tv v_bis v_eprev v_enext v_prev v_next]. rewrite !t_intersect by auto. rewrite map_app. f_equal.
  - destruct (line_intersect _ _); cbn [option_map map tev]; auto. rewrite t_line_edge, t_distance by auto. auto.
  - destruct (line_intersect _ _); cbn [option_map map tev]; auto. rewrite t_line_edge, t_distance by auto. auto.
Qed.

Lemma t_candidates x id : candidates (ts x) id = res_map (map tev) (candidates x id).
Proof.
  unfold candidates. cbv zeta. cbn [ts s_vs s_orig]. rewrite t_getv, t_edge_candidates. cbn [tv v_reflex v_lav].
  assert (E : map_filter (split_candidate id (tv (getv (s_vs x) id))) (map toe (s_orig x)) = map tev (map_filter (split_candidate id (getv (s_vs x) id)) (s_orig x))).
  { unfold map_filter. induction (s_orig x) as [|o l IH]; cbn [map flat_map]; auto. rewrite map_app, IH, t_split_candidate. f_equal. destruct (split_candidate _ _ _); auto. }
  fold (tv (getv (s_vs x) id)). rewrite E. destruct (v_reflex _); [destruct (v_lav _)|]; cbn [bind res_map map app]; auto. rewrite map_app. auto.
Qed.

Lemma t_nearest p evs : nearest (t p) (map tev evs) = option_map tev (nearest p evs).
Proof.
  destruct evs as [|e evs]; cbn [nearest map option_map]; auto. f_equal. apply first_best_map.
  intros a b. assert (E : forall e, ev_ip (t p) (tev e) = t (ev_ip p e)) by (intros []; auto). rewrite !E, !t_sub, !t_len by auto. auto.
Qed.

Lemma t_next_event x id : next_event (ts x) id = res_map (option_map tev) (next_event x id).
Proof.
  unfold next_event. rewrite t_candidates. destruct (candidates x id); cbn [res_map bind]; auto. cbn [ts s_vs]. rewrite t_getv. cbn [tv v_point]. rewrite t_nearest. auto.
Qed.

(** ** the first wavefront *)

Lemma t_append l first vs pn : append_vertex l first (map tv vs) (t_edge (fst pn), t_edge (snd pn)) = map tv (append_vertex l first vs pn).
Proof.
  unfold append_vertex. cbv zeta. cbn [fst snd]. rewrite map_length, t_getv. cbn [tv v_prev].
  pose proof (t_vertex (length vs) (ep1 (snd pn)) (fst pn) (snd pn) None false) as E. cbn [option_map] in E.
  change (ep1 (t_edge (snd pn))) with (t (ep1 (snd pn))). rewrite E. destruct (Nat.eqb (length vs) first); [rewrite map_app; auto|].
  set (v := mk_vertex _ _ _ _ _ _). change (with_prev (v_prev (getv vs first)) (with_next first (with_lav (Some l) (tv v)))) with
    (tv (with_prev (v_prev (getv vs first)) (with_next first (with_lav (Some l) v)))).
  change (map tv vs ++ [tv (with_prev (v_prev (getv vs first)) (with_next first (with_lav (Some l) v)))]) with
    (map tv vs ++ map tv [with_prev (v_prev (getv vs first)) (with_next first (with_lav (Some l) v))]). rewrite <- map_app. mv. auto.
Qed.

Lemma t_from_polygon x contour : from_polygon (ts x) (map t_edge contour) = res_map ts (from_polygon x contour).
Proof.
  unfold from_polygon. rewrite circ_map. destruct (circ_prev_next contour) as [pn|]; cbn [res_map bind]; auto. cbv zeta. unfold ts. cbn [s_vs s_ls s_act s_orig].
  rewrite !map_length. f_equal. f_equal. generalize (length (s_vs x)). intros first. generalize (s_vs x). induction pn as [|p pn IH]; intros vs; cbn [map fold_left]; auto.
  rewrite t_append. apply IH.
Qed.

Lemma t_from_polygons cs : forall x, from_polygons (ts x) (map (map t_edge) cs) = res_map ts (from_polygons x cs).
Proof.
  induction cs as [|k cs IH]; intros x; cbn [map from_polygons]; auto. rewrite t_from_polygon. destruct (from_polygon x k); cbn [res_map bind]; auto.
Qed.

Lemma t_init cs : init_slav (map (map t_edge) cs) = res_map ts (init_slav cs).
Proof.
  unfold init_slav. change (SLAV [] [] [] []) with (ts (SLAV [] [] [] [])) at 1. rewrite t_from_polygons. destruct (from_polygons _ cs) as [x|]; cbn [res_map bind]; auto.
  rewrite t_chain. cbn [ts s_act]. destruct (chain_list x (s_act x)) as [ids|]; cbn [res_map bind]; auto. cbn [s_vs s_ls s_act]. unfold ts. cbn [s_vs s_ls s_act s_orig].
  f_equal. f_equal. rewrite map_map. apply map_ext. intros i. unfold toe. rewrite ?t_getv. cbn [tv v_eprev v_prev v_bis oe_edge oe_bprev oe_bnext]. rewrite ?t_getv. auto.
Qed.

(** ** one event *)
Lemma t_fold_lav (l : nat) ids : forall vs, fold_left (fun vs i => modv i (with_lav (Some l)) vs) ids (map tv vs) = map tv (fold_left (fun vs i => modv i (with_lav (Some l)) vs) ids vs).
Proof. induction ids as [|i ids IH]; intros vs; cbn [fold_left]; auto. mv. apply IH. Qed.

Lemma t_from_chain x h : from_chain (ts x) h = res_map (fun p => (ts (fst p), snd p)) (from_chain x h).
Proof.
  unfold from_chain. cbv zeta. change (with_ls (s_ls (ts x) ++ [LAV h 0]) (ts x)) with (ts (with_ls (s_ls x ++ [LAV h 0]) x)). rewrite t_list.
  cbn [ts s_ls]. destruct (lav_list _ _) as [ids|]; cbn [res_map bind]; auto. cbn [fst snd ts s_vs with_ls s_act s_orig s_ls]. rewrite t_fold_lav. auto.
Qed.

Lemma t_remove_lav x l : remove_lav (ts x) l = res_map ts (remove_lav x l).
Proof. unfold remove_lav. destruct l as [l|]; auto. cbn [ts s_act]. destruct (py_remove _ _ _); auto. Qed.

Lemma t_unify x l va vb p : unify (ts x) l va vb (t p) = (ts (fst (unify x l va vb p)), snd (unify x l va vb p)).
Proof.
  unfold unify. cbv zeta. cbn [ts s_vs s_ls s_act s_orig fst snd]. rewrite ?t_getv, map_length. cbn [tv v_eprev v_enext v_bis]. rewrite !tl_v, !t_normalized by auto.
  set (d := (vnormalized (lv (v_bis (getv (s_vs x) vb))), vnormalized (lv (v_bis (getv (s_vs x) va))))).
  pose proof (t_vertex (length (s_vs x)) p (v_eprev (getv (s_vs x) va)) (v_enext (getv (s_vs x) vb)) (Some d) false) as E. cbn [option_map fst snd d] in E.
  rewrite E. clear E. fold d. set (nv := mk_vertex _ p _ _ _ _).
  change (map tv (s_vs x) ++ [with_lav (Some l) (tv nv)]) with (map tv (s_vs x) ++ map tv [with_lav (Some l) nv]). rewrite <- map_app.
  set (vs0 := s_vs x ++ [with_lav (Some l) nv]). rewrite ?t_getv. cbn [tv v_prev]. mv. rewrite ?t_getv. cbn [tv v_next]. mv. rewrite ?t_getv. cbn [tv v_prev]. mv. rewrite ?t_getv. cbn [tv v_next]. mv.
  match goal with |- context [invalidate (invalidate (SLAV (map tv ?a) ?b ?e (map toe ?g)) va) vb] => change (SLAV (map tv a) b e (map toe g)) with (ts (SLAV a b e g)) end.
  rewrite !t_invalidate. reflexivity.
Qed.

Definition t_out (p : @slav A * list (@subtree A) * list (@event A)) := (ts (fst (fst p)), map t_node (snd (fst p)), map tev (snd p)).

Lemma t_opt (o : option (@event A)) : opt_list (option_map tev o) = map tev (opt_list o).
Proof. destruct o; auto. Qed.

Lemma t_points vs ids : map (fun i => v_point (getv (map tv vs) i)) ids = map t (map (fun i => v_point (getv vs i)) ids).
Proof. rewrite map_map. apply map_ext. intros i. rewrite t_getv. auto. Qed.

Lemma t_edge_event x d ip va vb : handle_edge_event (ts x) d (t ip) va vb = res_map t_out (handle_edge_event x d ip va vb).
Proof.
  unfold handle_edge_event. cbv zeta. cbn [ts s_vs]. rewrite ?t_getv. cbn [tv v_lav v_prev v_next]. destruct (Nat.eqb _ _).
  - rewrite t_remove_lav. destruct (remove_lav x _) as [s1|]; cbn [res_map bind]; auto. destruct (of_option _ _) as [l|]; cbn [res_map bind]; auto. rewrite t_list.
    destruct (lav_list s1 l) as [ids|]; cbn [res_map bind]; auto. cbn [ts s_vs]. rewrite t_points. fold (ts s1). rewrite t_invalidate_all. reflexivity.
  - destruct (of_option _ _) as [l|]; cbn [res_map bind]; auto. fold (ts x). rewrite t_unify. destruct (unify x l va vb ip) as [s1 nv]. cbn [fst snd].
    change (s_ls (ts s1)) with (s_ls s1). set (b := (_ || _)%bool).
    assert (E : (if b then with_ls (set_at l (LAV nv (l_len (getl (s_ls s1) l))) (s_ls s1)) (ts s1) else ts s1) =
                ts (if b then with_ls (set_at l (LAV nv (l_len (getl (s_ls s1) l))) (s_ls s1)) s1 else s1)) by (destruct b; auto).
    rewrite E. clear E. set (s2 := if b then _ else s1). rewrite t_next_event. destruct (next_event s2 nv) as [ev|]; cbn [res_map bind]; auto.
    change (s_vs (ts s2)) with (map tv (s_vs s2)). rewrite ?t_getv, t_opt. reflexivity.
Qed.

Lemma t_split_here vs ip opp v : split_here (map tv vs) (t ip) (t_edge opp) v = split_here vs ip opp v.
Proof.
  unfold split_here. cbv zeta. rewrite ?t_getv. cbn [tv v_eprev v_enext v_prev v_next]. rewrite !te_norm, !te_p1. rewrite !t_veq by auto.
  destruct (if (veq (enorm opp) _ && _)%bool then _ else _) as [[x y]|]; auto. rewrite ?t_getv. cbn [tv v_bis v_point]. rewrite !tl_v, !t_sub, !t_normalized, !t_cross by auto. auto.
Qed.

Lemma t_find_split vs ip opp ids : find_split (map tv vs) (t ip) (t_edge opp) ids = find_split vs ip opp ids.
Proof. induction ids as [|v ids IH]; cbn [find_split]; auto. rewrite t_split_here, IH. auto. Qed.

Lemma t_find_split_lavs x ip opp ls : find_split_lavs (ts x) (t ip) (t_edge opp) ls = find_split_lavs x ip opp ls.
Proof.
  induction ls as [|l ls IH]; cbn [find_split_lavs]; auto. rewrite t_iter. destruct (lav_iter x l) as [ids e]. cbn [ts s_vs]. rewrite t_find_split.
  destruct (find_split _ _ _ _); auto. destruct e; auto.
Qed.

Definition t_set (p : @slav A * list nat * list (vec A)) := (ts (fst (fst p)), snd (fst p), map t (snd p)).

Lemma t_settle acc l : settle_lav (res_map t_set acc) l = res_map t_set (settle_lav acc l).
Proof.
  destruct acc as [[[x verts] snks]|]; auto. unfold settle_lav. cbn [res_map t_set bind fst snd]. cbn [ts s_ls]. destruct (_ <? _)%Z; auto. cbn [s_vs]. rewrite ?t_getv.
  fold (ts x). rewrite t_list. cbn [tv v_next]. destruct (lav_list x l) as [ids|]; cbn [res_map bind]; auto. rewrite t_invalidate_all. unfold t_set. cbn [fst snd].
  rewrite map_app. cbn [map ts s_vs]. rewrite ?t_getv. reflexivity.
Qed.

Lemma t_settle_all new : forall acc, fold_left settle_lav new (res_map t_set acc) = res_map t_set (fold_left settle_lav new acc).
Proof. induction new as [|l new IH]; intros acc; cbn [fold_left]; auto. rewrite t_settle. apply IH. Qed.

Lemma t_next_events x vs : next_events (ts x) vs = res_map (map tev) (next_events x vs).
Proof.
  induction vs as [|v vs IH]; cbn [next_events]; auto. rewrite t_next_event, IH. destruct (next_event x v) as [e|]; cbn [res_map bind]; auto.
  destruct (next_events x vs); cbn [res_map bind]; auto. rewrite map_app, t_opt. auto.
Qed.

Lemma t_split_event x d ip v opp : handle_split_event (ts x) d (t ip) v (t_edge opp) = res_map t_out (handle_split_event x d ip v opp).
Proof.
  unfold handle_split_event. cbv zeta. change (s_act (ts x)) with (s_act x). rewrite t_find_split_lavs. destruct (find_split_lavs x ip opp (s_act x)) as [[[a b]|]|]; cbn [res_map bind]; auto.
  change (s_vs (ts x)) with (map tv (s_vs x)). rewrite ?t_getv, map_length. set (vv := getv (s_vs x) v).
  change (v_eprev (tv vv)) with (t_edge (v_eprev vv)). change (v_enext (tv vv)) with (t_edge (v_enext vv)). change (v_lav (tv vv)) with (v_lav vv). change (v_point (tv vv)) with (t (v_point vv)).
  pose proof (t_vertex (length (s_vs x)) ip (v_eprev vv) opp None true) as E1. pose proof (t_vertex (S (length (s_vs x))) ip opp (v_enext vv) None true) as E2.
  cbn [option_map] in E1, E2. rewrite E1, E2. clear E1 E2. set (v1 := mk_vertex (length (s_vs x)) _ _ _ _ _). set (v2 := mk_vertex (S _) _ _ _ _ _).
  change (map tv (s_vs x) ++ [tv v1; tv v2]) with (map tv (s_vs x) ++ map tv [v1; v2]). rewrite <- map_app. set (vs0 := s_vs x ++ [v1; v2]).
  rewrite ?t_getv. change (v_prev (tv (getv vs0 v))) with (v_prev (getv vs0 v)).
  mv. rewrite ?t_getv. cbn [tv v_prev]. mv. rewrite ?t_getv. cbn [tv v_next]. mv. rewrite ?t_getv. cbn [tv v_next]. mv. rewrite ?t_getv. cbn [tv v_lav].
  match goal with |- context [with_vs (map tv ?a) (ts x)] => set (vs8 := a); change (with_vs (map tv vs8) (ts x)) with (ts (with_vs vs8 x)) end.
  rewrite t_remove_lav. destruct (remove_lav _ _) as [s2|]; cbn [res_map bind]; auto.
  set (bb := match v_lav vv with Some _ => _ | None => _ end).
  match goal with |- (_ <- ?l ;; _) = res_map _ (_ <- ?r ;; _) => assert (E : l = res_map (fun p => (ts (fst p), snd p)) r) end.
  { destruct bb.
    - rewrite t_remove_lav. destruct (remove_lav s2 _) as [s'|]; cbn [res_map bind]; auto. rewrite t_from_chain. destruct (from_chain s' _) as [[s'' l1]|]; cbn [res_map bind fst snd]; auto.
    - rewrite t_from_chain. destruct (from_chain s2 _) as [[s' l1]|]; cbn [res_map bind fst snd]; auto. rewrite t_from_chain.
      destruct (from_chain s' _) as [[s'' l2]|]; cbn [res_map bind fst snd]; auto. }
  rewrite E. clear E. match goal with |- (_ <- res_map _ ?r ;; _) = _ => destruct r as [[s3 new]|]; cbn [res_map bind fst snd]; auto end.
  change (Ok (ts s3, [], [t (v_point vv)])) with (res_map t_set (Ok (s3, [], [v_point vv]))). rewrite t_settle_all.
  destruct (fold_left settle_lav new _) as [[[s4 verts] snks]|]; cbn [res_map bind t_set fst snd]; auto. rewrite t_next_events.
  destruct (next_events s4 verts) as [evs|]; cbn [res_map bind]; auto. rewrite t_invalidate. reflexivity.
Qed.

Lemma t_dormer_event x dp vp dn vn de ipe va vb :
  handle_dormer_event (ts x) dp vp dn vn de (t ipe) va vb = res_map t_out (handle_dormer_event x dp vp dn vn de ipe va vb).
Proof.
  unfold handle_dormer_event. cbv zeta. change (s_vs (ts x)) with (map tv (s_vs x)). rewrite ?t_getv. cbn [tv v_lav v_prev v_next]. destruct (v_lav (getv (s_vs x) vp)) as [l|]; auto.
  cbn [with_ls s_vs ts s_ls]. rewrite ?t_getv. cbn [tv v_prev v_next]. mv. rewrite ?t_getv. cbn [tv v_next v_prev]. mv.
  match goal with |- context [with_vs (map tv ?a) ?w] => match goal with |- context [with_ls ?b x] => change (with_vs (map tv a) w) with (ts (with_vs a (with_ls b x))) end end.
  rewrite t_from_chain. destruct (from_chain _ _) as [[s2 l2]|]; cbn [res_map bind fst snd]; auto. rewrite t_remove_lav. destruct (remove_lav s2 _) as [s3|]; cbn [res_map bind]; auto.
  change (with_act (s_act (ts s3) ++ [l2]) (ts s3)) with (ts (with_act (s_act s3 ++ [l2]) s3)). set (s4 := with_act _ s3). change (s_vs (ts s4)) with (map tv (s_vs s4)).
  rewrite ?t_getv. cbn [tv v_bis v_point]. rewrite t_intersect by auto. destruct (line_intersect _ _) as [p|]; cbn [option_map]; auto. rewrite t_invalidate_all. reflexivity.
Qed.

(** ** the queue and the loop *)
Lemma t_dist e : ev_distance (tev e) = ev_distance e.
Proof. destruct e; auto. Qed.

Lemma t_lt a b : ev_lt (tev a) (tev b) = ev_lt a b.
Proof. unfold ev_lt. rewrite !t_dist. auto. Qed.

Lemma t_put q o : put (map tev q) (option_map tev o) = map tev (put q o).
Proof. destruct o; auto. apply heappush_map. apply t_lt. Qed.

Lemma t_put_all es : forall q, put_all (map tev q) (map tev es) = map tev (put_all q es).
Proof. unfold put_all. induction es as [|e es IH]; intros q; cbn [map fold_left]; auto. rewrite (heappush_map t_lt). apply IH. Qed.

Lemma t_pop_equal item : forall fuel q, pop_equal fuel (tev item) (map tev q) = (map tev (fst (pop_equal fuel item q)), map tev (snd (pop_equal fuel item q))).
Proof.
  induction fuel as [|f IH]; intros q; auto. destruct q as [|e q]; auto. cbn [pop_equal map]. unfold near_distance. rewrite !t_dist. destruct (nltb _ _); auto.
  change (tev e :: map tev q) with (map tev (e :: q)). rewrite (heappop_map t_lt). destruct (heappop ev_lt (e :: q)) as [[y q']|]; cbn [option_map fst snd]; auto.
  rewrite IH. destruct (pop_equal f item q'). auto.
Qed.

Lemma t_get_all q : getAllEqualDistance (map tev q) = option_map (fun p => (map tev (fst p), map tev (snd p))) (getAllEqualDistance q).
Proof.
  unfold getAllEqualDistance. rewrite (heappop_map t_lt). destruct (heappop ev_lt q) as [[item q']|]; cbn [option_map fst snd]; auto. rewrite map_length, t_pop_equal.
  destruct (pop_equal _ item q'). auto.
Qed.

Lemma t_handle x e : handle_event (ts x) (tev e) = res_map t_out (handle_event x e).
Proof.
  assert (V : forall v, is_valid (ts x) v = is_valid x v) by (intros v; unfold is_valid; cbn [ts s_vs]; rewrite t_getv; auto).
  destruct e; cbn [tev handle_event]; rewrite !V; destruct (negb _); cbn [orb]; auto; try (destruct (negb _); auto);
    [apply t_edge_event|apply t_split_event|apply t_dormer_event].
Qed.

Lemma t_batch evs : forall st, handle_batch (tlo st) (map tev evs) = res_map tlo (handle_batch st evs).
Proof.
  induction evs as [|e evs IH]; intros st; cbn [map handle_batch]; auto. change (lo_slav (tlo st)) with (ts (lo_slav st)). rewrite t_handle.
  destruct (handle_event (lo_slav st) e) as [[[s' arcs] new]|]; cbn [res_map bind t_out fst snd]; auto. rewrite <- IH. unfold tlo. cbn [lo_slav lo_queue lo_out]. rewrite t_put_all, map_app. auto.
Qed.

Lemma t_loop fuel : forall st, event_loop fuel (tlo st) = res_map tlo (event_loop fuel st).
Proof.
  induction fuel as [|f IH]; intros st; cbn [event_loop]; auto. change (lo_queue (tlo st)) with (map tev (lo_queue st)). change (s_act (lo_slav (tlo st))) with (s_act (lo_slav st)).
  change (lo_slav (tlo st)) with (ts (lo_slav st)). change (lo_out (tlo st)) with (map t_node (lo_out st)). destruct (lo_queue st) as [|e q] eqn:E; cbn [map]; auto.
  destruct (s_act (lo_slav st)) as [|l act]; auto. change (tev e :: map tev q) with (map tev (e :: q)). rewrite t_get_all.
  destruct (getAllEqualDistance (e :: q)) as [[batch q']|]; cbn [option_map fst snd]; auto.
  change (Loop (ts (lo_slav st)) (map tev q') (map t_node (lo_out st))) with (tlo (Loop (lo_slav st) q' (lo_out st))).
  rewrite t_batch. destruct (handle_batch _ batch) as [st'|]; cbn [res_map bind]; auto.
Qed.
(** ** patterns *)
Lemma t_edge_len e : edge_length_squared (t_edge e) = edge_length_squared e.
Proof. unfold edge_length_squared. cbn [t_edge ep1 ep2]. rewrite t_sub, t_len2 by auto. auto. Qed.

Lemma t_turns k : turn_sequence (map t_edge k) = turn_sequence k.
Proof.
  unfold turn_sequence. rewrite circ_map. destruct (circ_prev_next k) as [pn|]; cbn [res_map bind]; auto. rewrite map_map. f_equal. apply map_ext. intros [a b]. cbn [fst snd].
  change (enorm (t_edge a)) with (t (enorm a)). change (enorm (t_edge b)) with (t (enorm b)). rewrite t_cross by auto. auto.
Qed.

Lemma t_dormer_check k sq last oi : dormer_check (map t_edge k) sq last oi = dormer_check k sq last oi.
Proof.
  unfold dormer_check. cbv zeta.
  assert (E : forall i, of_option IndexError (nth_error (map t_edge k) i) = res_map t_edge (of_option IndexError (nth_error k i))).
  { intros i. rewrite nth_error_map. destruct (nth_error k i); auto. }
  rewrite !E. destruct (of_option IndexError (nth_error k (nth 0 oi 0%nat))) as [e0|]; cbn [res_map bind]; auto.
  destruct (of_option IndexError (nth_error k (nth 1 oi 0%nat))) as [e1|]; cbn [res_map bind]; auto.
  destruct (of_option IndexError (nth_error k (nth 2 oi 0%nat))) as [e2|]; cbn [res_map bind]; auto.
  rewrite !t_edge_len. destruct (pdiv _ _); cbn [bind]; auto.
  destruct (of_option IndexError (nth_error k (_ mod _))) as [e3|]; cbn [res_map bind]; auto.
  destruct (of_option IndexError (nth_error k (nth 3 oi 0%nat))) as [e4|]; cbn [res_map bind]; auto.
  rewrite !t_edge_len. change (ep1 (t_edge e1)) with (t (ep1 e1)). change (ep2 (t_edge e1)) with (t (ep2 e1)). rewrite t_sub, t_len by auto. auto.
Qed.

Lemma t_dormers cs : detectDormers (map (map t_edge) cs) = detectDormers cs.
Proof.
  unfold detectDormers. rewrite get_map. destruct (py_get cs 0) as [k|]; cbn [res_map bind]; auto. rewrite t_turns, map_length.
  destruct (turn_sequence k) as [sq|]; cbn [bind]; auto. cbv zeta. destruct (Nat.eqb _ _); auto.
  rewrite (@mapM_ext _ _ (dormer_check (map t_edge k) sq (last (rllr_matches 0 (sq ++ sq)) 0%nat)) (dormer_check k sq (last (rllr_matches 0 (sq ++ sq)) 0%nat))); auto.
  intros x _. apply t_dormer_check.
Qed.

Lemma t_dormer_one x ini dm : dormer_event (ts x) (map (option_map tev) ini) dm = res_map (option_map tev) (dormer_event x ini dm).
Proof.
  unfold dormer_event. cbv zeta. rewrite enumerate_map.
  rewrite (@filter_map_f _ _ (fun p : nat * option (@event A) => (fst p, option_map tev (snd p))) _ (fun ie => existsb (Nat.eqb (fst ie)) (fst dm))) by auto.
  rewrite map_map. cbn [snd fst]. rewrite <- (map_map snd (option_map tev)). set (evs := map snd (filter _ (enumerate ini))).
  assert (E : forallb (fun o => match o with Some _ => true | None => false end) (map (option_map tev) evs) = forallb (fun o => match o with Some _ => true | None => false end) evs).
  { induction evs as [|[e|] l IH]; cbn [map option_map forallb]; auto. }
  rewrite E. destruct (forallb _ evs); auto.
  assert (G : forall i, of_option IndexError (nth_error (map (option_map tev) evs) i) = res_map (option_map tev) (of_option IndexError (nth_error evs i))).
  { intros i. rewrite nth_error_map. destruct (nth_error evs i); auto. }
  rewrite !G. destruct (of_option _ (nth_error evs 0)) as [[[]|]|]; cbn [res_map bind option_map]; auto.
  destruct (of_option _ (nth_error evs 1)) as [[[]|]|]; cbn [res_map bind option_map]; auto.
  destruct (of_option _ (nth_error evs 3)) as [[[]|]|]; cbn [res_map bind option_map]; auto.
Qed.

Lemma t_process x dms ini : processDormers (ts x) dms (map (option_map tev) ini) = res_map (map (option_map tev)) (processDormers x dms ini).
Proof.
  unfold processDormers.
  rewrite (@mapM_res_map _ _ (fun dm => e <- dormer_event x ini dm;; Ok (e, fst dm)) _ (fun p => (option_map tev (fst p), snd p))).
  2:{ intros dm. rewrite t_dormer_one. destruct (dormer_event x ini dm); auto. }
  destruct (mapM _ dms) as [des|]; cbn [res_map bind]; auto. f_equal.
  rewrite (@filter_map_f _ _ _ _ (fun p : option (@event A) * list nat => match fst p with Some _ => true | None => false end)) by (intros [[|] ?]; auto).
  rewrite map_app. f_equal.
  - rewrite flat_map_concat_map, map_map. cbn [snd]. rewrite <- flat_map_concat_map. rewrite enumerate_map.
    rewrite (@filter_map_f _ _ (fun p : nat * option (@event A) => (fst p, option_map tev (snd p))) _
      (fun ie => negb (existsb (Nat.eqb (fst ie)) (flat_map snd (filter (fun p => match fst p with Some _ => true | None => false end) des))))) by auto.
    rewrite !map_map. auto.
  - rewrite !map_map. auto.
Qed.

Lemma t_initial x : initial_events (ts x) = res_map (map (option_map tev)) (initial_events x).
Proof.
  unfold initial_events. rewrite t_chain. change (s_act (ts x)) with (s_act x). destruct (chain_list x (s_act x)) as [ids|]; cbn [res_map bind]; auto.
  apply mapM_res_map. intros i. apply t_next_event; auto.
Qed.

Lemma t_start cs : skeleton_start (map (map t_edge) cs) = res_map tlo (skeleton_start cs).
Proof.
  unfold skeleton_start. rewrite t_init by auto. destruct (init_slav cs) as [x|]; cbn [res_map bind]; auto. rewrite t_dormers.
  destruct (detectDormers cs) as [dms|]; cbn [bind res_map]; auto. rewrite t_initial. destruct (initial_events x) as [evs|]; cbn [res_map bind]; auto.
  assert (E : (match dms with [] => Ok (map (option_map tev) evs) | _ => processDormers (ts x) dms (map (option_map tev) evs) end) =
    res_map (map (option_map tev)) (match dms with [] => Ok evs | _ => processDormers x dms evs end)).
  { destruct dms; auto. apply t_process. }
  rewrite E. clear E. destruct (match dms with [] => _ | _ => _ end) as [evs'|]; cbn [res_map bind]; auto. f_equal. unfold tlo. cbn [lo_slav lo_queue lo_out map]. f_equal.
  change (@nil (@event A)) with (map tev []) at 1. generalize (@nil (@event A)). induction evs' as [|o l IH]; intros q; cbn [map fold_left]; auto. rewrite t_put. apply IH.
Qed.

Theorem t_raw fuel cs : raw_skeleton fuel (map (map t_edge) cs) = res_map (map t_node) (raw_skeleton fuel cs).
Proof.
  unfold raw_skeleton. rewrite t_start. destruct (skeleton_start cs) as [st|]; cbn [res_map bind]; auto. rewrite t_loop by auto.
  destruct (event_loop fuel st); cbn [res_map bind]; auto.
Qed.
End Sym.
