(** * StepSpec: what one event does to the wavefront (specification side) *)

From Coq Require Import Permutation.
From Verif Require Import Py Arith Euclid Lav LavSpec LoopSpec WaveSpec.
Set Implicit Arguments.
Local Open Scope nat_scope.

Section Step.
Context {A : arith}.
Implicit Type s : @slav A.
Notation vec := (vec A).
Notation edge2 := (@edge2 A).
Notation event := (@event A).
Notation slav := (@slav A).

(** The rings F, lists of vertex numbers, make up the wavefront.  A ring may be written down starting
    at any of its vertices, and the rings in any order. *)
Definition shows s (F : list (list nat)) : Prop :=
  exists R, intact s R /\ Permutation (map R (s_act s)) F.

(** The same without the demand that a ring has three or more vertices and that neighbours share an edge, which a dormer
    event does not keep up. *)
Definition woven s (F : list (list nat)) : Prop :=
  exists R,
  NoDup (s_act s) /\
  (forall l, In l (s_act s) ->
     ring (fun i => v_next (getv (s_vs s) i)) (fun i => v_prev (getv (s_vs s) i)) (R l) /\
     l < length (s_ls s) /\
     In (l_head (getl (s_ls s) l)) (R l) /\
     l_len (getl (s_ls s) l) = Z.of_nat (length (R l)) /\
     (forall i, In i (R l) -> i < length (s_vs s) /\
        v_valid (getv (s_vs s) i) = true /\ v_lav (getv (s_vs s) i) = Some l)) /\
  (forall i, i < length (s_vs s) -> v_valid (getv (s_vs s) i) = true -> exists l, In l (s_act s) /\ In i (R l)) /\
  Permutation (map R (s_act s)) F.

Definition spot s (i : nat) : vec := v_point (getv (s_vs s) i).

(** vertex i stands at p between the edges e and e', and moves along the sum of the reversed
    direction of e and the direction of e', or against it if it is reflex *)
Definition corner_at s (i : nat) (p : vec) (e e' : edge2) (reflex : bool) : Prop :=
  let v := getv (s_vs s) i in
  v_valid v = true /\ v_point v = p /\ v_eprev v = e /\ v_enext v = e' /\ v_reflex v = reflex /\
  v_bis v = Ray2 p (vscale (vadd (vscale (enorm e) (lit (-1) 1)) (enorm e')) (if reflex then lit (-1) 1 else lit 1 1)).

(** no vertex that was there before has moved, changed its edges or its bisector *)
Definition keeps s s' : Prop :=
  length (s_vs s) <= length (s_vs s') /\ s_orig s' = s_orig s /\
  forall i, i < length (s_vs s) ->
    let v := getv (s_vs s) i in let v' := getv (s_vs s') i in
    v_point v' = v_point v /\ v_eprev v' = v_eprev v /\ v_enext v' = v_enext v /\
    v_reflex v' = v_reflex v /\ v_bis v' = v_bis v.

(** p lies between the bisectors of the neighbours y and x *)
Definition facing s (p : vec) (y x : nat) : bool :=
  let toward i := vcross (vnormalized (lv (v_bis (getv (s_vs s) i)))) (vnormalized (vsub p (spot s i))) in
  nleb (toward y) EPSILON && ngeb (toward x) (nneg EPSILON).

Definition recognised (opp e : edge2) : bool := veq (enorm opp) (enorm e) && veq (ep1 opp) (ep1 e).

Definition maybe {X} (o : option X) : list X := match o with Some x => [x] | None => [] end.

(** the corner that two unified vertices a and b leave behind turns to the right *)
Definition turns_right s (a b : nat) : bool :=
  ngtb (vcross (vnormalized (lv (v_bis (getv (s_vs s) b)))) (vnormalized (lv (v_bis (getv (s_vs s) a))))) zeroN.

(** a ring that is too short to go on, and the vertex of it other than its first *)
Definition big (r : list nat) : bool := 3 <=? length r.
Definition left_over (r : list nat) : list nat := if big r then [] else firstn 1 (tl r).

(** [effect s F e s' F' arcs new]: event e turns the wavefront F of s into the wavefront F' of s'; it
    outputs arcs and schedules new. *)
Inductive effect s (F : list (list nat)) : event -> slav -> list (list nat) -> list (@subtree A) -> list event -> Prop :=
(* a vertex of the event is gone *)
| effect_late_edge d ip a b :
    is_valid s a = false \/ is_valid s b = false -> effect s F (EdgeEv d ip a b) s F [] []
| effect_late_split d ip v opp :
    is_valid s v = false -> effect s F (SplitEv d ip v opp) s F [] []
(* a split event that meets its opposite edge nowhere *)
| effect_miss d ip v opp :
    is_valid s v = true ->
    (forall x, is_valid s x = true -> recognised opp (v_eprev (getv (s_vs s) x)) = true ->
       facing s ip (v_prev (getv (s_vs s) x)) x = false) ->
    effect s F (SplitEv d ip v opp) s F [] []
(* the last three vertices of a ring meet *)
| effect_peak d ip a b c G s' snks :
    F = [a; b; c] :: G ->
    Permutation snks [spot s a; spot s b; spot s c] ->
    effect s F (EdgeEv d ip a b) s' G [Subtree ip d snks] []
(* two neighbours meet *)
| effect_meet d ip a b rest G n s' o :
    F = (a :: b :: rest) :: G -> 2 <= length rest ->
    corner_at s' n ip (v_eprev (getv (s_vs s) a)) (v_enext (getv (s_vs s) b)) (turns_right s a b) ->
    next_event s' n = Ok o ->
    effect s F (EdgeEv d ip a b) s' ((n :: rest) :: G) [Subtree ip d [spot s a; spot s b]] (maybe o)
(* a vertex hits an edge of its own ring, between the neighbours y and x *)
| effect_cut d ip v opp p y x q G n1 n2 s' new1 new2 :
    F = (v :: p ++ y :: x :: q) :: G ->
    v_enext (getv (s_vs s) y) = opp -> v_eprev (getv (s_vs s) x) = opp -> facing s ip y x = true ->
    corner_at s' n1 ip (v_eprev (getv (s_vs s) v)) opp false \/ q = [] ->
    corner_at s' n2 ip opp (v_enext (getv (s_vs s) v)) false \/ p = [] ->
    (if big (n1 :: x :: q) then exists o, next_event s' n1 = Ok o /\ new1 = maybe o else new1 = []) ->
    (if big (n2 :: p ++ [y]) then exists o, next_event s' n2 = Ok o /\ new2 = maybe o else new2 = []) ->
    effect s F (SplitEv d ip v opp) s' (filter big [n1 :: x :: q; n2 :: p ++ [y]] ++ G)
      [Subtree ip d (map (spot s) (v :: left_over (n1 :: x :: q) ++ left_over (n2 :: p ++ [y])))] (new1 ++ new2)
(* a vertex hits an edge of another ring, between the neighbours y and x; only the first of the two
   new vertices gets a next event *)
| effect_join d ip v opp p y x q G n1 n2 s' o :
    F = (v :: p) :: (x :: q ++ [y]) :: G ->
    v_enext (getv (s_vs s) y) = opp -> v_eprev (getv (s_vs s) x) = opp -> facing s ip y x = true ->
    corner_at s' n1 ip (v_eprev (getv (s_vs s) v)) opp false ->
    corner_at s' n2 ip opp (v_enext (getv (s_vs s) v)) false ->
    next_event s' n1 = Ok o ->
    effect s F (SplitEv d ip v opp) s' ((n1 :: x :: q ++ y :: n2 :: p) :: G) [Subtree ip d [spot s v]] (maybe o).

End Step.
