(** * PatSpec: apses and dormers (specification side) *)

From Coq Require Import Sorted.
From Coq Require Import Permutation.
From Verif Require Import Py Arith Euclid Lav.
Set Implicit Arguments.
Unset Strict Implicit.

Section Pat.
Context {A : arith}.
Notation edge2 := (@edge2 A).
Implicit Type c : list edge2.

(** the edge with the number i, cyclically; edge i starts at vertex i *)
Definition edge_at c (i : nat) : option edge2 := nth_error c (i mod length c).

(** the turn at vertex i: cross product of the directions of the edges i-1 and i *)
Definition turn_at c (i : nat) (x : num A) : Prop :=
  exists e1 e2, edge_at c (i + length c - 1) = Some e1 /\ edge_at c i = Some e2 /\ x = vcross (enorm e1) (enorm e2).

Definition smooth c i : Prop := exists x, turn_at c i x /\ nltb (nabs x) (lit 1 2) = true.
Definition left_turn c i : Prop := exists x, turn_at c i x /\ nltb (lit 99 100) x = true.
Definition right_turn c i : Prop := exists x, turn_at c i x /\ nltb (lit 99 100) x = false /\ nltb x (lit (-99) 100) = true.

(** from vertex s on, up to but not including vertex e, all turns are smooth; the run cannot be extended to the right,
    nor to the left unless it starts with the first vertex of the contour *)
Definition smooth_run c s e : Prop :=
  s < length c /\ s + 6 <= e /\ (forall i, s <= i < e -> smooth c i) /\ ~ smooth c e /\ (s = 0 \/ ~ smooth c (s - 1)).

(** the vertices of a run *)
Definition run_points c s e (pts : list (vec A)) : Prop :=
  length pts = e - s /\ forall k p, nth_error pts k = Some p -> exists w, edge_at c (s + k) = Some w /\ p = ep1 w.

(** right, left, left, right from vertex s on *)
Definition dormer_at c s : Prop := right_turn c s /\ left_turn c (s + 1) /\ left_turn c (s + 2) /\ right_turn c (s + 3).

(** no other dormer begins where this one ends, or ends where this one begins *)
Definition isolated c s : Prop := ~ dormer_at c (s + 3) /\ ~ dormer_at c (s + 3 * length c - 3).

Definition dormer_vertices c s : list nat := map (fun k => (s + k) mod length c) [0; 1; 2; 3].

(** the last position in two rounds along the contour at which a dormer begins *)
Definition last_dormer c p : Prop :=
  p + 3 < 2 * length c /\ dormer_at c p /\ forall q, p < q -> q + 3 < 2 * length c -> ~ dormer_at c q.

(** the conditions on lengths: base below 10, sides of similar length, edge before and edge after long enough; what
    is long enough depends on the turn before and the turn after the last dormer of the contour *)
Definition factor c i (f : num A) : Prop := (left_turn c i -> f = lit 3 2) /\ (~ left_turn c i -> f = lit 1 8).
Definition sizes_ok c p s : Prop :=
  exists before side1 base side2 after contrast fl fr,
    edge_at c (s + length c - 1) = Some before /\ edge_at c s = Some side1 /\ edge_at c (s + 1) = Some base /\
    edge_at c (s + 2) = Some side2 /\ edge_at c (s + 3) = Some after /\
    let l2 := @edge_length_squared A in
    pdiv (nabs (nsub (l2 side1) (l2 side2))) (nadd (l2 side1) (l2 side2)) = Ok contrast /\
    factor c (p + length c - 1) fl /\ factor c (p + 4) fr /\
    nltb (l2 base) (lit 100 1) = true /\ nltb contrast (lit 35 100) = true /\
    nleb (nmul (l2 base) fl) (l2 before) = true /\ nleb (nmul (l2 base) fr) (l2 after) = true.
Definition base_width c s (w : num A) : Prop :=
  exists base, edge_at c (s + 1) = Some base /\ w = vlen (vsub (ep1 base) (ep2 base)).

(** the dormers of the list ss cover the whole contour *)
Definition covered c (ss : list nat) : Prop :=
  forall i, i < length c -> exists s, In s ss /\ In i (dormer_vertices c s).

(** ** events *)

(** l without the entries at the positions idx *)
Definition without T (idx : list nat) (l kept : list T) : Prop :=
  exists ps, StronglySorted lt ps /\ (forall i, In i ps <-> i < length l /\ ~ In i idx) /\
    Forall2 (fun i x => nth_error l i = Some x) ps kept.

(** the dormer event of a dormer: in the order of their positions its four events are a split event, an edge event,
    any event and a split event *)
Definition makes (evs : list (option (@event A))) (dm : list nat * num A) (e : @event A) : Prop :=
  exists i0 i1 i2 i3 dp ipp vp op de ipe va vb x dn ipn vn on,
    i0 < i1 /\ i1 < i2 /\ i2 < i3 /\ Permutation (fst dm) [i0; i1; i2; i3] /\
    nth_error evs i0 = Some (Some (SplitEv dp ipp vp op)) /\ nth_error evs i1 = Some (Some (EdgeEv de ipe va vb)) /\
    nth_error evs i2 = Some (Some x) /\ nth_error evs i3 = Some (Some (SplitEv dn ipn vn on)) /\
    e = DormerEv (ndiv (snd dm) twoN) dp vp dn vn de ipe va vb.

(** the positions that are used up and the dormer events made by a list of dormers, in order *)
Inductive made (evs : list (option (@event A))) : list (list nat * num A) -> list nat -> list (@event A) -> Prop :=
| made_nil : made evs [] [] []
| made_yes dm dms idx es e : makes evs dm e -> made evs dms idx es -> made evs (dm :: dms) (fst dm ++ idx) (e :: es)
| made_no dm dms idx es : (forall e, ~ makes evs dm e) -> made evs dms idx es -> made evs (dm :: dms) idx es.
End Pat.
