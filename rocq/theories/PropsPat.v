(** * PropsPat: properties C42, C43 and C44, apses and dormers *)

From Coq Require Import Sorted Permutation Reals.
From Verif Require Import Py Arith ArithR ArithF Euclid Lav Cluster PatSpec PatProofs PatEvents PatCases.
Set Implicit Arguments.
Unset Strict Implicit.
Local Open Scope nat_scope.

(** ** C42 *)
Theorem C42_apses :
  forall (A : arith) (c : list (@edge2 A)), c <> [] ->
  exists rs, StronglySorted (fun a b => fst a < fst b) rs /\
    (forall s e, In (s, e) rs <-> smooth_run c s e) /\
    (rs = [] <-> (forall i, smooth c i) \/ (forall i, exists k, k < 6 /\ ~ smooth c (i + k))) /\
    (rs = [] -> detectApses c = Ok None) /\
    (rs <> [] ->
      match detectApses c with
      | Ok None => False
      | Ok (Some cs) => Forall2 (fun r ctr => exists pts R, run_points c (fst r) (snd r) pts /\ fitCircle3Points pts = Ok (ctr, R)) rs cs
      | Err x => exists r pts, In r rs /\ run_points c (fst r) (snd r) pts /\ fitCircle3Points pts = Err x
      end).
Proof. exact @detectApses_spec. Qed.
Print Assumptions C42_apses.

Theorem C42_apse_circles :
  forall c : list (@edge2 RA), c <> [] ->
  (forall cs, detectApses c = Ok (Some cs) -> exists rs, StronglySorted (fun a b => fst a < fst b) rs /\
     (forall s e, In (s, e) rs <-> smooth_run c s e) /\ Forall2 (fun r ctr => circle_of c (fst r) (snd r) ctr) rs cs) /\
  (forall x, detectApses c = Err x -> x = ZeroDivisionError /\ exists s e, smooth_run c s e /\ flat_run c s e).
Proof. exact apse_circles. Qed.
Print Assumptions C42_apse_circles.

(** a run that goes on beyond the first vertex of the contour gives two centers *)
Theorem C42_one_center_per_run_refuted :
  exists c : list (@edge2 F64), smooth_run c 10 24 /\ smooth_run c 0 8 /\ smooth c (0 + length c - 1) /\
    match detectApses c with Ok (Some cs) => length cs = 2 | _ => False end.
Proof. exact hall_two_centers. Qed.
Print Assumptions C42_one_center_per_run_refuted.

(** ** C43 *)
Theorem C43_reported_dormers :
  forall (A : arith) (c : list (@edge2 A)) rest ds, c <> [] -> detectDormers (c :: rest) = Ok ds ->
  Forall (fun d => exists s p, s < length c /\ dormer_at c s /\ isolated c s /\ last_dormer c p /\ sizes_ok c p s /\
            fst d = dormer_vertices c s /\ NoDup (fst d) /\ base_width c s (snd d)) ds /\
  NoDup (concat (map fst ds)) /\
  (ds <> [] -> exists i, i < length c /\ ~ In i (concat (map fst ds))).
Proof. exact @dormers_sound. Qed.
Print Assumptions C43_reported_dormers.

Theorem C43_all_dormers :
  forall (A : arith) (c : list (@edge2 A)) rest, c <> [] ->
  exists ss, StronglySorted lt ss /\ (forall s, In s ss <-> s < length c /\ dormer_at c s /\ isolated c s) /\
    (covered c ss -> detectDormers (c :: rest) = Ok []) /\
    (~ covered c ss ->
      match detectDormers (c :: rest) with
      | Ok ds => exists ts, StronglySorted lt ts /\
          (forall s, In s ts <-> In s ss /\ exists p, last_dormer c p /\ sizes_ok c p s) /\
          Forall2 (fun s d => fst d = dormer_vertices c s /\ base_width c s (snd d)) ts ds
      | Err x => exists s e0 e2, In s ss /\ edge_at c s = Some e0 /\ edge_at c (s + 2) = Some e2 /\
          pdiv (nabs (nsub (edge_length_squared e0) (edge_length_squared e2)))
               (nadd (edge_length_squared e0) (edge_length_squared e2)) = Err x
      end).
Proof. exact @detectDormers_spec. Qed.
Print Assumptions C43_all_dormers.

(** a dormer is judged by the neighbours of another one *)
Theorem C43_own_neighbours_refuted :
  exists (c : list (@edge2 F64)) ds s w, detectDormers [c] = Ok ds /\ In (dormer_vertices c s, w) ds /\ dormer_at c s /\
    left_turn c (s + length c - 1) /\ ~ sizes_ok c s s.
Proof. exact two_own_neighbours. Qed.
Print Assumptions C43_own_neighbours_refuted.

(** ** C44 *)
Theorem C44_dormer_processing :
  forall (A : arith) (s : @slav A) dms evs,
  (forall dm, In dm dms -> NoDup (fst dm) /\ length (fst dm) = 4 /\ forall i, In i (fst dm) -> i < length evs) ->
  exists idx es kept, made evs dms idx es /\ without idx evs kept /\
    processDormers s dms evs = Ok (kept ++ map Some es).
Proof. exact @processDormers_spec. Qed.
Print Assumptions C44_dormer_processing.

(** at the start of skeletonize nothing but the events of the accepted dormers' vertices is missing in the queue *)
Theorem C44_events_at_start :
  forall (A : arith) (c : list (@edge2 A)) rest st0, skeleton_start (c :: rest) = Ok st0 ->
  exists evs dms idx es kept,
    detectDormers (c :: rest) = Ok dms /\
    length evs = length (concat (c :: rest)) /\
    (forall i o, nth_error evs i = Some o -> next_event (lo_slav st0) i = Ok o) /\
    made evs dms idx es /\ without idx evs kept /\
    Permutation (lo_queue st0) (somes kept ++ es).
Proof. exact @start_events. Qed.
Print Assumptions C44_events_at_start.

(** the dormer events in the queue come from dormers that do not contain the first vertex behind the last one *)
Theorem C44_dormer_events_at_start :
  forall (c : list (@edge2 RA)) rest st0 d dp vp dn vn de ipe va vb,
  skeleton_start (c :: rest) = Ok st0 -> In (DormerEv d dp vp dn vn de ipe va vb) (lo_queue st0) ->
  exists s w, s + 3 < length c /\ dormer_at c s /\ isolated c s /\ base_width c s w /\ d = ndiv w twoN /\
    vp = s /\ vn = s + 3 /\ (va = s /\ vb = s + 1 \/ va = s + 1 /\ vb = s + 2).
Proof. exact start_dormer_events. Qed.
Print Assumptions C44_dormer_events_at_start.

(** hence which vertex comes first matters *)
Theorem C44_first_vertex_matters_refuted :
  exists c c' : list (@edge2 F64),
    map (@ep1 F64) c' = skipn 2 (map (@ep1 F64) c) ++ firstn 2 (map (@ep1 F64) c) /\
    match detectDormers [c], detectDormers [c'], skeleton_start [c], skeleton_start [c'] with
    | Ok ds, Ok ds', Ok st, Ok st' => length ds = 1 /\ length ds' = 1 /\
        length (filter is_dormer (lo_queue st)) = 1 /\ length (filter is_dormer (lo_queue st')) = 0
    | _, _, _, _ => False
    end.
Proof. exact one_turned_differs. Qed.
Print Assumptions C44_first_vertex_matters_refuted.

(** ** concrete cases: half a circle on a rectangle; two dormers; one dormer *)
Example ex_hall : smooth_run hall 10 24.
Proof. exact hall_run. Qed.

Example ex_two : two <> [] /\ match detectDormers [two] with Ok ds => map fst ds = [[1; 2; 3; 4]; [5; 6; 7; 8]] | Err _ => False end.
Proof. split; [discriminate|exact two_reported]. Qed.

Example ex_one :
  match detectDormers [one], skeleton_start [one] with
  | Ok ds, Ok st => map fst ds = [[1; 2; 3; 4]] /\ length (filter is_dormer (lo_queue st)) = 1 /\ length (lo_queue st) = 5
  | _, _ => False
  end.
Proof. exact one_events. Qed.
