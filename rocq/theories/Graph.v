(** * Graph: model of /repo/bpypolyskel/poly2FacesGraph.py *)

From Verif Require Import Py Arith PySort.
Set Implicit Arguments.

(** ** angles *)
Section Angles.
Context {A : arith}.
Notation num := (num A).
Notation vec3 := (vec3 A).

(** poly2FacesGraph.py:10-15 [pseudoangle]; raises for a zero difference vector *)
Definition pseudoangle (d : vec3) : res num :=
  p <- pdiv (wx d) (nadd (nabs (wx d)) (nabs (wy d))) ;;
  if nltb (wy d) zeroN then Ok (nadd (lit 3 1) p) else Ok (nsub oneN p).

(** poly2FacesGraph.py:17-23 [compare_angles] *)
Definition compare_angles (vList : list vec3) (p1 p2 center : Z) : res Z :=
  v1 <- py_get vList p1 ;;
  c1 <- py_get vList center ;;
  a1 <- pseudoangle (w_sub v1 c1) ;;
  v2 <- py_get vList p2 ;;
  a2 <- pseudoangle (w_sub v2 c1) ;;
  Ok (if nltb a1 a2 then 1%Z else (-1)%Z).

(** cmp_to_key: K(a) < K(b) iff cmp(a, b) < 0 *)
Definition angle_lt (vList : list vec3) (center a b : Z) : res bool :=
  c <- compare_angles vList a b center ;; Ok (c <? 0)%Z.
End Angles.

(** ** the graph *)

(** A Python dict from vertices to lists, in insertion order. *)
Definition gdict := list (Z * list Z).
Definition dart := (Z * Z)%type.

Definition dart_eqb (a b : dart) : bool := (fst a =? fst b)%Z && (snd a =? snd b)%Z.

Fixpoint dict_find (g : gdict) (v : Z) : option (list Z) :=
  match g with
  | [] => None
  | (k, l) :: t => if (k =? v)%Z then Some l else dict_find t v
  end.

(** [g_dict[v]]; for the embedding (a defaultdict(list)) a missing key reads as [] *)
Definition neighbours (g : gdict) (v : Z) : list Z :=
  match dict_find g v with Some l => l | None => [] end.

(** 29-32 [add_vertex] *)
Definition add_vertex (g : gdict) (v : Z) : gdict :=
  match dict_find g v with Some _ => g | None => g ++ [(v, [])] end.

Fixpoint append_to (g : gdict) (v w : Z) : gdict :=
  match g with
  | [] => []
  | (k, l) :: t => if (k =? v)%Z then (k, l ++ [w]) :: t else (k, l) :: append_to t v w
  end.

(** 34-44 [add_edge].  [edge.pop()] on a two-element set takes either element
    first: [swap_first] stands for that choice. *)
Definition add_edge (swap_first : Z -> Z -> bool) (g : gdict) (e : dart) : gdict :=
  let (a, b) := e in
  if (a =? b)%Z then g
  else
    let (v1, v2) := if swap_first a b then (b, a) else (a, b) in
    append_to (append_to (add_vertex (add_vertex g v1) v2) v1 v2) v2 v1.

(** 46-53 [edges].  [{neighbour, vertex} not in edges] compares a set with
    tuples, which is never equal: every adjacency entry is appended. *)
Definition edges (g : gdict) : list dart :=
  flat_map (fun kl => map (fun n => (fst kl, n)) (snd kl)) g.

(** 55-67 [circular_embedding]; ccw_dir = (direction == 'CCW') *)
Definition circular_embedding {A : arith} (g : gdict) (vList : list (vec3 A)) (ccw_dir : bool)
  : res gdict :=
  mapM (fun kl => l <- py_sorted (angle_lt vList (fst kl)) (snd kl) ;;
                  Ok (fst kl, if ccw_dir then l else rev l)) g.

(** Python sets of darts as duplicate-free lists *)
Definition set_add (x : dart) (s : list dart) : list dart :=
  if py_in dart_eqb x s then s else s ++ [x].
Definition set_remove (x : dart) (s : list dart) : list dart :=
  filter (fun y => negb (dart_eqb y x)) s.

(** 73-75: the set of the darts of all edges, in both directions *)
Definition edge_set (g : gdict) : list dart :=
  fold_left (fun s e => set_add (snd e, fst e) (set_add (fst e, snd e) s)) (edges g) [].

(** [for edge in edgeset: ...; break]: Python's set iteration order is not
    specified; [pick n s] is the schedule's choice at the n-th such point,
    reduced into range so that any function is a legal schedule. *)
Definition schedule := nat -> list dart -> nat.

Definition pick_dart (sch : schedule) (n : nat) (s : list dart) : option dart :=
  match s with
  | [] => None
  | _ => nth_error s (Nat.modulo (sch n s) (length s))
  end.

(** 81-84 and 97-100: start a new path with an arbitrary dart (or [] if none is left) *)
Definition start_path (sch : schedule) (n : nat) (s : list dart) : list dart * list dart :=
  match pick_dart sch n s with
  | Some d => ([d], set_remove d s)
  | None => ([], s)
  end.

(** 88-89 [neighbors[(neighbors.index(u)+1) % len(neighbors)]] *)
Definition next_node (emb : gdict) (u v : Z) : res Z :=
  let ns := neighbours emb v in
  i <- of_option ValueError (find_pos (fun x => (x =? u)%Z) ns) ;;
  of_option IndexError (nth_error ns (Nat.modulo (i + 1) (length ns))).

(** 86-109: the tracing loop; [path] is kept in order, [faces] is the result so far *)
Fixpoint trace (fuel : nat) (sch : schedule) (n : nat) (emb : gdict)
         (edgeset path : list dart) (faces : list (list dart)) : res (list (list dart)) :=
  match fuel with
  | O => Err OutOfFuel
  | S f =>
    match edgeset with
    | [] => Ok (match path with [] => faces | _ => faces ++ [path] end)
    | _ =>
      match path with
      | [] => Err IndexError                    (* path[-1] of an empty list *)
      | p0 :: _ =>
        let (u, v) := last path p0 in
        w <- next_node emb u v ;;
        let tup := (v, w) in
        if dart_eqb tup p0 then
          let (path', edgeset') := start_path sch n edgeset in
          trace f sch (S n) emb edgeset' path' (faces ++ [path])
        else if py_in dart_eqb tup path then Err EndlessFaces
        else trace f sch n emb (set_remove tup edgeset) (path ++ [tup]) faces
      end
    end
  end.

Definition trace_fuel (s : list dart) : nat := S (length s) * S (length s) + 2.

(** 72-109: all traced face paths *)
Definition face_paths (sch : schedule) (g emb : gdict) : res (list (list dart)) :=
  let s := edge_set g in
  let (path, s') := start_path sch 0 s in
  trace (trace_fuel s) sch 1 emb s' path [].

(** 114-122, one face: rotate to the first edge with both ends below nrOfPolyVerts,
    convert to vertices, drop the face if no vertex is >= nrOfPolyVerts *)
Definition is_orig_edge (nr : Z) (e : dart) : bool := ((fst e <? nr) && (snd e <? nr))%Z.

Definition rotate_orig (nr : Z) (face : list dart) : list dart :=
  match find_pos (is_orig_edge nr) face with
  | Some i => rot i face
  | None => face
  end.

Definition final_faces (nr : Z) (paths : list (list dart)) : list (list Z) :=
  filter (fun vl => existsb (fun i => (nr <=? i)%Z) vl)
         (map (fun face => map fst (rotate_orig nr face)) paths).

(** 69-123 [faces] *)
Definition graph_faces (sch : schedule) (g emb : gdict) (nr : Z) : res (list (list Z)) :=
  paths <- face_paths sch g emb ;; Ok (final_faces nr paths).
