(** * BorderSpec: the border of a list of faces, and what removing a spike is *)

From Coq Require Import Permutation Reals.
From Verif Require Import Py Arith Euclid GraphSpec.
Set Implicit Arguments.
Local Open Scope nat_scope.

Definition dart_dec (d e : Z * Z) : {d = e} + {d <> e}.
Proof. decide equality; apply Z.eq_dec. Defined.

(** all directed edges of the faces *)
Definition darts (F : list (list Z)) : list (Z * Z) := concat (map darts_of F).

(** how often the faces run along a -> b, minus how often they run along b -> a: 0 for an edge inside
    the surface, 1 for an edge on its border *)
Definition border (F : list (list Z)) (a b : Z) : Z :=
  (Z.of_nat (count_occ dart_dec (darts F) (a, b)) - Z.of_nat (count_occ dart_dec (darts F) (b, a)))%Z.

(** the same faces in any order, each starting anywhere *)
Definition same_faces (F G : list (list Z)) : Prop := exists F', Permutation F F' /\ Forall2 (@rotation_of Z) F' G.

(** p, t, n are consecutive corners of the face f *)
Definition consecutive (f : list Z) (p t n : Z) : Prop := exists u, rotation_of f (p :: t :: n :: u).

(** the face runs into the corner t from p and nearly straight back to n, on the left *)
Definition spiky {A : arith} (verts : list (vec3 A)) (p t n : Z) : Prop :=
  exists vp vt vn, py_get verts p = Ok vp /\ py_get verts t = Ok vt /\ py_get verts n = Ok vn /\
  let s0 := w_xy (w_sub vt vp) in
  let s1 := w_xy (w_sub vn vt) in
  ntruth (vlen s0) = true /\ ntruth (vlen s1) = true /\
  exists c, pdiv (vdot s0 s1) (nmul (vlen s0) (vlen s1)) = Ok c /\
  nltb (nabs (nadd c (lit 1 1))) (lit 1 100) = true /\ ngtb (vcross s0 s1) (nneg (lit 1 100000)) = true.

(** The spike p, t, n is gone.  If it is a strip (p and n differ), its face loses the corner t and the two faces on
    its sides, the one on the right with t -> p and the one on the left with n -> t, become one.  If it is a line (p = n), its
    face loses the line. *)
Definition unspiked (p t n : Z) (F F' : list (list Z)) : Prop :=
  (p <> n /\ exists f r l rest,
     same_faces F ((p :: t :: n :: f) :: (p :: r ++ [t]) :: (t :: l ++ [n]) :: rest) /\
     same_faces F' ((p :: n :: f) :: (p :: r ++ t :: l ++ [n]) :: rest)) \/
  (p = n /\ exists f rest, same_faces F ((p :: t :: p :: f) :: rest) /\ same_faces F' ((p :: f) :: rest)).

(** No directed edge occurs twice.  If a spike is a strip, no face visits its corners t or p twice and no face
    lies on both its sides; if it is a line, its face visits t once, and p only on the way there and back. *)
Definition tidy {A : arith} (verts : list (vec3 A)) (F : list (list Z)) : Prop :=
  NoDup (darts F) /\
  forall f p t n, In f F -> consecutive f p t n -> spiky verts p t n ->
    if (p =? n)%Z then count_occ Z.eq_dec f t = 1 /\ count_occ Z.eq_dec f p = 2
    else forall g, In g F -> count_occ Z.eq_dec g t <= 1 /\ count_occ Z.eq_dec g p <= 1 /\
           ~ (In (t, p) (darts_of g) /\ In (n, t) (darts_of g)).

(** steps are the stages after F; whenever a stage is tidy, the next one has one spike less *)
Inductive despiked {A : arith} (verts : list (vec3 A)) : list (list Z) -> list (list (list Z)) -> Prop :=
| despiked_done F : despiked verts F []
| despiked_step F F' steps :
    (tidy verts F -> exists p t n, (exists f, In f F /\ 3 < length f /\ consecutive f p t n) /\ spiky verts p t n /\ unspiked p t n F F') ->
    despiked verts F' steps -> despiked verts F (F' :: steps).

(** the sum of g over all directed edges of the faces *)
Definition around (g : Z -> Z -> R) (F : list (list Z)) : R := fold_right Rplus 0%R (map (fun d => g (fst d) (snd d)) (darts F)).

(** twice the signed area the faces cover in plan, for any positions pos of the vertices *)
Definition shoelace (pos : Z -> R * R) (a b : Z) : R := (fst (pos a) * snd (pos b) - fst (pos b) * snd (pos a))%R.

Definition plan_area2 (pos : Z -> R * R) (F : list (list Z)) : R := around (shoelace pos) F.

(** l is read from the first v on *)
Definition opened (v : Z) (l m : list Z) : Prop := exists a b, l = a ++ v :: b /\ ~ In v a /\ m = v :: b ++ a.
