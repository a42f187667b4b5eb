(** * CleanSpec: what the clean-up of faces takes away *)

From Coq Require Import ZArith List.
From Verif Require Import Py Arith GraphSpec PolySpec BorderSpec.
Set Implicit Arguments.
Local Open Scope nat_scope.

(** the face runs straight on at t, coming from p and going to n, or t is at the same place as one of them *)
Definition flat {A : arith} (verts : list (vec3 A)) (p t n : Z) : Prop :=
  exists vp vt vn, py_get verts p = Ok vp /\ py_get verts t = Ok vt /\ py_get verts n = Ok vn /\
  let s0 := mkvec (wx (w_sub vt vp)) (wy (w_sub vt vp)) in
  let s1 := mkvec (wx (w_sub vn vt)) (wy (w_sub vn vt)) in
  (ntruth (vlen s0) = true -> ntruth (vlen s1) = true ->
   exists c, pdiv (vdot s0 s1) (nmul (vlen s0) (vlen s1)) = Ok c /\ nltb (nabs (nsub c (lit 1 1))) (lit 1 100) = true).

(** the face f loses its corner t: a node visited less than three times by all faces, where f, which is no triangle, is flat *)
Definition dropped {A : arith} (verts : list (vec3 A)) (nr : Z) (F : list (list Z)) (f : list Z) (t : Z) : Prop :=
  3 < length f /\ (nr <= t)%Z /\ corners F t < 3 /\ exists p n, consecutive f p t n /\ flat verts p t n.

(** f' is f without the corners to be dropped, or nothing if only one corner is left *)
Definition cleaned {A : arith} (verts : list (vec3 A)) (nr : Z) (F : list (list Z)) (f f' : list Z) : Prop :=
  exists g, subsequence g f /\ (forall t, In t f -> In t g /\ ~ dropped verts nr F f t \/ ~ In t g /\ dropped verts nr F f t) /\
            (f' = g /\ length g <> 1 \/ f' = [] /\ length g = 1).

(** no triangle is flat at a node that only two faces visit *)
Definition no_flat_triangle {A : arith} (verts : list (vec3 A)) (nr : Z) (F : list (list Z)) : Prop :=
  forall f p t n, In f F -> length f <= 3 -> consecutive f p t n -> (nr <= t)%Z -> corners F t < 3 -> ~ flat verts p t n.

(** the test for a straight run gives the same answer when the face is walked the other way around *)
Definition flat_both_ways {A : arith} (verts : list (vec3 A)) (F : list (list Z)) : Prop :=
  forall f p t n, In f F -> consecutive f p t n -> flat verts p t n -> flat verts n t p.
