(** * Euclid: model of /repo/bpypolyskel/bpyeuclid.py *)

From Verif Require Import Py Arith.
Set Implicit Arguments.

Section Euclid.
Context {A : arith}.
Notation num := (num A).
Notation vec := (vec A).
Notation vec3 := (vec3 A).

(** bpyeuclid.py:6-7 [ccw] *)
Definition ccw (a b c : vec) : bool :=
  ngtb (nmul (nsub (vy c) (vy a)) (nsub (vx b) (vx a)))
       (nmul (nsub (vy b) (vy a)) (nsub (vx c) (vx a))).

(** bpyeuclid.py:9-10 [intersect] *)
Definition seg_intersect (a b c d : vec) : bool :=
  negb (Bool.eqb (ccw a c d) (ccw b c d)) && negb (Bool.eqb (ccw a b c) (ccw a b d)).

(** A Line2 or a Ray2 as far as [_intersect_line2_line2] is concerned:
    a point p, a direction v and the parameter test
    (bpyeuclid.py:57-68 Ray2: [u >= 0.0]; bpyeuclid.py:70-89 Line2: [True]). *)
Record lin : Type := Lin { lp : vec; lv : vec; l_is_ray : bool }.

Definition Ray2 (p v : vec) : lin := Lin p v true.                     (* 57-62 *)
Definition intsecttest (l : lin) (u : num) : bool :=                   (* 64-65, 84-85 *)
  if l_is_ray l then ngeb u zeroN else true.

(** bpyeuclid.py:13-27 [_intersect_line2_line2] (the divisions cannot raise: d is not 0) *)
Definition line_intersect (a b : lin) : option vec :=
  let d := nsub (nmul (vy (lv b)) (vx (lv a))) (nmul (vx (lv b)) (vy (lv a))) in
  if neqb d zeroN then None
  else
    let dy := nsub (vy (lp a)) (vy (lp b)) in
    let dx := nsub (vx (lp a)) (vx (lp b)) in
    let ua := ndiv (nsub (nmul (vx (lv b)) dy) (nmul (vy (lv b)) dx)) d in
    if negb (intsecttest a ua) then None
    else
      let ub := ndiv (nsub (nmul (vx (lv a)) dy) (nmul (vy (lv a)) dx)) d in
      if negb (intsecttest b ub) then None
      else Some (mkvec (nadd (vx (lp a)) (nmul ua (vx (lv a))))
                       (nadd (vy (lp a)) (nmul ua (vy (lv a))))).

(** bpyeuclid.py:29-52 [Edge2].  [eid] is the object identity (Edge2 defines no
    __eq__, so [==] on edges compares identities); [ei1], [ei2] are the indices
    i1, i2 stored when the edge is built from indices. *)
Record edge2 : Type := Edge { eid : nat; ep1 : vec; ep2 : vec; enorm : vec; ei1 : Z; ei2 : Z }.

Definition same_edge (a b : edge2) : bool := Nat.eqb (eid a) (eid b).

(** Edge2(p1, p2) with two 2D vectors (bpyeuclid.py:45-52) *)
Definition Edge2_pts (id : nat) (p1 p2 : vec) : edge2 :=
  let q1 := mkvec (vx p1) (vy p1) in
  let q2 := mkvec (vx p2) (vy p2) in
  Edge id q1 q2 (vnormalized (vsub q2 q1)) 0 0.

(** Edge2(i1, i2, norm, verts, center) (bpyeuclid.py:40-52), for a non-empty verts *)
Definition Edge2_idx (id : nat) (i1 i2 : Z) (unit : option vec3) (verts : list vec3)
           (center : vec3) : res edge2 :=
  a <- py_get verts i1 ;;
  b <- py_get verts i2 ;;
  let a' := w_sub a center in
  let b' := w_sub b center in
  let q1 := mkvec (wx a') (wy a') in
  let q2 := mkvec (wx b') (wy b') in
  let nrm := match unit with
             | Some u => mkvec (wx u) (wy u)
             | None => vnormalized (vsub q2 q1)
             end in
  Ok (Edge id q1 q2 nrm i1 i2).

(** bpyeuclid.py:54-55 *)
Definition edge_length_squared (e : edge2) : num := vlen2 (vsub (ep2 e) (ep1 e)).

(** bpyeuclid.py:72-74 [Line2(edge)] *)
Definition Line2_edge (e : edge2) : lin := Lin (ep1 e) (vsub (ep2 e) (ep1 e)) false.
(** bpyeuclid.py:78-80 [Line2(p, v, 'pv')] *)
Definition Line2_pv (p v : vec) : lin := Lin p v false.

(** mathutils.geometry.intersect_point_line(pt, a, b)[0] (Blender: closest_to_line_v3,
    computed in C floats; a if the segment is degenerate) *)
Definition point_line (pt a b : vec) : vec :=
  let ux := rnd (nsub (vx b) (vx a)) in
  let uy := rnd (nsub (vy b) (vy a)) in
  let hx := rnd (nsub (vx pt) (vx a)) in
  let hy := rnd (nsub (vy pt) (vy a)) in
  let denom := rnd (nadd (rnd (nmul ux ux)) (rnd (nmul uy uy))) in
  if neqb denom zeroN then a
  else
    let lam := rnd (ndiv (rnd (nadd (rnd (nmul ux hx)) (rnd (nmul uy hy)))) denom) in
    V2 (rnd (nadd (vx a) (rnd (nmul ux lam)))) (rnd (nadd (vy a) (rnd (nmul uy lam)))).

(** bpyeuclid.py:91-94 [Line2.distance] *)
Definition line_distance (l : lin) (other : vec) : num :=
  let nearest := point_line other (lp l) (vadd (lp l) (lv l)) in
  vlen (vsub other nearest).

(** ** complex numbers, for fitCircle3Points *)
Record cpx : Type := C { re : num; im : num }.
Definition cadd (a b : cpx) := C (nadd (re a) (re b)) (nadd (im a) (im b)).
Definition csub (a b : cpx) := C (nsub (re a) (re b)) (nsub (im a) (im b)).
Definition cmul (a b : cpx) :=
  C (nsub (nmul (re a) (re b)) (nmul (im a) (im b)))
    (nadd (nmul (re a) (im b)) (nmul (im a) (re b))).
(** CPython _Py_c_quot (Smith's method); ZeroDivisionError on a zero divisor *)
Definition cdiv (a b : cpx) : res cpx :=
  if ngeb (nabs (re b)) (nabs (im b)) then
    if neqb (nabs (re b)) zeroN then Err ZeroDivisionError
    else
      let ratio := ndiv (im b) (re b) in
      let denom := nadd (re b) (nmul (im b) ratio) in
      Ok (C (ndiv (nadd (re a) (nmul (im a) ratio)) denom)
            (ndiv (nsub (im a) (nmul (re a) ratio)) denom))
  else
    let ratio := ndiv (re b) (im b) in
    let denom := nadd (nmul (re b) ratio) (im b) in
    Ok (C (ndiv (nadd (nmul (re a) ratio) (im a)) denom)
          (ndiv (nsub (nmul (im a) ratio) (re a)) denom)).
(** abs(z): CPython uses hypot; modelled as sqrt(re^2+im^2) *)
Definition cabs (a : cpx) : num := nsqrt (nadd (nmul (re a) (re a)) (nmul (im a) (im a))).
Definition creal (x : num) : cpx := C x zeroN.

(** bpyeuclid.py:96-109 [fitCircle3Points]; [abs(w)**2] is written as a product *)
Definition fitCircle3Points (pts : list vec) : res (vec * num) :=
  p0 <- py_get pts 0 ;;
  pm <- py_get pts (Z.of_nat (length pts) / 2) ;;
  pl <- py_get pts (-1) ;;
  let x := C (vx p0) (vy p0) in
  let y := C (vx pm) (vy pm) in
  let z := C (vx pl) (vy pl) in
  w <- cdiv (csub z x) (csub y x) ;;
  let aw2 := nmul (cabs w) (cabs w) in
  q1 <- cdiv (cmul (csub x y) (csub w (creal aw2))) (C zeroN twoN) ;;
  q2 <- cdiv q1 (creal (im w)) ;;
  let c := csub q2 x in
  Ok (mkvec (nneg (re c)) (nneg (im c)), cabs (cadd c x)).

End Euclid.
