(** * TurnBase: vectors and lines are turned by a rotation *)

From Coq Require Import ZArith List Lia Bool Reals Lra Psatz.
From Verif Require Import Py PyFacts Arith ArithR RSpec GeoR Euclid Heapq Lav Cluster TurnSpec SymLav.
Set Implicit Arguments.
Unset Strict Implicit.
Local Open Scope R_scope.

Section Turn.
Variables c s : R.
Hypothesis unit_cs : c * c + s * s = 1.
Notation t := (turned c s).

Ltac go := runfold; change (num RA) with R in *.

Lemma t_mkvec x y : t (mkvec (A := RA) x y) = mkvec (A := RA) (c * x - s * y) (s * x + c * y).
Proof. reflexivity. Qed.

Lemma t_add a b : vadd (t a) (t b) = t (vadd a b).
Proof. apply vec_ext; unfold turned; go; ring. Qed.

Lemma t_sub a b : vsub (t a) (t b) = t (vsub a b).
Proof. apply vec_ext; unfold turned; go; ring. Qed.

Lemma t_neg a : vneg (t a) = t (vneg a).
Proof. apply vec_ext; unfold turned; go; ring. Qed.

Lemma t_scale a (k : R) : vscale (A := RA) (t a) k = t (vscale (A := RA) a k).
Proof. apply vec_ext; unfold turned; go; ring. Qed.

Lemma t_dot a b : vdot (t a) (t b) = vdot a b.
Proof.
  unfold turned; go. replace (vy a * vy b) with ((c * c + s * s) * (vy a * vy b)) by (rewrite unit_cs; ring).
  replace (vx a * vx b) with ((c * c + s * s) * (vx a * vx b)) by (rewrite unit_cs; ring). ring.
Qed.

Lemma t_cross a b : vcross (t a) (t b) = vcross a b.
Proof.
  unfold turned; go. replace (vx a * vy b) with ((c * c + s * s) * (vx a * vy b)) by (rewrite unit_cs; ring).
  replace (vy a * vx b) with ((c * c + s * s) * (vy a * vx b)) by (rewrite unit_cs; ring). ring.
Qed.

Lemma t_len2 a : vlen2 (t a) = vlen2 a.
Proof. unfold vlen2. apply t_dot. Qed.

Lemma t_len a : vlen (t a) = vlen a.
Proof. unfold vlen. rewrite t_len2. auto. Qed.

Lemma t_zero : t (V2 (A := RA) (rnd zeroN) (rnd zeroN)) = V2 (A := RA) (rnd zeroN) (rnd zeroN).
Proof. apply vec_ext; unfold turned; go; field. Qed.

Lemma t_normalized a : vnormalized (t a) = t (vnormalized a).
Proof. unfold vnormalized. rewrite t_len2, t_len, t_scale. destruct (ngtb _ _); auto. rewrite t_zero. auto. Qed.

Lemma turn_inj (x y u v : R) : c * x - s * y = c * u - s * v -> s * x + c * y = s * u + c * v -> x = u /\ y = v.
Proof.
  intros H1 H2. assert (K : forall z, z = (c * c + s * s) * z) by (intros z; rewrite unit_cs; ring). split.
  - rewrite (K x), (K u). replace ((c * c + s * s) * x) with (c * (c * x - s * y) + s * (s * x + c * y)) by ring. rewrite H1, H2. ring.
  - rewrite (K y), (K v). replace ((c * c + s * s) * y) with (c * (s * x + c * y) - s * (c * x - s * y)) by ring. rewrite H1, H2. ring.
Qed.

Lemma t_inj a b : t a = t b -> a = b.
Proof. intros H. unfold turned in H. injection H as H1 H2. destruct (turn_inj H1 H2). apply vec_ext; auto. Qed.

Lemma t_veq a b : veq (t a) (t b) = veq a b.
Proof.
  apply eq_iff_eq_true. rewrite !veq_R. split; [apply t_inj|congruence].
Qed.

Lemma t_same_coords a b : same_coords (t a) (t b) = same_coords a b.
Proof. exact (t_veq a b). Qed.

Lemma t_dummy : t dummy_vec = dummy_vec.
Proof. exact t_zero. Qed.

(** ** lines *)
Definition t_lin (l : @lin RA) : @lin RA := Lin (t (lp l)) (t (lv l)) (l_is_ray l).

Lemma t_intersect a b : line_intersect (t_lin a) (t_lin b) = option_map t (line_intersect a b).
Proof.
  unfold line_intersect. cbv zeta. cbn [t_lin lp lv l_is_ray].
  set (d := nsub (nmul (vy (lv b)) (vx (lv a))) (nmul (vx (lv b)) (vy (lv a)))).
  replace (nsub (nmul (vy (t (lv b))) (vx (t (lv a)))) (nmul (vx (t (lv b))) (vy (t (lv a))))) with d
    by (unfold d, turned; go; transitivity ((c * c + s * s) * (vy (lv b) * vx (lv a) - vx (lv b) * vy (lv a))); [rewrite unit_cs|]; ring).
  destruct (neqb d zeroN); auto.
  set (na := nsub (nmul (vx (lv b)) (nsub (vy (lp a)) (vy (lp b)))) (nmul (vy (lv b)) (nsub (vx (lp a)) (vx (lp b))))).
  replace (nsub (nmul (vx (t (lv b))) (nsub (vy (t (lp a))) (vy (t (lp b))))) (nmul (vy (t (lv b))) (nsub (vx (t (lp a))) (vx (t (lp b)))))) with na
    by (unfold na, turned; go; transitivity ((c * c + s * s) * (vx (lv b) * (vy (lp a) - vy (lp b)) - vy (lv b) * (vx (lp a) - vx (lp b)))); [rewrite unit_cs|]; ring).
  set (nb := nsub (nmul (vx (lv a)) (nsub (vy (lp a)) (vy (lp b)))) (nmul (vy (lv a)) (nsub (vx (lp a)) (vx (lp b))))).
  replace (nsub (nmul (vx (t (lv a))) (nsub (vy (t (lp a))) (vy (t (lp b))))) (nmul (vy (t (lv a))) (nsub (vx (t (lp a))) (vx (t (lp b)))))) with nb
    by (unfold nb, turned; go; transitivity ((c * c + s * s) * (vx (lv a) * (vy (lp a) - vy (lp b)) - vy (lv a) * (vx (lp a) - vx (lp b)))); [rewrite unit_cs|]; ring).
  unfold intsecttest. cbn [t_lin l_is_ray]. destruct (negb _); auto. destruct (negb _); auto. cbn [option_map]. f_equal.
  generalize (ndiv na d). intros k. apply vec_ext; unfold turned; go; ring.
Qed.

Lemma t_point_line p a b : point_line (t p) (t a) (t b) = t (point_line p a b).
Proof.
  unfold point_line. cbv zeta. cbn [RA rnd nsub nadd nmul ndiv]. change (num RA) with R.
  set (den := (vx b - vx a) * (vx b - vx a) + (vy b - vy a) * (vy b - vy a) : R).
  replace ((vx (t b) - vx (t a)) * (vx (t b) - vx (t a)) + (vy (t b) - vy (t a)) * (vy (t b) - vy (t a))) with den
    by (unfold den, turned; cbn [vx vy]; transitivity ((c * c + s * s) * ((vx b - vx a) * (vx b - vx a) + (vy b - vy a) * (vy b - vy a))); [rewrite unit_cs|]; ring).
  set (num := (vx b - vx a) * (vx p - vx a) + (vy b - vy a) * (vy p - vy a) : R).
  replace ((vx (t b) - vx (t a)) * (vx (t p) - vx (t a)) + (vy (t b) - vy (t a)) * (vy (t p) - vy (t a))) with num
    by (unfold num, turned; cbn [vx vy]; transitivity ((c * c + s * s) * ((vx b - vx a) * (vx p - vx a) + (vy b - vy a) * (vy p - vy a))); [rewrite unit_cs|]; ring).
  destruct (neqb _ _); auto. generalize (num / den). intros k. apply vec_ext; unfold turned; cbn [vx vy]; change (Arith.num RA) with R; ring.
Qed.

Lemma t_distance l p : line_distance (t_lin l) (t p) = line_distance l p.
Proof. unfold line_distance. cbv zeta. cbn [t_lin lp lv]. rewrite t_add, t_point_line, t_sub, t_len. auto. Qed.

Lemma t_ccw x y z : ccw (t x) (t y) (t z) = ccw x y z.
Proof.
  unfold ccw, ngtb. cbn [RA nltb]. apply eq_iff_eq_true. rewrite !Rltb_lt. unfold turned. cbn [vx vy RA nsub nmul]. change (num RA) with R.
  assert (E : forall a b d e : R, (s * a + c * b) * (c * d - s * e) - (s * d + c * e) * (c * a - s * b) = b * d - e * a).
  { intros. transitivity ((c * c + s * s) * (b * d - e * a)); [|rewrite unit_cs]; ring. }
  specialize (E (vx z - vx x) (vy z - vy x) (vx y - vx x) (vy y - vy x)).
  replace (s * vx z + c * vy z - (s * vx x + c * vy x)) with (s * (vx z - vx x) + c * (vy z - vy x)) by ring.
  replace (c * vx y - s * vy y - (c * vx x - s * vy x)) with (c * (vx y - vx x) - s * (vy y - vy x)) by ring.
  replace (s * vx y + c * vy y - (s * vx x + c * vy x)) with (s * (vx y - vx x) + c * (vy y - vy x)) by ring.
  replace (c * vx z - s * vy z - (c * vx x - s * vy x)) with (c * (vx z - vx x) - s * (vy z - vy x)) by ring. lra.
Qed.

Lemma t_seg x y z w : seg_intersect (t x) (t y) (t z) (t w) = seg_intersect x y z w.
Proof. unfold seg_intersect. rewrite !t_ccw. auto. Qed.

Lemma t_approx a b : approximately_equals (t a) (t b) = approximately_equals a b.
Proof. unfold approximately_equals. rewrite t_veq, t_sub, !t_len. auto. Qed.

(** ** edges and lists *)
Notation te := (turned_edge c s).

Lemma t_line_edge e : Line2_edge (te e) = t_lin (Line2_edge e).
Proof. unfold Line2_edge, t_lin. cbn [turned_edge ep1 ep2 lp lv l_is_ray]. rewrite t_sub. auto. Qed.

Lemma t_in a l : py_in veq (t a) (map t l) = py_in veq a l.
Proof. unfold py_in. induction l as [|x l IH]; cbn [map existsb]; auto. rewrite t_veq, IH. auto. Qed.

Lemma t_remove a l : py_remove veq (t a) (map t l) = res_map (map t) (py_remove veq a l).
Proof.
  induction l as [|x l IH]; cbn [map py_remove]; auto. rewrite t_veq. destruct (veq x a); auto. rewrite IH. destruct (py_remove veq a l); auto.
Qed.
End Turn.
