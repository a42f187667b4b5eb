(** * ArithR: exact arithmetic, the instance over the real numbers.  Vector == is exact equality. *)

From Coq Require Import Reals Lra Psatz.
From Verif Require Import Py Arith.
Set Implicit Arguments.
Open Scope R_scope.

Definition Rltb (x y : R) : bool := if Rlt_dec x y then true else false.
Definition Rleb (x y : R) : bool := if Rle_dec x y then true else false.
Definition Reqb (x y : R) : bool := if Req_EM_T x y then true else false.

Definition RA : arith := {|
  num := R;
  nadd := Rplus; nsub := Rminus; nmul := Rmult; ndiv := Rdiv;
  nneg := Ropp; nabs := Rabs; nsqrt := sqrt;
  nltb := Rltb; nleb := Rleb; neqb := Reqb;
  lit := fun n d => IZR n / IZR (Zpos d);
  rnd := fun x => x; veqc := Reqb |}.

Lemma Rltb_lt x y : Rltb x y = true <-> x < y.
Proof. unfold Rltb; destruct (Rlt_dec x y); split; auto; discriminate. Qed.
Lemma Rleb_le x y : Rleb x y = true <-> x <= y.
Proof. unfold Rleb; destruct (Rle_dec x y); split; auto; discriminate. Qed.
Lemma Reqb_eq x y : Reqb x y = true <-> x = y.
Proof. unfold Reqb; destruct (Req_EM_T x y); split; auto; discriminate. Qed.
Lemma Rltb_ge x y : Rltb x y = false <-> y <= x.
Proof. unfold Rltb; destruct (Rlt_dec x y); split; auto; intros; try discriminate; lra. Qed.
Lemma Rleb_gt x y : Rleb x y = false <-> y < x.
Proof. unfold Rleb; destruct (Rle_dec x y); split; auto; intros; try discriminate; lra. Qed.
Lemma Reqb_neq x y : Reqb x y = false <-> x <> y.
Proof. unfold Reqb; destruct (Req_EM_T x y); split; auto; intros; try discriminate; congruence. Qed.

Lemma Rltb_spec x y : Bool.reflect (x < y) (Rltb x y).
Proof. unfold Rltb; destruct (Rlt_dec x y); constructor; auto. Qed.
Lemma Rleb_spec x y : Bool.reflect (x <= y) (Rleb x y).
Proof. unfold Rleb; destruct (Rle_dec x y); constructor; auto. Qed.
Lemma Reqb_spec x y : Bool.reflect (x = y) (Reqb x y).
Proof. unfold Reqb; destruct (Req_EM_T x y); constructor; auto. Qed.

(** unfold the vector operations down to real numbers *)
Ltac runfold :=
  unfold w_add, w_sub, w_xy, vnormalized, vlen, vlen2, vadd, vsub, vneg, vscale, vdot, vcross, veq, mkvec, mkvec3,
    nmax, nmin, ngtb, ngeb, ntruth, pdiv, nofZ, zeroN, oneN, twoN in *;
  cbn [RA num nadd nsub nmul ndiv nneg nabs nsqrt nltb nleb neqb lit rnd veqc vx vy wx wy wz] in *.

Lemma zeroN_R : @zeroN RA = 0.
Proof. unfold zeroN; simpl; lra. Qed.
Lemma oneN_R : @oneN RA = 1.
Proof. unfold oneN; simpl; lra. Qed.
Lemma twoN_R : @twoN RA = 2.
Proof. unfold twoN; simpl; lra. Qed.

Definition rvec (x y : R) : vec RA := @V2 RA x y.

Lemma vec_ext (a b : vec RA) : vx a = vx b -> vy a = vy b -> a = b.
Proof. destruct a, b; simpl; intros; subst; auto. Qed.
Lemma vec3_ext (a b : vec3 RA) : wx a = wx b -> wy a = wy b -> wz a = wz b -> a = b.
Proof. destruct a, b; simpl; intros; subst; auto. Qed.

Lemma veq_R (a b : vec RA) : veq a b = true <-> a = b.
Proof.
  unfold veq; simpl. rewrite andb_true_iff, !Reqb_eq. split.
  - intros [H1 H2]; apply vec_ext; auto.
  - intros ->; auto.
Qed.

Lemma vdot_R (a b : vec RA) : vdot a b = vx a * vx b + vy a * vy b.
Proof. unfold vdot. rewrite zeroN_R. simpl. lra. Qed.
Lemma vcross_R (a b : vec RA) : vcross a b = vx a * vy b - vy a * vx b.
Proof. reflexivity. Qed.
Lemma vlen2_R (a : vec RA) : vlen2 a = vx a * vx a + vy a * vy a.
Proof. apply vdot_R. Qed.
Lemma vlen_R (a : vec RA) : vlen a = sqrt (vx a * vx a + vy a * vy a).
Proof. unfold vlen. rewrite vlen2_R. reflexivity. Qed.
Lemma vsub_R (a b : vec RA) : vsub a b = @V2 RA (vx a - vx b) (vy a - vy b).
Proof. reflexivity. Qed.
Lemma vadd_R (a b : vec RA) : vadd a b = @V2 RA (vx a + vx b) (vy a + vy b).
Proof. reflexivity. Qed.
Lemma vscale_R (a : vec RA) s : vscale a s = @V2 RA (vx a * s) (vy a * s).
Proof. reflexivity. Qed.

Lemma pdiv_R (x y : R) : pdiv (A := RA) x y = if Reqb y 0 then Err ZeroDivisionError else Ok (x / y).
Proof. unfold pdiv. rewrite zeroN_R. reflexivity. Qed.
Lemma ntruth_R (x : R) : ntruth (A := RA) x = negb (Reqb x 0).
Proof. unfold ntruth. rewrite zeroN_R. reflexivity. Qed.
