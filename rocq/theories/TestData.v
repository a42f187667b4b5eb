(** * TestData: footprints of the project's tests, copied from /repo/tests_special, /repo/tests and /repo/debug (cases for C66)

    Every number is written as (m, e), meaning m / 2^e: the value of the Python literal after the Vector class of
    mathutils has stored it as a 32-bit float. *)

From Coq Require Import List ZArith String.
From Verif Require Import TestSpec.
Import ListNotations.
Local Open Scope string_scope.
Local Open Scope Z_scope.

Definition t0 : test := Test "tests_special/test_c_shape_c.py"
  [((0, 0), (10, 0), (0, 0)); ((0, 0), (0, 0), (0, 0)); ((7, 0), (0, 0), (0, 0)); ((7, 0), (4, 0), (0, 0)); ((3, 0), (4, 0), (0, 0)); ((3, 0), (6, 0), (0, 0)); ((7, 0), (6, 0), (0, 0)); ((7, 0), (10, 0), (0, 0))]
  0 8 None (0, 0) (1, 1)
  None.

Definition t1 : test := Test "tests_special/test_l_shape_a.py"
  [((0, 0), (10, 0), (0, 0)); ((0, 0), (0, 0), (0, 0)); ((7, 0), (0, 0), (0, 0)); ((7, 0), (4, 0), (0, 0)); ((4, 0), (4, 0), (0, 0)); ((4, 0), (10, 0), (0, 0))]
  0 6 None (0, 0) (1, 1)
  None.

Definition t2 : test := Test "tests_special/test_l_shape_b.py"
  [((0, 0), (10, 0), (0, 0)); ((0, 0), (0, 0), (0, 0)); ((7, 0), (0, 0), (0, 0)); ((7, 0), (4, 0), (0, 0)); ((5, 0), (4, 0), (0, 0)); ((5, 0), (10, 0), (0, 0))]
  0 6 None (0, 0) (1, 1)
  None.

Definition t3 : test := Test "tests_special/test_l_shape_c.py"
  [((0, 0), (10, 0), (0, 0)); ((0, 0), (0, 0), (0, 0)); ((7, 0), (0, 0), (0, 0)); ((7, 0), (4, 0), (0, 0)); ((3, 0), (4, 0), (0, 0)); ((3, 0), (10, 0), (0, 0))]
  0 6 None (0, 0) (1, 1)
  None.

Definition t4 : test := Test "tests_special/test_rectangle.py"
  [((0, 0), (10, 0), (0, 0)); ((0, 0), (0, 0), (0, 0)); ((20, 0), (0, 0), (0, 0)); ((20, 0), (10, 0), (0, 0))]
  0 4 None (0, 0) (1, 1)
  None.

Definition t5 : test := Test "tests_special/test_square.py"
  [((0, 0), (10, 0), (0, 0)); ((0, 0), (0, 0), (0, 0)); ((10, 0), (0, 0), (0, 0)); ((10, 0), (10, 0), (0, 0))]
  0 4 None (0, 0) (1, 1)
  None.

Definition t6 : test := Test "tests_special/test_t_shape_a.py"
  [((4, 0), (10, 0), (0, 0)); ((4, 0), (4, 0), (0, 0)); ((0, 0), (4, 0), (0, 0)); ((0, 0), (0, 0), (0, 0)); ((12, 0), (0, 0), (0, 0)); ((12, 0), (4, 0), (0, 0)); ((8, 0), (4, 0), (0, 0)); ((8, 0), (10, 0), (0, 0))]
  0 8 None (0, 0) (1, 1)
  None.

Definition t7 : test := Test "tests_special/test_t_shape_b.py"
  [((4, 0), (10, 0), (0, 0)); ((4, 0), (5, 0), (0, 0)); ((0, 0), (5, 0), (0, 0)); ((0, 0), (0, 0), (0, 0)); ((12, 0), (0, 0), (0, 0)); ((12, 0), (5, 0), (0, 0)); ((8, 0), (5, 0), (0, 0)); ((8, 0), (10, 0), (0, 0))]
  0 8 None (0, 0) (1, 1)
  None.

Definition t8 : test := Test "tests_special/test_t_shape_c.py"
  [((4, 0), (10, 0), (0, 0)); ((4, 0), (3, 0), (0, 0)); ((0, 0), (3, 0), (0, 0)); ((0, 0), (0, 0), (0, 0)); ((12, 0), (0, 0), (0, 0)); ((12, 0), (3, 0), (0, 0)); ((8, 0), (3, 0), (0, 0)); ((8, 0), (10, 0), (0, 0))]
  0 8 None (0, 0) (1, 1)
  None.

Definition t9 : test := Test "tests/test_89014707_berlin_roemerweg_117.py"
  [((11271981, 20), (-11952641, 24), (0, 0)); ((11662865, 20), (8007495, 21), (0, 0)); ((6097951, 19), (16014995, 22), (0, 0)); ((1565353, 17), (3787797, 19), (0, 0)); ((11961357, 20), (7645629, 20), (0, 0)); ((12359347, 20), (6244899, 19), (0, 0)); ((8585445, 23), (6735145, 19), (0, 0)); ((0, 0), (0, 0), (0, 0)); ((11271981, 20), (-11952641, 24), (11201591, 21)); ((11662865, 20), (8007495, 21), (11201591, 21)); ((6097951, 19), (16014995, 22), (11201591, 21)); ((1565353, 17), (3787797, 19), (11201591, 21)); ((11961357, 20), (7645629, 20), (11201591, 21)); ((12359347, 20), (6244899, 19), (11201591, 21)); ((8585445, 23), (6735145, 19), (11201591, 21)); ((0, 0), (0, 0), (11201591, 21))]
  8 8 None (0, 0) (1, 1)
  (Some [((11005939, 27), (16720715, 24), (0, 0)); ((1, 0), (2578413, 40), (0, 0)); ((3058369, 25), (4176845, 22), (0, 0)); ((-8324101, 23), (8306503, 26), (0, 0)); ((10990107, 27), (8360439, 23), (0, 0)); ((-16714261, 24), (5808243, 26), (0, 0)); ((-10659377, 27), (-16724223, 24), (0, 0)); ((16740491, 24), (-2218921, 25), (0, 0))]).

Definition t10 : test := Test "tests/test_hexagon.py"
  [((0, 0), (0, 0), (0, 0)); ((-13610841, 22), (-2979431, 19), (0, 0)); ((8711285, 20), (-13922751, 20), (0, 0)); ((2693351, 18), (-10786021, 20), (0, 0)); ((11430177, 20), (-11362187, 22), (0, 0)); ((2997065, 19), (15473401, 23), (0, 0)); ((0, 0), (0, 0), (15864283, 20)); ((-13610841, 22), (-2979431, 19), (15864283, 20)); ((8711285, 20), (-13922751, 20), (15864283, 20)); ((2693351, 18), (-10786021, 20), (15864283, 20)); ((11430177, 20), (-11362187, 22), (15864283, 20)); ((2997065, 19), (15473401, 23), (15864283, 20))]
  6 6 None (0, 0) (1, 1)
  (Some [((-16638983, 25), (-14569181, 24), (0, 0)); ((14019077, 24), (-9216313, 24), (0, 0)); ((1152037, 21), (7009545, 23), (0, 0)); ((5528365, 26), (261253, 18), (0, 0)); ((-12605227, 24), (2767933, 22), (0, 0)); ((-7983283, 23), (-5152063, 24), (0, 0))]).

Definition t11 : test := Test "tests/test_l_shape.py"
  [((0, 0), (0, 0), (0, 0)); ((-1281395, 18), (-15593173, 21), (0, 0)); ((13976815, 21), (-15760475, 20), (0, 0)); ((4525263, 19), (-12623747, 20), (0, 0)); ((10136193, 24), (-7090303, 20), (0, 0)); ((14787875, 22), (-9721731, 22), (0, 0)); ((0, 0), (0, 0), (1964647, 17)); ((-1281395, 18), (-15593173, 21), (1964647, 17)); ((13976815, 21), (-15760475, 20), (1964647, 17)); ((4525263, 19), (-12623747, 20), (1964647, 17)); ((10136193, 24), (-7090303, 20), (1964647, 17)); ((14787875, 22), (-9721731, 22), (1964647, 17))]
  6 6 None (0, 0) (1, 1)
  (Some [((-2304081, 22), (-14019071, 24), (0, 0)); ((14019075, 24), (-9216317, 24), (0, 0)); ((9216299, 24), (876193, 20), (0, 0)); ((-14019081, 24), (9216309, 24), (0, 0)); ((2304079, 22), (14019077, 24), (0, 0)); ((-7009539, 23), (4608157, 23), (0, 0))]).

Definition d0 : test := Test "debug/edge_crossing/test_661448847_metz_rue_lafayette.py"
  [((5796031, 18), (-12676523, 19), (0, 0)); ((9028341, 18), (-13376795, 20), (0, 0)); ((255689, 13), (-9699917, 20), (0, 0)); ((8903151, 17), (13213709, 19), (0, 0)); ((3198379, 16), (11979159, 18), (0, 0)); ((9517311, 18), (1119853, 15), (0, 0)); ((11570943, 18), (6735191, 18), (0, 0)); ((5243911, 18), (13727241, 22), (0, 0)); ((12638857, 20), (1515993, 17), (0, 0)); ((0, 0), (0, 0), (0, 0)); ((5796031, 18), (-12676523, 19), (7666401, 19)); ((9028341, 18), (-13376795, 20), (7666401, 19)); ((255689, 13), (-9699917, 20), (7666401, 19)); ((8903151, 17), (13213709, 19), (7666401, 19)); ((3198379, 16), (11979159, 18), (7666401, 19)); ((9517311, 18), (1119853, 15), (7666401, 19)); ((11570943, 18), (6735191, 18), (7666401, 19)); ((5243911, 18), (13727241, 22), (7666401, 19)); ((12638857, 20), (1515993, 17), (7666401, 19)); ((0, 0), (0, 0), (7666401, 19))]
  10 10 None (0, 0) (1, 1)
  (Some [((6154107, 23), (1425125, 21), (0, 0)); ((-11363567, 24), (12342785, 24), (0, 0)); ((12233833, 24), (2870195, 22), (0, 0)); ((-11445735, 24), (6133313, 23), (0, 0)); ((-6167593, 23), (-5685907, 23), (0, 0)); ((11382787, 24), (-6162531, 23), (0, 0)); ((-12292165, 24), (-5709153, 23), (0, 0)); ((-11610417, 24), (6055435, 23), (0, 0)); ((-12105435, 24), (-11616085, 24), (0, 0)); ((11321865, 24), (-1547631, 21), (0, 0))]).

(** twelve tests of tests_special and tests, those whose runs are checked fastest *)
Definition suite : list test :=
  [t0; t1; t2; t3; t4; t5; t6; t7; t8; t9; t10; t11].

(** one of the known failures of the folder debug *)
Definition known_failures : list test :=
  [d0].
