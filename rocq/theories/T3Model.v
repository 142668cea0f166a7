(** Model of the closed-form schemes in quadpy/t3 (tetrahedron, barycentric coordinates).  Names, sources and tolerances are
    omitted; numbers are exact reals.  stroud_t3_5_1() is stroud_tn_5_1(3) (TnModel.v); the schemes given by decimals or by
    data files are not modelled here. *)
From Coq Require Import Reals List Arith ZArith String.
From Verif Require Import Spec CombModel PyBase SymmModel OrbitModel.
Import ListNotations.
Open Scope R_scope.
Open Scope string_scope.

(** t3/_helpers.py:17-26 (T3Scheme.__init__ without weight_factor). *)
Definition t3_scheme (data : list (string * (list R * list (list R)))) (degree : nat) : option scheme :=
  let! pw := t3_expand_str data in
  Some (mk_scheme 3 (mk_rule pw) degree).

(** t3/_hammer_marlowe_stroud.py:38-43 *)
Definition t3_hammer_marlowe_stroud_1 :=
  let! sqrt5 := rsqrt 5 in
  let! r := rdiv 1 sqrt5 in
  let a := (1 - r) / 4 in
  t3_scheme [("s31", ([1/4], [[a]]))] 2.
(** t3/_hammer_marlowe_stroud.py:46-51 *)
Definition t3_hammer_marlowe_stroud_2 :=
  let! sqrt5 := rsqrt 5 in
  let! r := rdiv (-1) sqrt5 in
  let a := (1 - r) / 4 in
  t3_scheme [("s31", ([1/4], [[a]]))] 2.
(** t3/_hammer_marlowe_stroud.py:55-60 *)
Definition t3_hammer_marlowe_stroud_3 :=
  let r := 1/3 in
  let a := (1 - r) / 4 in
  t3_scheme [("s4", ([- (4/5)], [])); ("s31", ([9/20], [[a]]))] 3.
(** t3/_liu_vinokur.py:18-21 *)
Definition t3_liu_vinokur_01 := t3_scheme [("s4", ([1], []))] 1.
(** t3/_liu_vinokur.py:24-27 *)
Definition t3_liu_vinokur_02 := t3_scheme [("s31", ([1/4], [[0]]))] 1.
(** t3/_liu_vinokur.py:30-33 *)
Definition t3_liu_vinokur_03 :=
  let! sqrt5 := rsqrt 5 in t3_scheme [("s31", ([1/4], [[1/4 - sqrt5 / 20]]))] 2.
(** t3/_liu_vinokur.py:36-39 *)
Definition t3_liu_vinokur_04 := t3_scheme [("s4", ([4/5], [])); ("s31", ([1/20], [[0]]))] 2.
(** t3/_liu_vinokur.py:42-45 *)
Definition t3_liu_vinokur_05 := t3_scheme [("s4", ([- (4/5)], [])); ("s31", ([9/20], [[1/6]]))] 3.
(** t3/_liu_vinokur.py:48-51 *)
Definition t3_liu_vinokur_06 := t3_scheme [("s31", ([1/40; 9/40], [[0; 1/3]]))] 3.
(** t3/_liu_vinokur.py:54-62 *)
Definition t3_liu_vinokur_07 :=
  let! sqrt70 := rsqrt 70 in
  let b := (1 + 2 * sqrt70 / 28) / 4 in
  t3_scheme [("s4", ([- (148/1875)], [])); ("s31", ([343/7500], [[1/14]])); ("s22", ([56/375], [[b]]))] 4.
(** t3/_liu_vinokur.py:65-79 *)
Definition t3_liu_vinokur_08 :=
  let! sqrt11 := rsqrt 11 in
  let! s := rsqrt (65944 - 19446 * sqrt11) in
  let alpha1 := (s + 51 * sqrt11 - 154) / 89 in
  let alpha2 := (- s + 51 * sqrt11 - 154) / 89 in
  let! w1 := rdiv (17 * alpha2 - 7) (420 * alpha1 ^ 2 * (alpha2 - alpha1)) in
  let! w2 := rdiv (17 * alpha1 - 7) (420 * alpha2 ^ 2 * (alpha1 - alpha2)) in
  t3_scheme [("s31", ([w1; w2], [[(1 - alpha1) / 4; (1 - alpha2) / 4]])); ("s22", ([2/105], [[0]]))] 4.
(** t3/_liu_vinokur.py:82-89 *)
Definition t3_liu_vinokur_09 :=
  t3_scheme [("s4", ([- (32/15)], [])); ("s31", ([3/280; 125/168], [[0; 1/5]])); ("s22", ([2/105], [[0]]))] 4.
(** t3/_liu_vinokur.py:92-104 *)
Definition t3_liu_vinokur_10 :=
  let! sqrt2 := rsqrt 2 in
  let gamma1 := (2 + sqrt2) / 4 in
  let gamma2 := (2 - sqrt2) / 4 in
  let a := (1 - gamma1 - gamma2) / 4 in
  let b := (1 + 3 * gamma1 - gamma2) / 4 in
  t3_scheme [("s4", ([32/105], [])); ("s31", ([- (31/840); 27/280], [[0; 1/3]])); ("s211", ([4/105], [[a]; [b]]))] 4.
(** t3/_liu_vinokur.py:107-120 *)
Definition t3_liu_vinokur_11 :=
  let! sqrt2 := rsqrt 2 in
  t3_scheme [("s31", ([(11 - 4 * sqrt2) / 840; (243 - 108 * sqrt2) / 1960; (62 + 44 * sqrt2) / 735], [[0; 1/3; (2 - sqrt2) / 4]]));
             ("s22", ([2/105], [[0]]))] 4.
(** t3/_liu_vinokur.py:123-140 *)
Definition t3_liu_vinokur_12 :=
  let! sqrt79 := rsqrt 79 in
  let lmbda := 4/27 * (4 * sqrt79 * cos ((acos (67 * sqrt79 / 24964) + 2 * PI) / 3) + 71) in
  let! s := rsqrt (9 * lmbda ^ 2 - 248 * lmbda + 1680) in
  let! alpha1 := rdiv (s + 28 - 3 * lmbda) (112 - 10 * lmbda) in
  let! alpha2 := rdiv (- s + 28 - 3 * lmbda) (112 - 10 * lmbda) in
  let! w1 := rdiv ((21 - lmbda) * alpha2 - 7) (420 * alpha1 ^ 2 * (alpha2 - alpha1)) in
  let! w2 := rdiv ((21 - lmbda) * alpha1 - 7) (420 * alpha2 ^ 2 * (alpha1 - alpha2)) in
  let! sl := rsqrt lmbda in
  let! h := rdiv 2 sl in
  t3_scheme [("s31", ([w1; w2], [[(1 - alpha1) / 4; (1 - alpha2) / 4]])); ("s22", ([lmbda ^ 2 / 840], [[(1 - h) / 4]]))] 5.
(** t3/_liu_vinokur.py:143-153 *)
Definition t3_liu_vinokur_13 :=
  let! sqrt13 := rsqrt 13 in
  t3_scheme [("s4", ([- (16/21)], []));
             ("s31", ([(2249 - 391 * sqrt13) / 10920; (2249 + 391 * sqrt13) / 10920], [[(1 - (2 + sqrt13) / 9) / 4; (1 - (2 - sqrt13) / 9) / 4]]));
             ("s22", ([2/105], [[0]]))] 5.
(** t3/_liu_vinokur.py:156-166 *)
Definition t3_liu_vinokur_14 :=
  t3_scheme [("s4", ([16/105], [])); ("s31", ([1/280; 81/1400; 64/525], [[0; 1/3; 1/8]])); ("s22", ([2/105], [[0]]))] 5.
