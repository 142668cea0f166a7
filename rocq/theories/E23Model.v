(** Model of the closed-form schemes in quadpy/e2r, e2r2, e3r and e3r2 (the plane and the space with the weights exp(-|x|) and
    exp(-|x|^2)).  Names, sources and tolerances are omitted; numbers are exact reals.  The aliases in the files _stroud.py
    (e2r.stroud_5_1 = stroud_secrest_5, e2r2.stroud_7_1 = stroud_secrest_6, stroud_e3r_5_2 = stroud_secrest_08, ...) denote the
    same definitions.  stroud_e3r2_14_1 is in RestModel.v; rabinowitz_richter_1-5, haegemans_piessens and
    cools_haegemans read data files (not in this checkout). *)
From Coq Require Import Reals List Arith ZArith String.
From Verif Require Import Spec SphereSpec CombModel PyBase SymmModel S2Model.
Import ListNotations.
Local Notation length := List.length.
Open Scope R_scope.
Open Scope string_scope.

(** e2r/_helpers.py:17-27 (E2rScheme.__init__) and e2r2/_helpers.py:17-27 (E2r2Scheme.__init__); weight_factor is None in the
    calls modelled here. *)
Definition e2_scheme (data : list (string * (list R * list (list R)))) (degree : nat) : option scheme :=
  let! pw := expand_symmetries_str data 2 in
  Some (mk_scheme 2 (mk_rule pw) degree).
(** e3r/_helpers.py:15-20 (E3rScheme.__init__) and e3r2/_helpers.py:15-20 (E3r2Scheme.__init__) *)
Definition e3_scheme (data : list (string * (list R * list (list R)))) (degree : nat) : option scheme :=
  let! pw := expand_symmetries_str data 3 in
  Some (mk_scheme 3 (mk_rule pw) degree).

(** e2r/_stroud.py:23-28; the extra brackets around 2 sqrt(5) add an axis of length one, which the reshape in
    helpers/symmetries.py:342 removes again. *)
Definition e2r_stroud_4_1 :=
  let! sqrt5 := rsqrt 5 in
  e2_scheme [("zero2", ([7/10], [])); ("d5.0", ([3/50], [[2 * sqrt5]]))] 4.
(** e2r/_stroud_secrest.py:18-28 *)
Definition e2r_stroud_secrest_5 :=
  let! sqrt5 := rsqrt 5 in
  let nu := 2 * sqrt5 in
  let xi := sqrt5 in
  let! eta := rsqrt 15 in
  e2_scheme [("zero2", ([7/10], [])); ("c2_a0", ([1/20], [[nu]])); ("sxy", ([1/20], [[xi]; [eta]]))] 5.
(** e2r/_stroud_secrest.py:31-43 *)
Definition e2r_stroud_secrest_6 :=
  let! sqrt74255 := rsqrt 74255 in
  let! nu := rsqrt 42 in
  let! xi := rsqrt ((6615 - 1 * 21 * sqrt74255) / 454) in
  let! eta := rsqrt ((6615 - -1 * 21 * sqrt74255) / 454) in
  let A := 5/588 in
  let B := (5272105 + 1 * 18733 * sqrt74255) / 43661940 in
  let C := (5272105 + -1 * 18733 * sqrt74255) / 43661940 in
  e2_scheme [("d4_a0", ([A], [[nu]])); ("d4_aa", ([B; C], [[xi; eta]]))] 7.

(** e2r2/_stroud.py:24-29 *)
Definition e2r2_stroud_4_1 :=
  let! sqrt2 := rsqrt 2 in
  e2_scheme [("zero2", ([1/2], [])); ("d5.0", ([1/10], [[sqrt2]]))] 4.
(** e2r2/_stroud.py:32-40 *)
Definition e2r2_stroud_5_2 :=
  let! r := rsqrt (3/2) in
  e2_scheme [("zero2", ([4/9], [])); ("d4_a0", ([1/9], [[r]])); ("d4_aa", ([1/36], [[r]]))] 5.
(** e2r2/_stroud.py:43-54; [d4_a0] in the data where the product formula has [d4_aa], and a declared degree of 1 *)
Definition e2r2_stroud_7_2 :=
  let! sqrt6 := rsqrt 6 in
  let! r := rsqrt ((3 + 1 * sqrt6) / 2) in
  let! s := rsqrt ((3 + -1 * sqrt6) / 2) in
  let A := (5 - 1 * 2 * sqrt6) / 48 in
  let B := (5 - -1 * 2 * sqrt6) / 48 in
  let C := 1/48 in
  e2_scheme [("d4_a0", ([A; B], [[r; s]])); ("d4_ab", ([C], [[r]; [s]]))] 1.
(** e2r2/_stroud_secrest.py:18-26 *)
Definition e2r2_stroud_secrest_5 :=
  let! nu := rsqrt 2 in
  let xi := nu / 2 in
  let! sqrt6 := rsqrt 6 in
  let eta := sqrt6 / 2 in
  let A := 1/2 in
  let B := 1/12 in
  e2_scheme [("zero2", ([A], [])); ("c2_a0", ([B], [[nu]])); ("sxy", ([B], [[xi]; [eta]]))] 5.
(** e2r2/_stroud_secrest.py:29-37 *)
Definition e2r2_stroud_secrest_6 :=
  let! sqrt5 := rsqrt 5 in
  let! nu := rsqrt 3 in
  let! xi := rsqrt ((9 - 1 * 3 * sqrt5) / 8) in
  let! eta := rsqrt ((9 - -1 * 3 * sqrt5) / 8) in
  let A := 1/36 in
  let B := (5 + 1 * 2 * sqrt5) / 45 in
  let C := (5 + -1 * 2 * sqrt5) / 45 in
  e2_scheme [("d4_a0", ([A], [[nu]])); ("d4_aa", ([B; C], [[xi; eta]]))] 7.

(** e3r/_stroud_secrest.py:18-27 *)
Definition e3r_stroud_secrest_07 :=
  let! sqrt5 := rsqrt 5 in
  let! nu := rsqrt (15 - 1 * 3 * sqrt5) in
  let! xi := rsqrt (15 - -1 * 3 * sqrt5) in
  e3_scheme [("zero3", ([3/5], [])); ("symm_rs0_roll", ([1/30], [[xi]; [nu]]))] 5.
(** e3r/_stroud_secrest.py:30-42 *)
Definition e3r_stroud_secrest_08 :=
  let! nu := rsqrt 30 in
  let! eta := rsqrt 10 in
  e3_scheme [("zero3", ([3/5], [])); ("symm_r00", ([2/75], [[nu]])); ("symm_rrr", ([3/100], [[eta]]))] 5.
(** e3r/_stroud_secrest.py:45-56 *)
Definition e3r_stroud_secrest_09 :=
  let! eta := rsqrt 10 in
  let! sqrt5 := rsqrt 5 in
  let! xi := rsqrt (15 - 1 * 5 * sqrt5) in
  let! nu := rsqrt (15 - -1 * 5 * sqrt5) in
  let A := 3/5 in
  let B := 1/50 in
  e3_scheme [("zero3", ([A], [])); ("symm_rrr", ([B], [[eta]])); ("symm_rs0_roll", ([B], [[xi]; [nu]]))] 5.
(** e3r/_stroud_secrest.py:59-77 *)
Definition e3r_stroud_secrest_10 :=
  let! sqrt130 := rsqrt 130 in
  let! nu := rsqrt ((720 - 24 * sqrt130) / 11) in
  let! xi := rsqrt (288 + 24 * sqrt130) in
  let! eta := rsqrt ((-216 + 24 * sqrt130) / 7) in
  let A := (5175 - 13 * sqrt130) / 8820 in
  let B := (3870 + 283 * sqrt130) / 493920 in
  let C := (3204 - 281 * sqrt130) / 197568 in
  let D := (4239 + 373 * sqrt130) / 197568 in
  e3_scheme [("zero3", ([A], [])); ("symm_r00", ([B], [[nu]])); ("symm_rr0", ([C], [[xi]])); ("symm_rrr", ([D], [[eta]]))] 7.
(** e3r/_stroud_secrest.py:80-102 *)
Definition e3r_stroud_secrest_11 :=
  let! sqrt5 := rsqrt 5 in
  let! sqrt39 := rsqrt 39 in
  let! sqrt195 := rsqrt 195 in
  let! nu := rsqrt (-50 + 1 * 10 * sqrt5 + 10 * sqrt39 - 1 * 2 * sqrt195) in
  let! xi := rsqrt (-50 + -1 * 10 * sqrt5 + 10 * sqrt39 - -1 * 2 * sqrt195) in
  let! eta := rsqrt (36 + 4 * sqrt39) in
  let! mu := rsqrt (54 + 1 * 18 * sqrt5 + 6 * sqrt39 + 1 * 2 * sqrt195) in
  let! lmbda := rsqrt (54 + -1 * 18 * sqrt5 + 6 * sqrt39 + -1 * 2 * sqrt195) in
  let A := (1725 - 26 * sqrt39) / 2940 in
  let B := (1065 + 171 * sqrt39) / 54880 in
  let C := (297 - 47 * sqrt39) / 32928 in
  e3_scheme [("zero3", ([A], [])); ("symm_rrr", ([C], [[eta]])); ("symm_rs0_roll", ([B; C], [[xi; lmbda]; [nu; mu]]))] 7.

(** e3r2/_stroud_secrest.py:18-31 *)
Definition e3r2_stroud_secrest_07 :=
  let! sqrt5 := rsqrt 5 in
  let! nu := rsqrt ((5 - 1 * sqrt5) / 4) in
  let! xi := rsqrt ((5 - -1 * sqrt5) / 4) in
  e3_scheme [("zero3", ([2/5], [])); ("symm_rs0_roll", ([1/20], [[nu]; [xi]]))] 5.
(** e3r2/_stroud_secrest.py:34-41 *)
Definition e3r2_stroud_secrest_08a :=
  let! r := rsqrt (5/4) in
  let! s := rsqrt (5/2) in
  e3_scheme [("symm_r00", ([4/25], [[r]])); ("symm_rrr", ([1/200], [[s]]))] 5.
(** e3r2/_stroud_secrest.py:44-52 *)
Definition e3r2_stroud_secrest_08b :=
  let! r := rsqrt (5/2) in
  let! s := rsqrt (5/6) in
  e3_scheme [("zero3", ([2/5], [])); ("symm_r00", ([1/25], [[r]])); ("symm_rrr", ([9/200], [[s]]))] 5.
(** e3r2/_stroud_secrest.py:55-63 *)
Definition e3r2_stroud_secrest_09 :=
  let! sqrt5 := rsqrt 5 in
  let! r := rsqrt ((15 - 1 * 5 * sqrt5) / 12) in
  let! s := rsqrt ((15 - -1 * 5 * sqrt5) / 12) in
  let! t := rsqrt (5/6) in
  e3_scheme [("zero3", ([2/5], [])); ("symm_rs0_roll", ([3/100], [[r]; [s]])); ("symm_rrr", ([3/100], [[t]]))] 5.
(** e3r2/_stroud_secrest.py:66-86 (_stroud_secrest_10) *)
Definition e3r2_stroud_secrest_10 (positive : bool) :=
  let plus_minus := if positive then 1 else -1 in
  let! sqrt15 := rsqrt 15 in
  let! r := rsqrt ((15 + plus_minus * sqrt15) / 4) in
  let! s := rsqrt ((6 - plus_minus * sqrt15) / 2) in
  let! t := rsqrt ((9 + plus_minus * 2 * sqrt15) / 2) in
  let A := (720 + plus_minus * 8 * sqrt15) / 2205 in
  let B := (270 - plus_minus * 46 * sqrt15) / 15435 in
  let C := (162 + plus_minus * 41 * sqrt15) / 6174 in
  let D := (783 - plus_minus * 202 * sqrt15) / 24696 in
  e3_scheme [("zero3", ([A], [])); ("symm_r00", ([B], [[r]])); ("symm_rr0", ([C], [[s]])); ("symm_rrr", ([D], [[t]]))] 7.
(** e3r2/_stroud_secrest.py:89-94 *)
Definition e3r2_stroud_secrest_10a := e3r2_stroud_secrest_10 true.
Definition e3r2_stroud_secrest_10b := e3r2_stroud_secrest_10 false.
(** e3r2/_stroud_secrest.py:97-119 (_stroud_secrest_11) *)
Definition e3r2_stroud_secrest_11 (positive : bool) :=
  let p_m := if positive then 1 else -1 in
  let! sqrt2 := rsqrt 2 in
  let! sqrt5 := rsqrt 5 in
  let! sqrt10 := rsqrt 10 in
  let! r := rsqrt ((25 + p_m * 15 * sqrt2 + 5 * sqrt5 + p_m * 3 * sqrt10) / 4) in
  let! s := rsqrt ((25 + p_m * 15 * sqrt2 - 5 * sqrt5 - p_m * 3 * sqrt10) / 4) in
  let! t := rsqrt ((3 - p_m * sqrt2) / 2) in
  let! u := rsqrt ((9 - p_m * 3 * sqrt2 - 3 * sqrt5 + p_m * sqrt10) / 4) in
  let! v := rsqrt ((9 - p_m * 3 * sqrt2 + 3 * sqrt5 - p_m * sqrt10) / 4) in
  let A := (80 + p_m * 8 * sqrt2) / 245 in
  let B := (395 - p_m * 279 * sqrt2) / 13720 in
  let C := (45 + p_m * 29 * sqrt2) / 2744 in
  e3_scheme [("zero3", ([A], [])); ("symm_rs0_roll", ([B; C], [[r; u]; [s; v]])); ("symm_rrr", ([C], [[t]]))] 7.
(** e3r2/_stroud_secrest.py:122-127 *)
Definition e3r2_stroud_secrest_11a := e3r2_stroud_secrest_11 true.
Definition e3r2_stroud_secrest_11b := e3r2_stroud_secrest_11 false.

(** e2r/_helpers.py:42-45 *)
Definition e2r_integrate (q : rule) (f : point -> R) : R := 2 * PI * Rsum (map (fun wp => f (snd wp) * fst wp) q).
(** e2r2/_helpers.py:41-44 *)
Definition e2r2_integrate (q : rule) (f : point -> R) : R := PI * Rsum (map (fun wp => f (snd wp) * fst wp) q).
(** e3r/_helpers.py:22-25 *)
Definition e3r_integrate (q : rule) (f : point -> R) : R := 8 * PI * Rsum (map (fun wp => f (snd wp) * fst wp) q).
(** e3r2/_helpers.py:22-25 *)
Definition e3r2_integrate (q : rule) (f : point -> R) : R := sqrt PI ^ 3 * Rsum (map (fun wp => f (snd wp) * fst wp) q).
(** enr/_helpers.py:14-17 and enr2/_helpers.py:14-17; ndim.enr.volume(n) and ndim.enr2.volume(n, "physicists") are external
    and modelled by what they compute, the integral of the weight. *)
Definition enr_integrate (n : nat) (q : rule) (f : point -> R) : R :=
  radial_int (fun r => exp (- r)) n (fun _ => 1) * Rsum (map (fun wp => f (snd wp) * fst wp) q).
Definition enr2_integrate (n : nat) (q : rule) (f : point -> R) : R :=
  radial_int (fun r => exp (- (r * r))) n (fun _ => 1) * Rsum (map (fun wp => f (snd wp) * fst wp) q).
