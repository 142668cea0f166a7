(** Model of the closed-form schemes in quadpy/s3 (unit ball).  Names, sources and tolerances are omitted; numbers are exact
    reals.  The aliases of _stroud.py:8-16 (stroud_5_1 = ditkin_1, stroud_5_2 = ditkin_2, stroud_7_3 = ditkin_3,
    stroud_3_1 = hammer_stroud_11_3, stroud_7_1a/b = hammer_stroud_15_3a/b, stroud_7_2 = mysovskih) denote the same
    definitions.  stroud_14_1 (_stroud.py:80-143) is given by decimals; it is in RestModel.v. *)
From Coq Require Import Reals List Arith ZArith String.
From Verif Require Import Spec CombModel PyBase SymmModel S2Model.
Import ListNotations.
Local Notation length := List.length.
Open Scope R_scope.
Open Scope string_scope.

(** s3/_helpers.py:18-23 (S3Scheme.__init__). *)
Definition s3_scheme (data : list (string * (list R * list (list R)))) (degree : nat) : option scheme :=
  let! pw := expand_symmetries_str data 3 in
  Some (mk_scheme 3 (mk_rule pw) degree).

(** s3/_classical.py:4-6 *)
Definition s3_midpoint := s3_scheme [("zero3", ([1], []))] 1.
(** s3/_ditkin.py:21-28; alpha is an integer (sympy.Rational takes integers). *)
Definition s3_ditkin_1 (alpha : Z) :=
  let al := IZR alpha in
  let! B0 := rdiv 4 ((al + 5) ^ 2) in
  let! B1 := rdiv ((al + 3) * (al + 7)) (12 * (al + 5) ^ 2) in
  let! sqrt5 := rsqrt 5 in
  let! r2 := rdiv ((al + 5) * (5 + 1 * sqrt5) / 10) (al + 7) in
  let! s2 := rdiv ((al + 5) * (5 + -1 * sqrt5) / 10) (al + 7) in
  let! r := rsqrt r2 in
  let! s := rsqrt s2 in
  s3_scheme [("zero3", ([B0], [])); ("symm_rs0_roll", ([B1], [[r]; [s]]))] 5.
(** s3/_ditkin.py:31-43 *)
Definition s3_ditkin_2 :=
  let B0 := 4/25 in
  let B1 := 21/500 in
  let! sqrt5 := rsqrt 5 in
  let! r := rsqrt ((15 + 1 * 5 * sqrt5) / 42) in
  let! s := rsqrt ((15 + -1 * 5 * sqrt5) / 42) in
  let! t := rsqrt (5/21) in
  s3_scheme [("zero3", ([B0], [])); ("symm_rs0_roll", ([B1], [[r]; [s]])); ("symm_rrr", ([B1], [[t]]))] 5.
(** s3/_ditkin.py:46-61 *)
Definition s3_ditkin_3 :=
  let B0 := 16/175 in
  let B1 := 81/1400 in
  let B2 := 3/280 in
  let! sqrt5 := rsqrt 5 in
  let! r := rsqrt ((5 + 1 * sqrt5) / 18) in
  let! s := rsqrt ((5 + -1 * sqrt5) / 18) in
  let! t := rsqrt (1/3) in
  let! u := rsqrt ((3 - 1 * sqrt5) / 6) in
  let! v := rsqrt ((3 - -1 * sqrt5) / 6) in
  s3_scheme [("zero3", ([B0], [])); ("symm_rs0_roll", ([B1; B2], [[r; u]; [s; v]])); ("symm_rrr", ([B2], [[t]]))] 7.
(** s3/_hammer_stroud.py:21-23 *)
Definition s3_hammer_stroud_11_3 :=
  let! r := rsqrt (3/5) in s3_scheme [("symm_r00", ([1/6], [[r]]))] 3.
(** s3/_hammer_stroud.py:26-33 *)
Definition s3_hammer_stroud_12_3 :=
  let! alpha := rsqrt (3/7) in
  s3_scheme [("zero3", ([1/15], [])); ("symm_r00", ([7/90], [[alpha]])); ("symm_rr0", ([7/180], [[alpha]]))] 5.
(** s3/_hammer_stroud.py:36-50 *)
Definition s3_hammer_stroud_14_3 (variant_a : bool) :=
  let t := if variant_a then 1 else -1 in
  let! sqrt14 := rsqrt 14 in
  let a1 := 1/125 * (9 + t * 2 * sqrt14) in
  let c1 := (71 - t * 12 * sqrt14) / 1000 in
  let! nu := rsqrt ((7 - t * sqrt14) / 7) in
  let! e := rdiv 5 (21 - t * 2 * sqrt14) in
  let! eta1 := rsqrt e in
  s3_scheme [("symm_r00", ([a1], [[nu]])); ("symm_rrr", ([c1], [[eta1]]))] 5.
(** s3/_hammer_stroud.py:53-74 *)
Definition s3_hammer_stroud_15_3 (variant_a : bool) :=
  let t := if variant_a then 1 else -1 in
  let! sqrt30 := rsqrt 30 in
  let nu2 := (45 - t * sqrt30) / 57 in
  let xi2 := (18 + t * sqrt30) / 42 in
  let! eta2 := rdiv 7 (27 + t * 2 * sqrt30) in
  let! a1 := rdiv 1 (nu2 ^ 3) in
  let a1 := a1 / 63 in
  let! b1 := rdiv 1 (xi2 ^ 3) in
  let b1 := b1 / 630 in
  let! c1 := rdiv 1 (eta2 ^ 3) in
  let c1 := c1 / 2520 in
  let a0 := 1 - 6 * a1 - 12 * b1 - 8 * c1 in
  let! nu := rsqrt nu2 in
  let! xi := rsqrt xi2 in
  let! eta := rsqrt eta2 in
  s3_scheme [("zero3", ([a0], [])); ("symm_r00", ([a1], [[nu]])); ("symm_rr0", ([b1], [[xi]])); ("symm_rrr", ([c1], [[eta]]))] 7.
(** s3/_hammer_stroud.py:77-78, 81-82 *)
Definition s3_hammer_stroud_15_3a := s3_hammer_stroud_15_3 true.
Definition s3_hammer_stroud_15_3b := s3_hammer_stroud_15_3 false.
(** s3/_mysovskih.py:22-37 *)
Definition s3_mysovskih :=
  let! sqrt17770 := rsqrt 17770 in
  let! r := rsqrt ((1715 - 1 * 7 * sqrt17770) / 2817) in
  let! s := rsqrt ((1715 - -1 * 7 * sqrt17770) / 2817) in
  let! t := rsqrt (7/18) in
  let! u := rsqrt (7/27) in
  let! B1 := rdiv ((2965 * sqrt17770 + 1 * 227816) / 72030) sqrt17770 in
  let! B2 := rdiv ((2965 * sqrt17770 + -1 * 227816) / 72030) sqrt17770 in
  let B3 := 324/12005 in
  let B4 := 2187/96040 in
  s3_scheme [("symm_r00", ([B1; B2], [[r; s]])); ("symm_rr0", ([B3], [[t]])); ("symm_rrr", ([B4], [[u]]))] 7.
(** s3/_stroud.py:28-77; math.pi and sympy.pi both denote PI. *)
Definition s3_stroud_7_4 :=
  let! q70 := rsqrt 70 in
  let! alpha := rsqrt ((35 + 1 * 2 * q70) / 63) in
  let! beta := rsqrt ((35 + -1 * 2 * q70) / 63) in
  let rho := [- alpha; - beta; beta; alpha] in
  let! q30 := rsqrt 30 in
  let! alpha := rsqrt ((15 + 1 * 2 * q30) / 35) in
  let! beta := rsqrt ((15 + -1 * 2 * q30) / 35) in
  let u := [- alpha; - beta; beta; alpha] in
  let! q2 := rsqrt 2 in
  let! alpha := rsqrt ((2 + 1 * q2) / 4) in
  let! beta := rsqrt ((2 + -1 * q2) / 4) in
  let v := [- alpha; - beta; beta; alpha] in
  let alpha := (50 + 1 * q70) / 300 in
  let beta := (50 + -1 * q70) / 300 in
  let A := [alpha; beta; beta; alpha] in
  let alpha := (18 - 1 * q30) / 36 in
  let beta := (18 - -1 * q30) / 36 in
  let B := [alpha; beta; beta; alpha] in
  let C := repeat (PI / 4) 4 in
  let! su := opt_all (map (fun x => rsqrt (1 - x ^ 2)) u) in
  let! sv := opt_all (map (fun x => rsqrt (1 - x ^ 2)) v) in
  let at_ l i := nth i l 0 in
  let data :=
    flat_map (fun i => flat_map (fun j => map (fun k =>
      (at_ A i * at_ B j * at_ C k,
       [[at_ rho i * at_ su j * at_ sv k; at_ rho i * at_ su j * at_ v k; at_ rho i * at_ u j * 1]]))
      (seq 0 4)) (seq 0 4)) (seq 0 4) in
  let (points, weights) := untangle data in
  let weights := map (fun x => x / (4 / 3 * PI)) weights in
  s3_scheme [("plain", (weights, [map (fun p => nth 0 p 0) points; map (fun p => nth 1 p 0) points; map (fun p => nth 2 p 0) points]))] 7.
