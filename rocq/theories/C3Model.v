(** Model of the closed-form schemes in quadpy/c3 (cube [-1,1]^3).  Names, sources and tolerances are omitted; numbers
    are exact reals. *)
From Coq Require Import Reals List Arith String.
From Verif Require Import Spec CombModel PyBase SymmModel.
Import ListNotations.
Open Scope R_scope.
Open Scope string_scope.

(** c3/_helpers.py:17-22 (C3Scheme.__init__). *)
Definition c3_scheme (data : list (string * (list R * list (list R)))) (degree : nat) : option scheme :=
  let! pw := expand_symmetries_str data 3 in
  Some (mk_scheme 3 (mk_rule pw) degree).

(** c3/_classical.py:6-8 *)
Definition c3_midpoint := c3_scheme [("zero3", ([1], []))] 1.
(** c3/_classical.py:11-13 *)
Definition c3_vertex := c3_scheme [("symm_rrr", ([1/8], [[1]]))] 1.
(** c3/_classical.py:16-18 *)
Definition c3_face_midpoint := c3_scheme [("symm_r00", ([1/6], [[1]]))] 3.
(** c3/_albrecht_collatz.py:18-24 *)
Definition c3_albrecht_collatz :=
  c3_scheme [("zero3", ([1/4], [])); ("symm_r00", ([1/12], [[1]])); ("symm_rr0", ([1/48], [[1]]))] 3.
(** c3/_hammer_stroud.py:18-20 *)
Definition c3_hammer_stroud_1_3 := c3_scheme [("symm_r00", ([1/6], [[1]]))] 3.
(** c3/_hammer_stroud.py:23-30 *)
Definition c3_hammer_stroud_2_3 :=
  let! alpha := rsqrt (3/5) in
  c3_scheme [("zero3", ([56/27/8], [])); ("symm_r00", ([-(20/81)/8], [[alpha]])); ("symm_rr0", ([50/81/8], [[alpha]]))] 5.
(** c3/_hammer_stroud.py:33-38 *)
Definition c3_hammer_stroud_4_3 :=
  let! r := rsqrt (19/30) in
  let! s := rsqrt (19/33) in
  c3_scheme [("symm_r00", ([320/361/8], [[r]])); ("symm_rrr", ([121/361/8], [[s]]))] 5.
(** c3/_hammer_stroud.py:41-64 *)
Definition c3_hammer_stroud_5_3 (variant_a : bool) :=
  let i := if variant_a then 1 else -1 in
  let! q := rsqrt 165 in
  let r2 := (33 - i * q) / 28 in
  let s2 := (30 + i * q) / 35 in
  let t2 := (195 - i * 4 * q) / 337 in
  let! r := rsqrt r2 in
  let! s := rsqrt s2 in
  let! t := rsqrt t2 in
  let! b1 := rdiv 176 (r2 ^ 3) in
  let! b2 := rdiv 8 (s2 ^ 3) in
  let! b3 := rdiv 8 (t2 ^ 3) in
  let B1 := b1 / 945 in
  let B2 := b2 / 135 in
  let B3 := b3 / 216 in
  let B0 := 8 - 6 * B1 - 12 * B2 - 8 * B3 in
  c3_scheme [("zero3", ([B0/8], [])); ("symm_r00", ([B1/8], [[r]])); ("symm_rr0", ([B2/8], [[s]]));
             ("symm_rrr", ([B3/8], [[t]]))] 7.
(** c3/_hammer_stroud.py:67-68, 71-72 *)
Definition c3_hammer_stroud_5_3a := c3_hammer_stroud_5_3 true.
Definition c3_hammer_stroud_5_3b := c3_hammer_stroud_5_3 false.
(** c3/_hammer_wymore.py:21-64 *)
Definition c3_hammer_wymore (lmbda : R) :=
  let I0 := 8 in
  let I2 := 8/3 in
  let I4 := 8/5 in
  let I22 := 8/9 in
  let I6 := 8/7 in
  let I42 := 8/15 in
  let I222 := 8/27 in
  let u1 := (I6 - 2 * I42 + I222 + lmbda * (I42 - I222)) / (I4 - I22) in
  let! u2 := rdiv u1 lmbda in
  let! a1 := rdiv ((I6 - 2 * I42 + I222) / 2) (u1 ^ 3) in
  let! a2 := rdiv ((I42 - I222) / 4) (u2 ^ 3) in
  let p0 := I0 - 6 * a1 - 12 * a2 in
  let p1 := I2 - 2 * a1 * u1 - 8 * a2 * u2 in
  let p2 := I22 - 4 * a2 * u2 ^ 2 in
  let p3 := I222 in
  let! c0 := rdiv (p3 * p1 - p2 ^ 2) (p0 * p2 - p1 ^ 2) in
  let! c1 := rdiv (p3 * p0 - p1 * p2) (p1 ^ 2 - p2 * p0) in
  let! b := rsqrt (c1 ^ 2 - 4 * c0) in
  let u3 := (- c1 - b) / 2 in
  let u4 := (- c1 + b) / 2 in
  let! a3 := rdiv ((p0 * u4 - p1) / 8) (u4 - u3) in
  let! a4 := rdiv ((p0 * u3 - p1) / 8) (u3 - u4) in
  let! x1 := rsqrt u1 in
  let! x2 := rsqrt u2 in
  let! x3 := rsqrt u3 in
  let! x4 := rsqrt u4 in
  c3_scheme [("symm_r00", ([a1/8], [[x1]])); ("symm_rr0", ([a2/8], [[x2]])); ("symm_rrr", ([a3/8; a4/8], [[x3; x4]]))] 7.
(** c3/_mustard_lyness_blatt.py:18-74 *)
Definition c3_mustard_lyness_blatt_1 := c3_scheme [("zero3", ([1/2], [])); ("symm_rr0", ([1/24], [[1]]))] 3.
Definition c3_mustard_lyness_blatt_2 :=
  c3_scheme [("zero3", ([2/9], [])); ("symm_r00", ([1/9], [[1]])); ("symm_rrr", ([1/72], [[1]]))] 3.
Definition c3_mustard_lyness_blatt_3 := c3_scheme [("symm_rr0", ([1/6], [[1]])); ("symm_rrr", ([-(1/8)], [[1]]))] 3.
Definition c3_mustard_lyness_blatt_4 :=
  c3_scheme [("zero3", ([-(2/45)], [])); ("symm_r00", ([2/45], [[1]])); ("symm_rrr", ([4/45; 1/120], [[1/2; 1]]))] 5.
Definition c3_mustard_lyness_blatt_5 :=
  c3_scheme [("zero3", ([-(19/15)], [])); ("symm_r00", ([16/45; -(1/30)], [[1/2; 1]])); ("symm_rr0", ([1/36], [[1]]))] 5.
Definition c3_mustard_lyness_blatt_6 :=
  c3_scheme [("zero3", ([-(4/3)], [])); ("symm_r00", ([16/45], [[1/2]])); ("symm_rr0", ([1/90], [[1]]));
             ("symm_rrr", ([1/120], [[1]]))] 5.
Definition c3_mustard_lyness_blatt_7 :=
  c3_scheme [("zero3", ([2/45], [])); ("symm_rr0", ([1/45], [[1]])); ("symm_rrr", ([4/45; -1/360], [[1/2; 1]]))] 5.
(** c3/_sadowsky.py:20-26 *)
Definition c3_sadowsky :=
  let! r := rsqrt (5/8) in
  c3_scheme [("symm_r00", ([91/450], [[1]])); ("symm_rr0", ([-20/225], [[1]])); ("symm_rrs", ([8/225], [[r]; [1]]))] 5.
(** c3/_stroud.py:33-36 *)
Definition c3_stroud_3_2 :=
  let! r := rsqrt (1/3) in
  c3_scheme [("symm_rrr", ([1/8], [[r]]))] 3.
(** c3/_stroud_1967.py:20-43 *)
Definition c3_stroud_1967 :=
  let! sqrt19 := rsqrt 19 in
  let! t := rsqrt (71440 + 6802 * sqrt19) in
  let! lmbd := rsqrt ((1919 - 148 * sqrt19 + 1 * 4 * t) / 3285) in
  let! gmma := rsqrt ((1919 - 148 * sqrt19 + -1 * 4 * t) / 3285) in
  let! xi' := rsqrt ((1121 + 74 * sqrt19 - 1 * 2 * t) / 3285) in
  let! mu' := rsqrt ((1121 + 74 * sqrt19 - -1 * 2 * t) / 3285) in
  let xi := - xi' in
  let mu := - mu' * -1 in
  let! B := rdiv 133225 (260072 - 1520 * sqrt19 + 1 * (133 - 37 * sqrt19) * t) in
  let! C := rdiv 133225 (260072 - 1520 * sqrt19 + -1 * (133 - 37 * sqrt19) * t) in
  c3_scheme [("zero3", ([32/19/8], [])); ("symm_rss_pm", ([B/8; C/8], [[lmbd; gmma]; [xi; mu]]))] 5.
(** c3/_tyler.py:17-19, 22-28 *)
Definition c3_tyler_1 := c3_scheme [("symm_r00", ([1/6], [[1]]))] 3.
Definition c3_tyler_2 :=
  c3_scheme [("zero3", ([-(62/45)], [])); ("symm_r00", ([16/45; 1/45], [[1/2; 1]])); ("symm_rrr", ([1/72], [[1]]))] 5.
