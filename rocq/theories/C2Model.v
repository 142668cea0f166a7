(** Model of the closed-form schemes in quadpy/c2 (square [-1,1]^2): the constructors that build their data from
    rational numbers and square roots.  Names, sources and tolerances are omitted; numbers are exact reals. *)
From Coq Require Import Reals List Arith String.
From Verif Require Import Spec CombModel PyBase SymmModel.
Import ListNotations.
Open Scope R_scope.
Open Scope string_scope.

(** c2/_helpers.py:21-28 (C2Scheme.__init__). *)
Definition c2_scheme (data : list (string * (list R * list (list R)))) (degree : nat) : option scheme :=
  let! pw := expand_symmetries_str data 2 in
  Some (mk_scheme 2 (mk_rule pw) degree).

(** c2/_albrecht_collatz.py:19-25 *)
Definition c2_albrecht_collatz_1 :=
  c2_scheme [("zero2", ([5/12], [])); ("d4_a0", ([1/8], [[1]])); ("d4_aa", ([1/48], [[1]]))] 3.
(** c2/_albrecht_collatz.py:28-37 *)
Definition c2_albrecht_collatz_2 :=
  let! r := rsqrt (3/5) in
  let! s := rsqrt (1/3) in
  let! t := rsqrt (14/15) in
  c2_scheme [("zero2", ([2/7], [])); ("c2", ([5/63], [[0]; [t]])); ("sxy", ([5/36], [[r]; [s]]))] 5.
(** c2/_albrecht_collatz.py:40-47 *)
Definition c2_albrecht_collatz_3 :=
  let! r := rsqrt (7/15) in
  let! q := rsqrt 24 in
  let! s := rsqrt ((7 + 1 * q) / 15) in
  let! t := rsqrt ((7 + -1 * q) / 15) in
  c2_scheme [("zero2", ([2/7], [])); ("c2", ([25/168; 5/48; 5/48], [[r; s; t]; [r; -t; -s]]))] 5.
(** c2/_albrecht_collatz.py:50-56 *)
Definition c2_albrecht_collatz_4 :=
  c2_scheme [("zero2", ([2/45], [])); ("d4_a0", ([2/45], [[1]])); ("d4_aa", ([1/60; 8/45], [[1; 1/2]]))] 5.
(** c2/_burnside.py:17-22 *)
Definition c2_burnside :=
  let! r := rsqrt (7/15) in
  let! s := rsqrt (7/9) in
  c2_scheme [("d4_a0", ([10/49], [[r]])); ("d4_aa", ([9/196], [[s]]))] 5.
(** c2/_cohen_gismalla.py:21-26 *)
Definition c2_cohen_gismalla_1 :=
  let B := 5/28 in
  let! q := rsqrt (2/63) in
  let! u := rsqrt ((1/3 + 1 * q) / (5/7)) in
  let! v := rsqrt ((1/3 + -1 * q) / (5/7)) in
  c2_scheme [("zero2", ([2/7], [])); ("c2", ([B; B], [[u; v]; [-v; u]]))] 3.
(** c2/_franke.py:23-36; sympy's Rational has no value for a zero denominator. *)
Definition c2_franke_1 (lmbda : R) :=
  guard (if Rle_dec (- (9/5)) lmbda then if Rle_dec lmbda (9/4) then true else false else false) (
  let! a := rsqrt ((9 + 5 * lmbda) / 15) in
  let! b := rsqrt ((9 - 4 * lmbda) / 15) in
  let! c := rsqrt (3/5) in
  let! w0 := rdiv (4 * (4 + 5 * lmbda)) (9 * (9 + 5 * lmbda)) in
  let! w1 := rdiv 25 (36 * (9 - 4 * lmbda)) in
  let! w2 := rdiv 40 (36 * (9 + 5 * lmbda)) in
  let! w3 := rdiv (10 * (1 - lmbda)) (9 * (9 - 4 * lmbda)) in
  c2_scheme [("zero2", ([w0], [])); ("sxy", ([w1], [[b]; [c]])); ("c2_a0", ([w2], [[a]])); ("c2_0a", ([w3], [[c]]))] 5).
(** c2/_franke.py:172-173: every weight is divided by 4. *)
Definition c2_quarter (data : list (string * (list R * list (list R)))) : list (string * (list R * list (list R))) :=
  map (fun kv => (fst kv, (map (fun v => v / 4) (fst (snd kv)), snd (snd kv)))) data.
(** c2/_franke.py:162-174 *)
Definition c2_franke_6 :=
  let! a := rsqrt (3/2) in
  let! q := rsqrt (10/31) in
  let! b := rsqrt (3/7 * (1 + q)) in
  let! c := rsqrt (3/7 * (1 - q)) in
  c2_scheme (c2_quarter [("zero2", ([392/405], [])); ("d4_aa", ([16/2025], [[a]])); ("d4_ab", ([1519/4050], [[b]; [c]]))]) 7.
(** c2/_hammer_stroud.py:19-21 *)
Definition c2_hammer_stroud_1_2 :=
  let! r := rsqrt (2/3) in
  c2_scheme [("d4_a0", ([1/4], [[r]]))] 3.
(** c2/_hammer_stroud.py:24-31 *)
Definition c2_hammer_stroud_2_2 :=
  let! alpha := rsqrt (3/5) in
  c2_scheme [("zero2", ([16/81], [])); ("d4_a0", ([10/81], [[alpha]])); ("d4_aa", ([25/(4*81)], [[alpha]]))] 5.
(** c2/_irwin.py:15-17 *)
Definition c2_irwin_1 := c2_scheme [("d4_aa", ([14/48], [[1]])); ("d4_ab", ([-(1/48)], [[3]; [1]]))] 3.
(** c2/_irwin.py:20-25 *)
Definition c2_irwin_2 :=
  c2_scheme [("d4_aa", ([889/2880; 5/2880], [[1; 3]])); ("d4_ab", ([-(98/2880); 11/2880], [[3; 5]; [1; 1]]))] 5.
(** c2/_maxwell.py:18-28 *)
Definition c2_maxwell :=
  let! r := rsqrt (12/35) in
  let! q := rsqrt 186 in
  let! s := rsqrt ((93 + 1 * 3 * q) / 155) in
  let! t := rsqrt ((93 + -1 * 3 * q) / 155) in
  c2_scheme [("zero2", ([1/81], [])); ("d4_a0", ([49/324], [[r]])); ("d4_ab", ([31/648], [[s]; [t]]))] 7.
(** c2/_meister.py:18-28 *)
Definition c2_meister :=
  let r := 2/3 in
  let s := 1/3 in
  c2_scheme [("zero2", ([1024/6720], [])); ("d4_aa", ([576/6720; -(9/6720); 47/6720], [[r; s; 1]]));
             ("d4_a0", ([576/6720], [[r]])); ("d4_ab", ([117/6720], [[1]; [s]]))] 7.
(** c2/_miller.py:19-26 *)
Definition c2_miller :=
  c2_scheme [("zero2", ([250/225], [])); ("d4_a0", ([-(8/225)], [[1]])); ("d4_aa", ([7/900], [[1]]))] 1.
(** c2/_phillips.py:20-32 *)
Definition c2_phillips :=
  let! q := rsqrt 385 in
  let c := 3 * q in
  let! r := rsqrt ((105 + 1 * c) / 140) in
  let! s := rsqrt ((105 + -1 * c) / 140) in
  let! t := rsqrt (3/5) in
  let B1 := (77 - 1 * c) / 891 in
  let B2 := (77 - -1 * c) / 891 in
  let B3 := 25/324 in
  c2_scheme [("d4_a0", ([B1; B2], [[r; s]])); ("d4_aa", ([B3], [[t]]))] 7.
(** c2/_stroud.py:38-41 *)
Definition c2_stroud_1_1 := c2_scheme [("d4_aa", ([1/4], [[1]]))] 1.
(** c2/_stroud.py:44-47 *)
Definition c2_stroud_3_1 :=
  let! r := rsqrt (1/3) in
  c2_scheme [("d4_aa", ([1/4], [[r]]))] 3.
(** c2/_stroud.py:58-65 *)
Definition c2_stroud_5_4 :=
  let! r := rsqrt (3/5) in
  c2_scheme [("zero2", ([16/81], [])); ("d4_a0", ([10/81], [[r]])); ("d4_aa", ([25/324], [[r]]))] 5.
(** c2/_stroud.py:68-81 (r is overwritten in line 75) *)
Definition c2_stroud_7_4 :=
  let! q := rsqrt 30 in
  let! r0 := rsqrt ((15 - 1 * 2 * q) / 35) in
  let! s := rsqrt ((15 - -1 * 2 * q) / 35) in
  let B1 := (59 + 1 * 6 * q) / 864 in
  let B2 := (59 + -1 * 6 * q) / 864 in
  let B3 := 49/864 in
  let! r := rsqrt (3/5) in
  c2_scheme [("d4_aa", ([B1; B2], [[r; s]])); ("d4_ab", ([B3], [[r]; [s]]))] 1.
(** c2/_tyler.py:18-24 *)
Definition c2_tyler_1 :=
  c2_scheme [("zero2", ([-(28/45)], [])); ("d4_aa", ([1/36], [[1]])); ("d4_a0", ([1/45; 16/45], [[1; 1/2]]))] 5.
(** c2/_tyler.py:27-33 *)
Definition c2_tyler_2 :=
  let! r := rsqrt (6/7) in
  let! q := rsqrt 583 in
  let! s := rsqrt ((114 - 1 * 3 * q) / 287) in
  let! t := rsqrt ((114 - -1 * 3 * q) / 287) in
  let B1 := 49/810 in
  let B2 := (178981 + 1 * 2769 * q) / 1888920 in
  let B3 := (178981 + -1 * 2769 * q) / 1888920 in
  c2_scheme [("d4_a0", ([B1], [[r]])); ("d4_aa", ([B2; B3], [[s; t]]))] 7.
(** c2/_tyler.py:36-45 *)
Definition c2_tyler_3 :=
  c2_scheme [("zero2", ([449/315], [])); ("d4_a0", ([37/1260; 3/28; -(69/140)], [[1; 2/3; 1/3]]));
             ("d4_aa", ([7/540; 32/135], [[1; 1/2]]))] 7.
(** c2/_waldron.py:17-36.  sin(beta) and cos(beta) for beta = alpha + pi/2; the float rounding of pi is ignored. *)
Definition c2_waldron (r alpha : R) :=
  guard (if Rle_dec (1/3) (r ^ 2) then true else false) (
  let! q := rsqrt (3 * r ^ 2 - 1) in
  let! R := rdiv r q in
  let beta := alpha + PI / 2 in
  let! w := rdiv (1/6) (r ^ 2) in
  let! W := rdiv (1/6) (R ^ 2) in
  c2_scheme [("plain", ([w; w; W; W], [[r * cos alpha; - r * cos alpha; R * cos beta; - R * cos beta];
                                       [r * sin alpha; - r * sin alpha; R * sin beta; - R * sin beta]]))] 3).
(** c2/_dunavant/__init__.py:26-28 *)
Definition c2_dunavant_00 := c2_scheme [("zero2", ([1], []))] 1.
(** c2/_dunavant/__init__.py:31-33 *)
Definition c2_dunavant_01 :=
  let! r := rsqrt (1/3) in
  c2_scheme [("d4_aa", ([1/4], [[r]]))] 3.
(** c2/_dunavant/__init__.py:36-41 *)
Definition c2_dunavant_02 :=
  let! r := rsqrt (7/15) in
  let! s := rsqrt (7/9) in
  c2_scheme [("d4_a0", ([10/49], [[r]])); ("d4_aa", ([9/196], [[s]]))] 5.
