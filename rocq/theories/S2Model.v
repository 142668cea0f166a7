(** Model of the closed-form schemes in quadpy/s2 (unit disk) and of the families lether(n), peirce_1957(m).
    Names, sources and tolerances are omitted; numbers are exact reals.  Aliases (hammer_stroud_11_2 = albrecht_collatz,
    hammer_stroud_13_2 = peirce_1956_1, hammer_stroud_17 = stroud_s2_5_1 = radon(0), hammer_stroud_20 = peirce_1956_3 and the
    imports of _stroud.py:5-25) denote the same definitions. *)
From Coq Require Import Reals List Arith ZArith String.
From Verif Require Import Spec CombModel PyBase SymmModel.
Import ListNotations.
Local Notation length := List.length.
Local Notation concat := List.concat.
Open Scope R_scope.
Open Scope string_scope.

(** s2/_helpers.py:18-34 (S2Scheme.__init__, weight_factor absent). *)
Definition s2_scheme (data : list (string * (list R * list (list R)))) (degree : nat) : option scheme :=
  let! pw := expand_symmetries_str data 2 in
  Some (mk_scheme 2 (mk_rule pw) degree).

(** s2/_albrecht.py:29-32 *)
Definition s2_albrecht_1 := s2_scheme [("d4_aa", ([1/4], [[1/2]]))] 3.
(** s2/_albrecht.py:35-37 *)
Definition s2_albrecht_2 :=
  let! r := rsqrt (2/3) in
  s2_scheme [("zero2", ([1/4], [])); ("d6.1", ([1/8], [[r]]))] 5.
(** s2/_albrecht.py:40-46 *)
Definition s2_albrecht_3 :=
  let! sqrt29 := rsqrt 29 in
  let a1 := (551 + 1 * 41 * sqrt29) / 6264 in
  let a2 := (551 + -1 * 41 * sqrt29) / 6264 in
  let! rho1 := rsqrt ((27 - 1 * 3 * sqrt29) / 52) in
  let! rho2 := rsqrt ((27 - -1 * 3 * sqrt29) / 52) in
  let! t := rsqrt (3/4) in
  s2_scheme [("d4.1", ([2/27], [[t]])); ("d4.0", ([a1; a2], [[rho1; rho2]]))] 7.
(** s2/_albrecht.py:49-62 *)
Definition s2_albrecht_4 :=
  let! sqrt111 := rsqrt 111 in
  let! rho1 := rsqrt ((96 - 1 * 4 * sqrt111) / 155) in
  let! rho2 := rsqrt ((96 - -1 * 4 * sqrt111) / 155) in
  let B0 := 251/2304 in
  let B1 := (110297 + 1 * 5713 * sqrt111) / 2045952 in
  let B2 := (110297 + -1 * 5713 * sqrt111) / 2045952 in
  let C := 125/3072 in
  let! t := rsqrt (4/5) in
  s2_scheme [("zero2", ([B0], [])); ("d6.0", ([B1; B2], [[rho1; rho2]])); ("d6.1", ([C], [[t]]))] 9.
(** mp.polyroots and mp.lu_solve are arguments.  np.vander(x, increasing=True).T: row p holds the powers x_i^p. *)
Definition roots_t := list R -> list R.
Definition solve_t := list (list R) -> list R -> list R.
Definition vander_t (x : list R) : list (list R) := map (fun p => map (fun xi => xi ^ p) x) (seq 0 (length x)).
Fixpoint opt_all {A} (l : list (option A)) : option (list A) :=
  match l with
  | [] => Some []
  | x :: l' => let! a := x in let! r := opt_all l' in Some (a :: r)
  end.
(** s2/_albrecht.py:65-90 *)
Definition s2_albrecht_5 (roots : roots_t) (linear_solve : solve_t) :=
  let sigma2 := roots [6317094; -10022245; 4149900; -336375] in
  let A := vander_t sigma2 in
  let b := [168899/1350000; 7661/180000; 71/3000] in
  let B := linear_solve A b in
  let! sqrt19 := rsqrt 19 in
  let! s1 := rsqrt ((125 - 1 * 10 * sqrt19) / 366) in
  let! s2 := rsqrt ((125 - -1 * 10 * sqrt19) / 366) in
  let C1 := (7494892 + 1 * 1053263 * sqrt19) / 205200000 in
  let C2 := (7494892 + -1 * 1053263 * sqrt19) / 205200000 in
  let D := 81/3125 in
  let! t := rsqrt (5/6) in
  let u := t * cos (PI / 8) in
  let v := t * sin (PI / 8) in
  let! r := opt_all (map rsqrt [nth 0 sigma2 0; nth 1 sigma2 0; nth 2 sigma2 0]) in
  s2_scheme [("d4_a0", (B, [r])); ("d4_aa", ([C1; C2], [[s1; s2]])); ("d4_ab", ([D], [[u]; [v]]))] 11.
(** s2/_albrecht.py:93-109 *)
Definition s2_albrecht_6 (roots : roots_t) (linear_solve : solve_t) :=
  let sigma2 := roots [11025; -19020; 9370; -1212] in
  let A := vander_t sigma2 in
  let b := [1432433/18849024; 1075/31104; 521/25920] in
  let B := linear_solve A b in
  let B0 := 2615/43632 in
  let C := 16807/933120 in
  let! r := opt_all (map rsqrt sigma2) in
  let! t := rsqrt (6/7) in
  s2_scheme [("zero2", ([B0], [])); ("d10.0", (B, [r])); ("d10.1", ([C], [[t]]))] 13.
(** s2/_albrecht.py:112-130 *)
Definition s2_albrecht_7 (roots : roots_t) (linear_solve : solve_t) :=
  let! sqrt21 := rsqrt 21 in
  let wt1 := (4998 + 1 * 343 * sqrt21) / 253125 in
  let wt2 := (4998 + -1 * 343 * sqrt21) / 253125 in
  let! tau1 := rsqrt ((21 - 1 * sqrt21) / 28) in
  let! tau2 := rsqrt ((21 - -1 * sqrt21) / 28) in
  let sigma2 := roots [4960228; -10267740; 6746490; -1476540; 70425] in
  let A := vander_t sigma2 in
  let b := [57719/675000; 9427/270000; 193/9000; 113/7200] in
  let ws := linear_solve A b in
  let! r := opt_all (map rsqrt sigma2) in
  s2_scheme [("d8.0", (ws, [r])); ("d8.1", ([wt1; wt2], [[tau1; tau2]]))] 15.
(** s2/_albrecht.py:133-160 *)
Definition s2_albrecht_8 (roots : roots_t) (linear_solve : solve_t) :=
  let m0 := 496439663/13349499975 in
  let! sqrt7 := rsqrt 7 in
  let wt1 := (125504 + 1 * 16054 * sqrt7) / 8751645 in
  let wt2 := (125504 + -1 * 16054 * sqrt7) / 8751645 in
  let! tau1 := rsqrt ((14 - 1 * sqrt7) / 18) in
  let! tau2 := rsqrt ((14 - -1 * sqrt7) / 18) in
  let sigma2 := roots [160901628; -364759920; 274856190; -76570340; 6054195] in
  let A := vander_t sigma2 in
  let b := [121827491812/1802182496625; 48541/1666980; 977/55566; 671/52920] in
  let ws := linear_solve A b in
  let! r := opt_all (map rsqrt sigma2) in
  s2_scheme [("zero2", ([m0], [])); ("d10.0", (ws, [r])); ("d10.1", ([wt1; wt2], [[tau1; tau2]]))] 17.
(** s2/_albrecht_collatz.py:21-24 *)
Definition s2_albrecht_collatz := s2_scheme [("d4_aa", ([1/4], [[1/2]]))] 3.
(** s2/_classical.py:4-6 *)
Definition s2_midpoint := s2_scheme [("zero2", ([1], []))] 1.
(** s2/_hammer_stroud.py:30-36 *)
Definition s2_hammer_stroud_12_2 :=
  let! r := rsqrt (1/2) in
  s2_scheme [("zero2", ([1/6], [])); ("d4_a0", ([1/6], [[r]])); ("sxy", ([1/24], [[r]; [r]]))] 5.
(** s2/_hammer_stroud.py:48-59 *)
Definition s2_hammer_stroud_18 :=
  let! sqrt3 := rsqrt 3 in
  let! r1 := rsqrt ((3 - 1 * sqrt3) / 6) in
  let! r2 := rsqrt ((3 - -1 * sqrt3) / 6) in
  s2_scheme [("d8.0", ([1/16; 1/16], [[r1; r2]]))] 7.
(** s2/_lether.py:19-32; np.polynomial.legendre.leggauss is the argument.  np.tile repeats the whole row n times;
    np.outer(..).flatten() is row by row. *)
Definition leggauss_t := nat -> list R * list R.
Definition s2_lether (leggauss : leggauss_t) (n : nat) :=
  guard (1 <=? n)%nat (
  let (p, w) := leggauss n in
  let mu := seq 1 n in
  let px := concat (repeat (map (fun m => cos (INR m * PI / INR (n + 1))) mu) n) in
  let py := concat (map (fun pi => map (fun m => pi * sin (INR m * PI / INR (n + 1))) mu) p) in
  let weights := map (fun x => x / INR (n + 1)) (concat (map (fun wi => map (fun m => wi * sin (INR m * PI / INR (n + 1)) ^ 2) mu) w)) in
  s2_scheme [("plain", (weights, [px; py]))] (2 * n - 1)).
(** s2/_mysovskih.py:24-34; alpha is an integer (sympy.Rational takes integers). *)
Definition s2_mysovskih_1 (alpha : Z) :=
  let al := IZR alpha in
  let! f := rdiv (al + 4) (al + 6) in
  let! b := rsqrt f in
  let! B0 := rdiv 4 ((al + 4) ^ 2) in
  let! B1 := rdiv ((al + 2) * (al + 6)) (5 * (al + 4) ^ 2) in
  s2_scheme [("zero2", ([B0], [])); ("d5.0", ([B1], [[b]]))] 4.
(** s2/_mysovskih.py:37-52 *)
Definition s2_mysovskih_2 :=
  let! sqrt10 := rsqrt 10 in
  let! sqrt601 := rsqrt 601 in
  let! B1 := rdiv ((857 * sqrt601 + 1 * 12707) / 20736) sqrt601 in
  let! B3 := rdiv ((857 * sqrt601 + -1 * 12707) / 20736) sqrt601 in
  let B2 := 125/3456 in
  let B4 := (340 + 1 * 25 * sqrt10) / 10368 in
  let B5 := (340 + -1 * 25 * sqrt10) / 10368 in
  let! r1 := rsqrt ((31 - 1 * sqrt601) / 60) in
  let! r3 := rsqrt ((31 - -1 * sqrt601) / 60) in
  let! r2 := rsqrt (3/5) in
  let! r4 := rsqrt ((10 - 1 * sqrt10) / 20) in
  let! r5 := rsqrt ((10 - -1 * sqrt10) / 20) in
  let! c4 := rsqrt ((10 - 1 * sqrt10) / 60) in
  let! s5 := rsqrt ((10 - -1 * sqrt10) / 60) in
  s2_scheme [("d4_a0", ([B1; B2; B3], [[r1; r2; r3]])); ("d4_ab", ([B4; B5], [[r4; r5]; [c4; s5]]))] 11.
(** s2/_peirce_1956.py:23-33 *)
Definition s2_peirce_1956_1 :=
  let! sqrt29 := rsqrt 29 in
  let! r := rsqrt (3/4) in
  let! s := rsqrt ((27 - 1 * 3 * sqrt29) / 104) in
  let! t := rsqrt ((27 - -1 * 3 * sqrt29) / 104) in
  let B1 := 2/27 in
  let B2 := (551 + 1 * 41 * sqrt29) / 6264 in
  let B3 := (551 + -1 * 41 * sqrt29) / 6264 in
  s2_scheme [("d4_a0", ([B1], [[r]])); ("d4_aa", ([B2; B3], [[s; t]]))] 7.
(** s2/_peirce_1956.py:36-57 *)
Definition s2_peirce_1956_2 :=
  let! sqrt15 := rsqrt 15 in
  let cos_pi8 := cos (PI / 8) in
  let sin_pi8 := sin (PI / 8) in
  let! r := rsqrt ((5 + sqrt15) / 10) in
  let! q := rsqrt ((5 - sqrt15) / 10) in
  let u1 := q * cos_pi8 in
  let v1 := q * sin_pi8 in
  let! q2 := rsqrt (1/2) in
  let u2 := q2 * cos_pi8 in
  let v2 := q2 * sin_pi8 in
  let! t := rsqrt (185 * sqrt15 - 700) in
  let! u3 := rsqrt ((5 + sqrt15 + 1 * t) / 20) in
  let! v3 := rsqrt ((5 + sqrt15 + -1 * t) / 20) in
  let B1 := (12060 - 1440 * sqrt15) / 254088 in
  let B2 := 5/144 in
  let B3 := 1/18 in
  let B4 := (5585 + 1440 * sqrt15) / 508176 in
  s2_scheme [("d4_a0", ([B1], [[r]])); ("d4_ab", ([B2; B3; B4], [[u1; u2; u3]; [v1; v2; v3]]))] 9.
(** s2/_peirce_1956.py:60-82 *)
Definition s2_peirce_1956_3 :=
  let! sqrt15 := rsqrt 15 in
  let B1 := 5/144 in
  let B2 := (34 - 5 * sqrt15) / 396 in
  let B3 := (4805 - 620 * sqrt15) / 103824 in
  let C1 := (10 + 5 * sqrt15) / 792 in
  let C2 := (2405 + 620 * sqrt15) / 207648 in
  let D := B1 in
  let! r1 := rsqrt ((5 - sqrt15) / 10) in
  let! r2 := rsqrt (1/2) in
  let! r3 := rsqrt ((5 + sqrt15) / 10) in
  let! p := rsqrt (45 - 10 * sqrt15) in
  let! u1 := rsqrt ((5 + 1 * p) / 20) in
  let! v1 := rsqrt ((5 + -1 * p) / 20) in
  let! q := rsqrt (40 * sqrt15 - 150) in
  let! u2 := rsqrt ((5 + sqrt15 + 1 * 2 * q) / 20) in
  let! v2 := rsqrt ((5 + sqrt15 + -1 * 2 * q) / 20) in
  let! t := rsqrt ((5 - sqrt15) / 20) in
  s2_scheme [("d4_a0", ([B1; B2; B3], [[r1; r2; r3]])); ("d4_ab", ([C1; C2], [[u1; u2]; [v1; v2]])); ("d4_aa", ([D], [[t]]))] 11.
(** s2/_peirce_1957.py:19-33.  np.dstack(np.meshgrid(p, theta)).reshape(-1, 2): theta is the outer loop. *)
Definition s2_peirce_1957 (leggauss : leggauss_t) (m : nat) :=
  let k := (4 * m + 3)%nat in
  let theta := map (fun i => 2 * PI * INR i / INR (k + 1)) (seq 1 (k + 1)) in
  let (p0, w) := leggauss (m + 1)%nat in
  let! p := opt_all (map (fun x => rsqrt (0.5 * (x + 1))) p0) in
  let p_theta := flat_map (fun t => map (fun r => (r, t)) p) theta in
  let px := map (fun rt => fst rt * cos (snd rt)) p_theta in
  let py := map (fun rt => fst rt * sin (snd rt)) p_theta in
  let weights := concat (repeat (map (fun x => 0.5 / INR (k + 1) * x) w) (k + 1)) in
  s2_scheme [("plain", (weights, [px; py]))] k.
(** s2/_radon.py:23-37 *)
Definition s2_radon (alpha : Z) :=
  let al := IZR alpha in
  let! fr := rdiv (al + 4) (al + 6) in
  let! r := rsqrt fr in
  let! fs := rdiv (al + 4) (4 * (al + 6)) in
  let! s := rsqrt fs in
  let! ft := rdiv (3 * (al + 4)) (4 * (al + 6)) in
  let! t := rsqrt ft in
  let! A := rdiv 4 ((al + 4) ^ 2) in
  let! B := rdiv ((al + 2) * (al + 6)) (6 * (al + 4) ^ 2) in
  s2_scheme [("zero2", ([A], [])); ("c2_a0", ([B], [[r]])); ("sxy", ([B], [[s]; [t]]))] 5.
(** s2/_stroud.py:39-60 *)
Definition s2_stroud_9_3 :=
  let! sqrt6 := rsqrt 6 in
  let! r1 := rsqrt ((6 - 1 * sqrt6) / 10) in
  let! r2 := rsqrt ((6 - -1 * sqrt6) / 10) in
  let a := map (fun i => 2 * (INR i + 1) * PI / 10) (seq 0 10) in
  let x := map (fun ai => [cos ai; sin ai]) a in
  let B0 := 1/9 in
  let B1 := (16 + 1 * sqrt6) / 360 in
  let B2 := (16 + -1 * sqrt6) / 360 in
  let data := [(B0, Rz 2); (B1, map (map (Rmult r1)) x); (B2, map (map (Rmult r2)) x)] in
  let (points, weights) := untangle data in
  s2_scheme [("plain", (weights, [map (fun p => nth 0 p 0) points; map (fun p => nth 1 p 0) points]))] 9.
