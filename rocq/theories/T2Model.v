(** Model of the closed-form schemes in quadpy/t2 (triangle, barycentric coordinates).  Names, sources and tolerances are
    omitted; numbers are exact reals.  Aliases denote the same definitions: liu_vinokur_01, _02, _07 = centroid, vertex,
    seven_point (_liu_vinokur.py:5-7), stroud_t2_3_1 = albrecht_collatz, stroud_t2_5_1 = hammer_marlowe_stroud_5
    (_stroud.py:5-6).  The schemes given by decimals or by data files are not modelled here. *)
From Coq Require Import Reals List Arith ZArith String.
From Verif Require Import Spec CombModel PyBase SymmModel C1Model GwModel.
Import ListNotations.
Local Notation length := List.length.
Open Scope R_scope.
Open Scope string_scope.

(** t2/_helpers.py:18-35 (T2Scheme.__init__ without weight_factor).  The code passes dim = 2; the keys of the triangle do not
    use it, and for "plain" SymmModel.v takes it as the number of coordinate rows, which is 3 (asserted in line 34). *)
Definition t2_scheme (data : list (string * (list R * list (list R)))) (degree : nat) : option scheme :=
  let! pw := expand_symmetries_str data 3 in
  Some (mk_scheme 2 (mk_rule pw) degree).

(** t2/_albrecht_collatz.py:18-20 *)
Definition t2_albrecht_collatz := t2_scheme [("d3_aa", ([1/30; 9/30], [[1/2; 1/6]]))] 3.
(** t2/_classical.py:6-8 *)
Definition t2_centroid := t2_scheme [("centroid", ([1], []))] 1.
(** t2/_classical.py:11-13 *)
Definition t2_vertex := t2_scheme [("vertex", ([1/3], []))] 1.
(** t2/_classical.py:16-22 *)
Definition t2_seven_point :=
  t2_scheme [("centroid", ([9/20], [])); ("vertex", ([1/20], [])); ("d3_aa", ([2/15], [[1/2]]))] 3.
(** t2/_hammer_marlowe_stroud.py:29-31 *)
Definition t2_hammer_marlowe_stroud_1 := t2_scheme [("centroid", ([1], []))] 1.
(** t2/_hammer_marlowe_stroud.py:34-36 *)
Definition t2_hammer_marlowe_stroud_2 := t2_scheme [("d3_aa", ([1/3], [[1/6]]))] 2.
(** t2/_hammer_marlowe_stroud.py:39-41 *)
Definition t2_hammer_marlowe_stroud_3 := t2_scheme [("d3_aa", ([1/3], [[1/2]]))] 2.
(** t2/_hammer_marlowe_stroud.py:44-46 *)
Definition t2_hammer_marlowe_stroud_4 := t2_scheme [("centroid", ([- (9/16)], [])); ("d3_aa", ([25/48], [[1/5]]))] 3.
(** t2/_hammer_marlowe_stroud.py:49-55 *)
Definition t2_hammer_marlowe_stroud_5 :=
  let! sqrt15 := rsqrt 15 in
  let w1 := (155 - 1 * sqrt15) / 1200 in
  let w2 := (155 - -1 * sqrt15) / 1200 in
  let x1 := (1 + 1 * sqrt15) / 7 in
  let x2 := (1 + -1 * sqrt15) / 7 in
  let b1 := (1 - x1) / 3 in
  let b2 := (1 - x2) / 3 in
  t2_scheme [("centroid", ([9/40], [])); ("d3_aa", ([w1; w2], [[b1; b2]]))] 5.
(** t2/_hillion.py:22-24 *)
Definition t2_hillion_01 := t2_scheme [("centroid", ([1], []))] 1.
(** t2/_hillion.py:27-29 *)
Definition t2_hillion_02 := t2_scheme [("d3_aa", ([1/3], [[1/2]]))] 2.
(** t2/_hillion.py:32-34 *)
Definition t2_hillion_03 := t2_scheme [("d3_aa", ([1/3], [[1/6]]))] 2.
(** t2/_hillion.py:37-40 *)
Definition t2_hillion_04 :=
  let! sqrt3 := rsqrt 3 in
  let a0 := (3 + 1 * sqrt3) / 8 in
  let a1 := (3 + -1 * sqrt3) / 8 in
  t2_scheme [("s2_static", ([1/9], [[0]])); ("swap_ab", ([4/9], [[a0]; [a1]]))] 2.
(** t2/_hillion.py:43-49 *)
Definition t2_hillion_05 :=
  let! sqrt3 := rsqrt 3 in
  let a0 := (3 + 1 * sqrt3) / 8 in
  let a1 := (3 + -1 * sqrt3) / 8 in
  t2_scheme [("s2_static", ([1/9], [[2/3]])); ("swap_ab", ([4/9], [[2/3 - a0]; [2/3 - a1]]))] 2.
(** t2/_hillion.py:52-61 *)
Definition t2_hillion_06 :=
  let! sqrt3 := rsqrt 3 in
  let! r := rsqrt (2 + 1 * sqrt3) in
  let! s := rsqrt (2 + -1 * sqrt3) in
  let lm := (2 + 1 * r) / 6 in
  let mu := (2 + -1 * s) / 6 in
  t2_scheme [("swap_ab", ([1/4; 1/4], [[lm; 2/3 - lm]; [mu; 2/3 - mu]]))] 2.
(** t2/_hillion.py:64-73 *)
Definition t2_hillion_07 :=
  let! sqrt2 := rsqrt 2 in
  let! r := rsqrt (6 * (3 + 2 * sqrt2)) in
  let! s := rsqrt (6 * (3 - 2 * sqrt2)) in
  let a := (6 + sqrt2 + 1 * r) / 20 in
  let b := (6 + sqrt2 + -1 * r) / 20 in
  let c := (6 - sqrt2 + 1 * s) / 20 in
  let d := (6 - sqrt2 + -1 * s) / 20 in
  let! w1 := rdiv ((2 - 3 * (b + c)) / 6) (a + d - b - c) in
  let! w2 := rdiv ((2 - 3 * (a + d)) / 6) (b + c - a - d) in
  t2_scheme [("swap_ab", ([w1; w2], [[a; c]; [d; b]]))] 3.
(** t2/_hillion.py:76-83 *)
Definition t2_hillion_08 :=
  let! sqrt46 := rsqrt 46 in
  let lambda2 := (32 + 1 * 2 * sqrt46) / 105 in
  let lambda3 := (32 + -1 * 2 * sqrt46) / 105 in
  let w1 := 2 * (3266 + 1 * 19 * sqrt46) / 17664 in
  let w2 := 2 * (3266 + -1 * 19 * sqrt46) / 17664 in
  t2_scheme [("swap_ab", ([2 * (25/384)], [[0]; [4/5]])); ("s2_static", ([w1; w2], [[lambda2; lambda3]]))] 3.
(** t2/_hillion.py:86-89 *)
Definition t2_hillion_09 := t2_scheme [("centroid", ([- (9/16)], [])); ("d3_aa", ([25/48], [[1/5]]))] 3.
(** t2/_hillion.py:92-99 *)
Definition t2_hillion_10 :=
  let! sqrt14 := rsqrt 14 in
  let lambda1 := (16 + 1 * 2 * sqrt14) / 25 in
  let lambda2 := (16 + -1 * 2 * sqrt14) / 25 in
  let w1 := 2 * (161 + 1 * 17 * sqrt14) / 2688 in
  let w2 := 2 * (161 + -1 * 17 * sqrt14) / 2688 in
  t2_scheme [("swap_ab", ([w2; w1], [[lambda1; 0]; [0; lambda2]])); ("s2_static", ([25/48], [[2/5]]))] 3.
(** t2/_lether.py:31-47; [gauss_legendre] as modelled in GwModel.v, with the eigenvalue solver as an argument.  The
    arrays of shape (n, n) are flattened row by row. *)
Definition t2_lether (eigh : list R -> list R -> list R * list (list R)) (n : nat) : option scheme :=
  let! gl := gauss_legendre eigh n in
  let pts := map snd (c1_rule gl) in
  let wts := map fst (c1_rule gl) in
  let w := flat_map (fun xw => map (fun w' => (1 + fst xw) * snd xw * w' / 4) wts) (List.combine pts wts) in
  let x := flat_map (fun x => map (fun _ => (1 - x) * 1 / 2) (repeat 1 n)) pts in
  let y := flat_map (fun x => map (fun x' => (1 + x) * (1 - x') / 4) pts) pts in
  let z := map (fun xy => 1 - fst xy - snd xy) (List.combine x y) in
  t2_scheme [("plain", (w, [x; y; z]))] (2 * (n - 1)).
(** t2/_liu_vinokur.py:21-23 *)
Definition t2_liu_vinokur_03 := t2_scheme [("d3_aa", ([1/3], [[1/2]]))] 2.
(** t2/_liu_vinokur.py:26-28 *)
Definition t2_liu_vinokur_04 := t2_scheme [("centroid", ([3/4], [])); ("vertex", ([1/12], []))] 2.
(** t2/_liu_vinokur.py:31-36 *)
Definition t2_liu_vinokur_05 := t2_scheme [("centroid", ([- (9/16)], [])); ("d3_aa", ([25/48], [[1/5]]))] 3.
(** t2/_liu_vinokur.py:39-44 *)
Definition t2_liu_vinokur_06 :=
  let! sqrt21 := rsqrt 21 in
  let alpha1 := (1 - sqrt21) / 10 in
  let b1 := (1 - alpha1) / 3 in
  t2_scheme [("vertex", ([(1 + sqrt21) / 120], [])); ("d3_aa", ([(39 - sqrt21) / 120], [[b1]]))] 3.
(** t2/_liu_vinokur.py:47-63 *)
Definition t2_liu_vinokur_08 :=
  let! sqrt10 := rsqrt 10 in
  let! sqrt_b := rsqrt (950 - 220 * sqrt10) in
  let a1 := (-10 + 5 * sqrt10 + sqrt_b) / 30 in
  let a2 := (-10 + 5 * sqrt10 - sqrt_b) / 30 in
  let b1 := (1 - a1) / 3 in
  let b2 := (1 - a2) / 3 in
  let! w1 := rdiv (5 * a2 - 2) (60 * a1 ^ 2 * (a2 - a1)) in
  let! w2 := rdiv (5 * a1 - 2) (60 * a2 ^ 2 * (a1 - a2)) in
  t2_scheme [("d3_aa", ([w1; w2], [[b1; b2]]))] 4.
(** t2/_liu_vinokur.py:66-75 *)
Definition t2_liu_vinokur_09 :=
  let alpha0 := - (1/2) in
  let alpha1 := 2/3 in
  let b0 := (1 - alpha0) / 3 in
  let b1 := (1 - alpha1) / 3 in
  t2_scheme [("centroid", ([27/80], [])); ("d3_aa", ([8/105; 81/560], [[b0; b1]]))] 4.
(** t2/_liu_vinokur.py:78-97 *)
Definition t2_liu_vinokur_10 :=
  let! sqrt13 := rsqrt 13 in
  let alpha0 := 1 in
  let alpha1 := - (1/2) in
  let alpha2 := (-1 + sqrt13) / 6 in
  let b0 := (1 - alpha0) / 3 in
  let b1 := (1 - alpha1) / 3 in
  let b2 := (1 - alpha2) / 3 in
  t2_scheme [("d3_aa", ([(11 - 1 * sqrt13) / 360; (80 - 16 * sqrt13) / 360; (29 + 17 * sqrt13) / 360], [[b0; b1; b2]]))] 4.
(** t2/_liu_vinokur.py:100-114 *)
Definition t2_liu_vinokur_11 :=
  let! sqrt3 := rsqrt 3 in
  let gamma := (3 + sqrt3) / 6 in
  let delta := (3 - sqrt3) / 6 in
  let a := (1 + 2 * gamma - delta) / 3 in
  let b := (1 + 2 * delta - gamma) / 3 in
  t2_scheme [("centroid", ([9/20], [])); ("vertex", ([- (1/60)], [])); ("d3_ab", ([1/10], [[a]; [b]]))] 4.
(** t2/_liu_vinokur.py:117-128 *)
Definition t2_liu_vinokur_12 :=
  let! sqrt15 := rsqrt 15 in
  let a0 := (1 + sqrt15) / 7 in
  let a1 := (1 - sqrt15) / 7 in
  let b0 := (1 - a0) / 3 in
  let b1 := (1 - a1) / 3 in
  t2_scheme [("centroid", ([9/40], [])); ("d3_aa", ([(155 - sqrt15) / 1200; (155 + sqrt15) / 1200], [[b0; b1]]))] 5.
(** t2/_liu_vinokur.py:131-137 *)
Definition t2_liu_vinokur_13 :=
  t2_scheme [("centroid", ([81/320], [])); ("vertex", ([1/90], [])); ("d3_aa", ([16/225; 2401/14400], [[1/2; 1/7]]))] 5.
(** t2/_lyness_jespersen.py:22-24 *)
Definition t2_lyness_jespersen_01 := t2_scheme [("d3_aa", ([1/3], [[1/2]]))] 2.
(** t2/_lyness_jespersen.py:27-32 *)
Definition t2_lyness_jespersen_02 := t2_scheme [("centroid", ([3/4], [])); ("vertex", ([1/12], []))] 2.
(** t2/_lyness_jespersen.py:35-40 *)
Definition t2_lyness_jespersen_03 := t2_scheme [("centroid", ([- (9/16)], [])); ("d3_aa", ([25/48], [[1/5]]))] 3.
(** t2/_lyness_jespersen.py:53-60; the weight of "centroid" is a bare number there, which np.tile treats like a list of one. *)
Definition t2_lyness_jespersen_06 :=
  let! sqrt3 := rsqrt 3 in
  let a0 := (3 + 1 * sqrt3) / 6 in
  let a1 := (3 + -1 * sqrt3) / 6 in
  t2_scheme [("centroid", ([9/20], [])); ("vertex", ([- (1/60)], [])); ("d3_ab", ([1/10], [[a0]; [a1]]))] 4.
(** t2/_lyness_jespersen.py:63-72 *)
Definition t2_lyness_jespersen_07 :=
  let! sqrt13 := rsqrt 13 in
  t2_scheme [("vertex", ([(11 - sqrt13) / 360], []));
             ("d3_aa", ([(10 - 2 * sqrt13) / 45; (29 + 17 * sqrt13) / 360], [[1/2; (7 - sqrt13) / 18]]))] 4.
(** t2/_lyness_jespersen.py:75-81 *)
Definition t2_lyness_jespersen_08 :=
  let! sqrt15 := rsqrt 15 in
  let b1 := (155 - 1 * sqrt15) / 1200 in
  let b2 := (155 - -1 * sqrt15) / 1200 in
  let r1 := (6 - 1 * sqrt15) / 21 in
  let r2 := (6 - -1 * sqrt15) / 21 in
  t2_scheme [("centroid", ([9/40], [])); ("d3_aa", ([b1; b2], [[r1; r2]]))] 5.
(** t2/_lyness_jespersen.py:84-90 *)
Definition t2_lyness_jespersen_09 :=
  t2_scheme [("centroid", ([81/320], [])); ("vertex", ([1/90], [])); ("d3_aa", ([16/225; 2401/14400], [[1/2; 1/7]]))] 5.
(** t2/_lyness_jespersen.py:93-101 *)
Definition t2_lyness_jespersen_11 :=
  let! sqrt6 := rsqrt 6 in
  let c := (3 + 1 * sqrt6) / 6 in
  let d := (3 + -1 * sqrt6) / 6 in
  t2_scheme [("centroid", ([- (81/140)], [])); ("vertex", ([- (5/252)], []));
             ("d3_aa", ([17/315; 128/315], [[1/2; 1/4]])); ("d3_ab", ([9/210], [[c]; [d]]))] 6.
(** t2/_walkington.py:16-20 *)
Definition t2_walkington_p5 :=
  let! sqrt15 := rsqrt 15 in
  let a1 := (155 + 1 * sqrt15) / 1200 in
  let a2 := (155 + -1 * sqrt15) / 1200 in
  let x1 := (6 + 1 * sqrt15) / 21 in
  let x2 := (6 + -1 * sqrt15) / 21 in
  t2_scheme [("centroid", ([9/40], [])); ("d3_aa", ([a1; a2], [[x1; x2]]))] 5.
