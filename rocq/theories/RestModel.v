(** Model of the schemes of quadpy that mix closed forms with decimal literals and are not in the other model files:
    c3/_sarma_stroud.py, s2/_mysovskih.py (mysovskih_3), p3/_felippa.py (felippa_9), t2/_stroud.py (7_1), t3/_stroud.py (7_1),
    u3/_mclaren.py (mclaren_10, also called stroud_u3_14_1: u3/_stroud.py:20), s3/_stroud.py (14_1), e3r2/_stroud.py (14_1).  A
    literal stands for the exact decimal number; names and sources are omitted; the result is the scheme together with its
    test_tolerance (helpers/_class.py:13), 1e-14 where the code gives none. *)
From Coq Require Import Reals List Arith String.
From Verif Require Import Spec CombModel PyBase SymmModel C3Model S2Model T2Model T3Model U3Model S3Model E23Model FelippaModel GoodModel DecModel.
Import ListNotations.
Local Notation length := List.length.
Open Scope R_scope.
Open Scope string_scope.

(** c3/_sarma_stroud.py:18-24: the data and the degree of hammer_wymore(lmbda=1.0329785305) under another name. *)
Definition c3_sarma_stroud : option (scheme * R) := with_tol (c3_hammer_wymore 1.0329785305) 1.0e-14.

(** s2/_mysovskih.py:57-88 *)
Definition s2_mysovskih_3 : option (scheme * R) :=
  let! sqrt21 := rsqrt 21 in
  let! sqrt1401 := rsqrt 1401 in
  let A1 := (4998 + 1 * 343 * sqrt21) / 253125 in
  let A2 := (4998 + -1 * 343 * sqrt21) / 253125 in
  let B1 := (1055603 * sqrt1401 + 1 * 26076047) / 43200000 / sqrt1401 in
  let B3 := (1055603 * sqrt1401 + -1 * 26076047) / 43200000 / sqrt1401 in
  let B2 := 16807/800000 in
  let! rho1 := rsqrt ((21 - 1 * sqrt21) / 28) in
  let! rho2 := rsqrt ((21 - -1 * sqrt21) / 28) in
  let! sigma1 := rsqrt ((69 - 1 * sqrt1401) / 112) in
  let! sigma3 := rsqrt ((69 - -1 * sqrt1401) / 112) in
  let! sigma2 := rsqrt (5/7) in
  with_tol (s2_scheme
    [("d8.1", ([A1; A2], [[rho1; rho2]]));
     ("d4.1", ([B1; B2; B3], [[sigma1; sigma2; sigma3]]));
     ("d4.0", ([0.398811120280412e-1; 0.348550570365141e-1; 0.210840370156484e-1; 0.531979391979623e-2],
               [[0.252863797091230; 0.577728928444823; 0.873836956644882; 0.989746802511491]]))] 15) 1.0e-14.

(** p3/_felippa.py:132-169 *)
Definition p3_felippa_9 : option (scheme * R) :=
  let! g1 := rsqrt (3/5) in
  let g3 := - 0.854011951853700535688324041975993416 in
  let g4 := - 0.305992467923296230556472913192103090 in
  let g5 := 0.410004419776996766244796955168096505 in
  let! w1 := rdiv (4/15 * (4 + 5 * (g4 + g5) + 10 * g4 * g5)) ((g3 - g4) * (g3 - g5) * (1 - g3) ^ 2) in
  let! w2 := rdiv (4/15 * (4 + 5 * (g3 + g5) + 10 * g3 * g5)) ((g3 - g4) * (g5 - g4) * (1 - g4) ^ 2) in
  let! w3 := rdiv (4/15 * (4 + 5 * (g3 + g4) + 10 * g3 * g4)) ((g3 - g5) * (g4 - g5) * (1 - g5) ^ 2) in
  Some (mk3 [(w1 * (25/81), s4 g1 g3); (w1 * (40/81), s4_0 g1 g3); (w1 * (64/81), [[0; 0; g3]]);
             (w2 * (25/81), s4 g1 g4); (w2 * (40/81), s4_0 g1 g4); (w2 * (64/81), [[0; 0; g4]]);
             (w3 * (25/81), s4 g1 g5); (w3 * (40/81), s4_0 g1 g5); (w3 * (64/81), [[0; 0; g5]])] 5, 1.0e-14).

(** t2/_stroud.py:30-45 = t3/_stroud.py:35-50: a Gauss rule for the weight 1 - s on [0, 1], as pairs (B, s). *)
Definition conical_1 : list (R * R) :=
  [(1.355069134315012e-01, 5.710419611452533e-02); (2.034645680102685e-01, 2.768430136381415e-01);
   (1.298475476082247e-01, 5.835904323689318e-01); (3.118097095000554e-02, 8.602401356562251e-01)].
(** t3/_stroud.py:59-74: a Gauss rule for the weight (1 - t)^2 on [0, 1], as pairs (C, t). *)
Definition conical_2 : list (R * R) :=
  [(1.108884156112685e-01, 4.850054944699245e-02); (1.434587897992167e-01, 2.386007375518456e-01);
   (6.863388717292915e-02, 5.170472951043522e-01); (1.035224074991912e-02, 7.958514178967657e-01)].
(** t2/_stroud.py:17-58.  [leggauss] is numpy's function (gauss_legendre(4) in its default mode, c1/_gauss_legendre.py:8-12).
    The loops over range(4) run over the pairs (A[i], r[i]) and (B[j], s[j]). *)
Definition t2_stroud_7_1 (leggauss : nat -> list R * list R) : option (scheme * R) :=
  let r := map (fun x => (x + 1) / 2) (fst (leggauss 4%nat)) in
  let A := map (fun w => w / 2) (snd (leggauss 4%nat)) in
  let idx := flat_map (fun ar => map (fun bs => (ar, bs)) conical_1) (List.combine A r) in
  let weights := map (fun i : (R * R) * (R * R) => 2 * fst (fst i) * fst (snd i)) idx in
  let row0 := map (fun i : (R * R) * (R * R) => snd (snd i)) idx in
  let row1 := map (fun i : (R * R) * (R * R) => snd (fst i) * (1 - snd (snd i))) idx in
  let row2 := map (fun i : (R * R) * (R * R) => (1 - snd (fst i)) * (1 - snd (snd i))) idx in
  with_tol (t2_scheme [("plain", (weights, [row0; row1; row2]))] 7) 1.403e-13.
(** t3/_stroud.py:20-96 *)
Definition t3_stroud_7_1 (leggauss : nat -> list R * list R) : option (scheme * R) :=
  let r := map (fun x => (x + 1) / 2) (fst (leggauss 4%nat)) in
  let A := map (fun w => w / 2) (snd (leggauss 4%nat)) in
  let idx := flat_map (fun ar => flat_map (fun bs => map (fun ct => (ar, bs, ct)) conical_2) conical_1) (List.combine A r) in
  let weights := map (fun i : (R * R) * (R * R) * (R * R) => let '((A, r), (B, s), (C, t)) := i in 6 * A * B * C) idx in
  let row0 := map (fun i : (R * R) * (R * R) * (R * R) => let '((A, r), (B, s), (C, t)) := i in t) idx in
  let row1 := map (fun i : (R * R) * (R * R) * (R * R) => let '((A, r), (B, s), (C, t)) := i in s * (1 - t)) idx in
  let row2 := map (fun i : (R * R) * (R * R) * (R * R) => let '((A, r), (B, s), (C, t)) := i in r * (1 - s) * (1 - t)) idx in
  let row3 := map (fun i : (R * R) * (R * R) * (R * R) => let '((A, r), (B, s), (C, t)) := i in (1 - r) * (1 - s) * (1 - t)) idx in
  with_tol (t3_scheme [("plain", (weights, [row0; row1; row2; row3]))] 7) 1.0e-14.

(** np.column_stack([a * u, b * v, c * w]) *)
Definition col_stack (a b c : R) (u v w : list R) : list point :=
  map (fun i => [a * nth i u 0; b * nth i v 0; c * nth i w 0]) (seq 0 (length u)).
(** u3/_mclaren.py:145-209 *)
Definition u3_mclaren_10 : option (scheme * R) :=
  let! sqrt5 := rsqrt 5 in
  let! r := rsqrt ((5 - 1 * sqrt5) / 10) in
  let! s := rsqrt ((5 - -1 * sqrt5) / 10) in
  let B := 125/10080 in
  let C := 143/10080 in
  let! z0 := rsqrt 0.8318603575087328951583062165711519728388 in
  let! z1 := rsqrt 0.5607526046766541293084396308069013490725 in
  let! z2 := rsqrt 0.4118893592345073860321480490176804941547 in
  let! z3 := rsqrt 0.1479981814629634692260834719469411619893 in
  let! z4 := rsqrt 0.04473134613410273910111648293922113227845 in
  let! z5 := rsqrt 0.002768150983039381173906148718103889666260 in
  let! u := opt_all (map (fun x => rdiv (x / 2) s) [z3 - z2; z1 - z4; z5 - z1; z2 - z5; z4 - z3]) in
  let! v := opt_all (map (fun x => rdiv (x / 2) s) [z4 + z5; z5 + z3; z2 + z4; z3 + z1; z1 + z2]) in
  let! w := opt_all (map (fun x => rdiv (x / 2) s) [z0 + z1; z0 + z2; z0 + z3; z0 + z4; z0 + z5]) in
  let data :=
    [(B, Rpm_roll [r; s; 0]);
     (C, col_stack 1 1 1 u v w); (C, col_stack 1 (-1) (-1) u v w); (C, col_stack (-1) (-1) 1 u v w); (C, col_stack (-1) 1 (-1) u v w);
     (C, col_stack 1 1 1 v w u); (C, col_stack 1 (-1) (-1) v w u); (C, col_stack (-1) (-1) 1 v w u); (C, col_stack (-1) 1 (-1) v w u);
     (C, col_stack 1 1 1 w u v); (C, col_stack 1 (-1) (-1) w u v); (C, col_stack (-1) (-1) 1 w u v); (C, col_stack (-1) 1 (-1) w u v)] in
  let '(points, weights) := untangle data in
  with_tol (u3_scheme [("plain", (weights, [map (fun p => nth 0 p 0) points; map (fun p => nth 1 p 0) points; map (fun p => nth 2 p 0) points]))] 14) 1.0e-14.

(** s3/_stroud.py:80-143, on top of GoodModel.v; weights *= 3 changes the array that the dictionary already holds. *)
Definition s3_stroud_14_1_full : option (scheme * R) :=
  let! u := u3_mclaren_10 in
  with_tol (s3_stroud_14_1 (s_rule (fst u))) 1.0e-14.
(** e3r2/_stroud.py:47-62, as pairs (A, r). *)
Definition radial_e3r2 : list (R * R) :=
  [(2.265043732793035e-01, 7.235510187528402e-01); (1.908084800858996e-01, 1.468553289216669e00);
   (2.539731378612040e-02, 2.266580584531844e00); (4.032955750550135e-04, 3.190993201781527e00)].
(** e3r2/_stroud.py:23-74; untangle of the pairs (weight, one point) followed by "plain" keeps weights and points as they are. *)
Definition e3r2_stroud_14_1 : option (scheme * R) :=
  let! u := u3_mclaren_10 in
  let! p := rsqrt PI in
  let data := flat_map (fun ar => map (fun bv => (fst ar * (fst bv / (p / 4)), map (fun x => snd ar * x) (snd bv))) (s_rule (fst u))) radial_e3r2 in
  Some (mk_scheme 3 data 14, 8.903e-14).
