(** Model of the closed-form schemes that stand between the readers of data files: c2/_schmid/__init__.py, c2/_cohen_gismalla.py
    (cohen_gismalla_2), t2/_dunavant, t2/_laursen_gellert, t2/_strang_fix_cowper, t2/_taylor_wingate_bos, t2/_williams_shunn_jameson,
    t3/_keast, t3/_shunn_ham, t3/_witherden_vincent, t3/_yu (their __init__.py).  Numbers are exact reals, a decimal literal stands for the
    exact decimal number; names, sources and tolerances are omitted.  The constructors without a data file are all of this form; those
    with a data file read git-LFS pointers in this checkout. *)
From Coq Require Import Reals List Arith String.
From Verif Require Import Spec CombModel PyBase SymmModel C2Model T2Model T3Model.
Import ListNotations.
Open Scope R_scope.
Open Scope string_scope.

(** *** c2 *)
(** c2/_schmid/__init__.py:24-32 *)
Definition c2_schmid_2 : option scheme :=
  let! a := rsqrt (1/3) in
  let! b := rsqrt (2/3) in
  c2_scheme [("plain", ([1/4; 1/4; 1/2], [[- a; - a; a]; [b; - b; 0]]))] 2.
(** c2/_schmid/__init__.py:35-56 *)
Definition c2_schmid_4 : option scheme :=
  let! s5 := rsqrt 5 in let! s29 := rsqrt 29 in let! s15 := rsqrt 15 in let! s3 := rsqrt 3 in let! s87 := rsqrt 87 in
  c2_scheme [("plain",
    ([2/9 - 2 * s5 / 45; 2/9 + 2 * s5 / 45; 5/36 + 5 * s29 / 18 / 29; 5/36 + 5 * s29 / 18 / 29; 5/36 - 5 * s29 / 18 / 29; 5/36 - 5 * s29 / 18 / 29],
     [[0; 0; s15 / 5; - s15 / 5; s15 / 5; - s15 / 5];
      [(s3 + s15) / 6; (s3 - s15) / 6; (s87 - 2 * s3) / 15; (s87 - 2 * s3) / 15; (- s87 - 2 * s3) / 15; (- s87 - 2 * s3) / 15]]))] 4.
(** c2/_cohen_gismalla.py:29-54 *)
Definition c2_cohen_gismalla_2 : option scheme :=
  let X := 0.3850907 in
  let! Y := rdiv (24/35 - 28/45 * X) (28/45 - 2/3 * X) in
  let! alpha := rdiv (2/3 * Y - 28/45) (Y - X) in
  let! beta := rdiv (28/45 - 2/3 * X) (Y - X) in
  let! B4 := rdiv alpha X in let B := B4 / 4 in
  let! C4 := rdiv beta Y in let C := C4 / 4 in
  let A := 1 - 4 * B - 4 * C in
  let! g1' := rdiv alpha B in let g1 := g1' / 2 in
  let! g2' := rdiv (X * (Y / 9 - 2/15)) (Y - X) in let! g2 := rdiv g2' alpha in
  let! q := rsqrt (g1 ^ 2 - g2) in
  let! u := rsqrt (g1 + q) in
  let! v := rsqrt (g1 - q) in
  let! h1' := rdiv beta C in let h1 := h1' / 2 in
  let! h2' := rdiv (Y * (2/15 - X / 9)) (Y - X) in let! h2 := rdiv h2' beta in
  let! p := rsqrt (h1 ^ 2 - h2) in
  let! r := rsqrt (h1 - p) in
  let! s := rsqrt (h1 + p) in
  c2_scheme [("zero2", ([A], [])); ("c2", ([B; B; C; C], [[u; v; r; r]; [- v; u; - s; s]]))] 1.

(** *** t2 *)
(** t2/_dunavant/__init__.py:23-25 *)
Definition t2_dunavant_01 := t2_scheme [("centroid", ([1], []))] 1.
(** t2/_dunavant/__init__.py:28-30 *)
Definition t2_dunavant_02 := t2_scheme [("d3_aa", ([1/3], [[1/6]]))] 2.
(** t2/_dunavant/__init__.py:33-35 *)
Definition t2_dunavant_03 := t2_scheme [("centroid", ([- (9/16)], [])); ("d3_aa", ([25/48], [[1/5]]))] 3.
(** t2/_laursen_gellert/__init__.py:26-28 *)
Definition t2_laursen_gellert_02a := t2_scheme [("d3_aa", ([1/3], [[1/6]]))] 2.
(** t2/_laursen_gellert/__init__.py:31-33 *)
Definition t2_laursen_gellert_02b := t2_scheme [("d3_aa", ([1/3], [[1/2]]))] 2.
(** t2/_strang_fix_cowper/__init__.py:35-37 *)
Definition t2_strang_fix_cowper_01 := t2_scheme [("d3_aa", ([1/3], [[1/6]]))] 2.
(** t2/_strang_fix_cowper/__init__.py:40-42 *)
Definition t2_strang_fix_cowper_03 := t2_scheme [("centroid", ([- (9/16)], [])); ("d3_aa", ([25/48], [[1/5]]))] 3.
(** t2/_taylor_wingate_bos/__init__.py:23-25 *)
Definition t2_taylor_wingate_bos_1 := t2_scheme [("d3_aa", ([1/3], [[1/6]]))] 2.
(** t2/_williams_shunn_jameson/__init__.py:21-23 *)
Definition t2_williams_shunn_jameson_1 := t2_scheme [("centroid", ([1], []))] 1.
(** t2/_williams_shunn_jameson/__init__.py:26-28 *)
Definition t2_williams_shunn_jameson_2 := t2_scheme [("d3_aa", ([1/3], [[1/6]]))] 2.

(** *** t3 *)
(** t3/_keast/__init__.py:32-36 *)
Definition t3_keast_1 := let! s := rsqrt 5 in t3_scheme [("s31", ([1/4], [[1/4 - s / 20]]))] 2.
(** t3/_keast/__init__.py:39-43 *)
Definition t3_keast_2 := t3_scheme [("s4", ([- (4/5)], [])); ("s31", ([9/20], [[1/6]]))] 3.
(** t3/_keast/__init__.py:56-63 *)
Definition t3_keast_4 :=
  let! s := rsqrt (5/14) in
  t3_scheme [("s4", ([- (148/1875)], [])); ("s31", ([343/7500], [[1/14]])); ("s22", ([56/375], [[1/4 + s / 4]]))] 4.
(** t3/_keast/__init__.py:78-85 *)
Definition t3_keast_6 :=
  let! s := rsqrt 91 in
  t3_scheme [("s4", ([6544/36015], [])); ("s31", ([81/2240; 161051/2304960], [[1/3; 1/11]])); ("s22", ([338/5145], [[1/4 - s / 52]]))] 5.
(** t3/_shunn_ham/__init__.py:20-22 *)
Definition t3_shunn_ham_1 := t3_scheme [("s4", ([1], []))] 1.
(** t3/_shunn_ham/__init__.py:25-27 *)
Definition t3_shunn_ham_2 := let! s := rsqrt 5 in t3_scheme [("s31", ([1/4], [[1/4 - s / 20]]))] 2.
(** t3/_witherden_vincent/__init__.py:24-27 *)
Definition t3_witherden_vincent_01 := t3_scheme [("s4", ([1], []))] 1.
(** t3/_witherden_vincent/__init__.py:30-33 *)
Definition t3_witherden_vincent_02 := let! s := rsqrt 5 in t3_scheme [("s31", ([1/4], [[1/4 - s / 20]]))] 2.
(** t3/_yu/__init__.py:22-25 *)
Definition t3_yu_2 := let! s := rsqrt 5 in t3_scheme [("s31", ([1/4], [[1/4 - s * (1/20)]]))] 2.
(** t3/_yu/__init__.py:28-31 *)
Definition t3_yu_3 := t3_scheme [("s4", ([- (4/5)], [])); ("s31", ([9/20], [[1/6]]))] 3.
