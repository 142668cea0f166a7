(** Model of the closed-form schemes in quadpy/u3 (unit sphere in three dimensions).  Names, sources and tolerances are
    omitted; numbers are exact reals.  The aliases of _stroud.py:5-20 (stroud_u3_5_1 = albrecht_collatz_1, ...,
    stroud_u3_3_1 = mclaren_01, ...) denote the same definitions.  mclaren_10 (_mclaren.py:145-209) is in RestModel.v and
    stroud_u3_11_2 is un.stroud_1969(3), modelled in UnModel2.v. *)
From Coq Require Import Reals List Arith ZArith String.
From Verif Require Import Spec CombModel PyBase SymmModel OrbitModel S2Model.
Import ListNotations.
Local Notation length := List.length.
Open Scope R_scope.
Open Scope string_scope.

(** u3/_helpers.py:20-37 (U3Scheme.__init__; the conversion to spherical coordinates is modelled in SphericalModel.v). *)
Definition u3_scheme (data : list (string * (list R * list (list R)))) (degree : nat) : option scheme :=
  let! pw := u3_expand_str data in
  Some (mk_scheme 3 (mk_rule pw) degree).

(** u3/_albrecht_collatz.py:20-23 *)
Definition u3_albrecht_collatz_1 :=
  let! sqrt5 := rsqrt 5 in
  let! r := rsqrt ((5 + 1 * sqrt5) / 10) in
  let! s := rsqrt ((5 + -1 * sqrt5) / 10) in
  u3_scheme [("rs0", ([1/12], [[r]; [s]]))] 5.
(** u3/_albrecht_collatz.py:26-28 *)
Definition u3_albrecht_collatz_2 := u3_scheme [("a1", ([8/120], [])); ("a3", ([9/120], []))] 5.
(** u3/_albrecht_collatz.py:31-33 *)
Definition u3_albrecht_collatz_3 := u3_scheme [("a1", ([1/30], [])); ("a2", ([2/30], []))] 5.
(** u3/_albrecht_collatz.py:36-39 *)
Definition u3_albrecht_collatz_4 :=
  let! sqrt5 := rsqrt 5 in
  let! r := rsqrt ((3 + 1 * sqrt5) / 6) in
  let! s := rsqrt ((3 + -1 * sqrt5) / 6) in
  u3_scheme [("rs0", ([1/20], [[r]; [s]])); ("a3", ([1/20], []))] 5.
(** u3/_albrecht_collatz.py:42-48 *)
Definition u3_albrecht_collatz_5 :=
  u3_scheme [("a1", ([40/840], [])); ("a2", ([32/840], [])); ("a3", ([27/840], []))] 7.
(** u3/_mclaren.py:22-25 *)
Definition u3_mclaren_01 := u3_scheme [("a2", ([1/12], []))] 3.
(** u3/_mclaren.py:28-33 *)
Definition u3_mclaren_02 :=
  let r := 1/2 in
  let! sqrt5 := rsqrt 5 in
  let s := (sqrt5 + 1) / 4 in
  let t := (sqrt5 + -1) / 4 in
  u3_scheme [("a1", ([1/30], [])); ("rst", ([1/30], [[r]; [s]; [t]]))] 5.
(** u3/_mclaren.py:36-49; mp.polyroots, which returns real roots in increasing order, is the argument. *)
Definition u3_mclaren_03 (roots : roots_t) :=
  match roots [1; -1; 1/5; -(1/105)] with
  | [r2; s2; t2] =>
      let! r := rsqrt r2 in
      let! s := rsqrt s2 in
      let! t := rsqrt t2 in
      u3_scheme [("rst_weird", ([1/24], [[r]; [s]; [t]]))] 7
  | _ => None
  end.
(** u3/_mclaren.py:52-65 *)
Definition u3_mclaren_04 (roots : roots_t) :=
  match roots [1; -1; 5/21; -(5/441)] with
  | [r2; s2; t2] =>
      let! r := rsqrt r2 in
      let! s := rsqrt s2 in
      let! t := rsqrt t2 in
      u3_scheme [("a1", ([16/600], [])); ("rst_weird", ([21/600], [[r]; [s]; [t]]))] 8
  | _ => None
  end.
(** u3/_mclaren.py:68-78 *)
Definition u3_mclaren_05 :=
  let! sqrt5 := rsqrt 5 in
  let! r := rsqrt ((5 + 1 * sqrt5) / 10) in
  let! s := rsqrt ((5 + -1 * sqrt5) / 10) in
  let! u := rsqrt ((3 - 1 * sqrt5) / 6) in
  let! v := rsqrt ((3 - -1 * sqrt5) / 6) in
  let B1 := 25/840 in
  let B2 := 27/840 in
  u3_scheme [("rs0", ([B1; B2], [[r; u]; [s; v]])); ("a3", ([B2], []))] 9.
(** u3/_mclaren.py:81-93 *)
Definition u3_mclaren_06 :=
  let! sqrt5 := rsqrt 5 in
  let! r := rsqrt ((5 + 1 * sqrt5) / 10) in
  let! s := rsqrt ((5 + -1 * sqrt5) / 10) in
  let u := 1/2 in
  let v := (sqrt5 + 1) / 4 in
  let w := (sqrt5 + -1) / 4 in
  let B := 25/1260 in
  let C := 32/1260 in
  u3_scheme [("rs0", ([B], [[r]; [s]])); ("a1", ([C], [])); ("rst", ([C], [[u]; [v]; [w]]))] 9.
(** u3/_mclaren.py:96-108 *)
Definition u3_mclaren_07 :=
  let! sqrt5 := rsqrt 5 in
  let! r := rsqrt ((3 - 1 * sqrt5) / 6) in
  let! s := rsqrt ((3 - -1 * sqrt5) / 6) in
  let u := 1/2 in
  let v := (sqrt5 + 1) / 4 in
  let w := (sqrt5 + -1) / 4 in
  let B := -(9/140) in
  let C := 16/210 in
  u3_scheme [("rs0", ([B], [[r]; [s]])); ("a3", ([B], [])); ("a1", ([C], [])); ("rst", ([C], [[u]; [v]; [w]]))] 9.
(** u3/_mclaren.py:111-123 *)
Definition u3_mclaren_08 :=
  let! u := rsqrt (1/11) in
  let! v := rsqrt (9/11) in
  let B1 := 9216/725760 in
  let B2 := 16384/725760 in
  let B3 := 15309/725760 in
  let B4 := 14641/725760 in
  u3_scheme [("a1", ([B1], [])); ("a2", ([B2], [])); ("a3", ([B3], [])); ("llm2", ([B4], [[u]; [v]]))] 11.
(** u3/_mclaren.py:126-145 *)
Definition u3_mclaren_09 :=
  let! sqrt5 := rsqrt 5 in
  let! p := rsqrt ((5 + 1 * sqrt5) / 10) in
  let! q := rsqrt ((5 + -1 * sqrt5) / 10) in
  let! r := rsqrt ((3 - 1 * sqrt5) / 6) in
  let! s := rsqrt ((3 - -1 * sqrt5) / 6) in
  let u := 1/2 in
  let v := (sqrt5 + 1) / 4 in
  let w := (sqrt5 + -1) / 4 in
  let B := 625/27720 in
  let C := 243/27720 in
  let D := 512/27720 in
  u3_scheme [("rs0", ([B; C], [[p; r]; [q; s]])); ("a3", ([C], [])); ("a1", ([D], [])); ("rst", ([D], [[u]; [v]; [w]]))] 11.
