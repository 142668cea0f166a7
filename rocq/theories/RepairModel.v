(** Constructors that the code itself says are broken ("TODO fix", "find what's wrong", "something is fishy") with the
    error removed.  These are not in the code; each comment says what is changed. *)
From Coq Require Import Reals List Arith String.
From Verif Require Import Spec CombModel PyBase SymmModel C2Model S2Model E23Model DecModel TnModel.
Import ListNotations.
Open Scope R_scope.
Open Scope string_scope.

(** c2/_stroud.py:68-81 without the assignment in line 75, degree 7 declared *)
Definition repaired_c2_stroud_7_4 :=
  let! q := rsqrt 30 in
  let! r := rsqrt ((15 - 1 * 2 * q) / 35) in
  let! s := rsqrt ((15 - -1 * 2 * q) / 35) in
  let B1 := (59 + 1 * 6 * q) / 864 in
  let B2 := (59 + -1 * 6 * q) / 864 in
  let B3 := 49/864 in
  c2_scheme [("d4_aa", ([B1; B2], [[r; s]])); ("d4_ab", ([B3], [[r]; [s]]))] 7.
(** e2r2/_stroud.py:43-54 with d4_aa instead of d4_a0 in line 50, degree 7 declared *)
Definition repaired_e2r2_stroud_7_2 :=
  let! sqrt6 := rsqrt 6 in
  let! r := rsqrt ((3 + 1 * sqrt6) / 2) in
  let! s := rsqrt ((3 + -1 * sqrt6) / 2) in
  let A := (5 - 1 * 2 * sqrt6) / 48 in
  let B := (5 - -1 * 2 * sqrt6) / 48 in
  let C := 1/48 in
  e2_scheme [("d4_aa", ([A; B], [[r; s]])); ("d4_ab", ([C], [[r]; [s]]))] 7.
(** c2/_franke.py:182-196 with 0.939655258096838 instead of 0.939565258096838 in line 190, degree 9 declared *)
Definition repaired_c2_franke_8 : option (scheme * R) :=
  with_tol (c2_scheme
     [("d4_a0", ((map (fun v => v / 4) [0.454163960686749]), [[0.488926856974369]]));
      ("d4_aa", ((map (fun v => v / 4) [0.214200360926862; 0.427312318657758e-1]), [[0.690880550486344; 0.939655258096838]]));
      ("d4_ab", ((map (fun v => v / 4) [0.144452223260307]), [[0.918620441056722]; [0.344872025364404]]))] 9) 1.0e-14.
(** c2/_cohen_gismalla.py:29-54 with alpha / (4 * B) / 2 and beta / (4 * C) / 2 in lines 40 and 45 (that is, with the weights before
    they are divided by 4) and [r, s], [-s, r] instead of [r, r], [-s, s] in line 50 *)
Definition repaired_c2_cohen_gismalla_2 : option scheme :=
  let X := 0.3850907 in
  let! Y := rdiv (24/35 - 28/45 * X) (28/45 - 2/3 * X) in
  let! alpha := rdiv (2/3 * Y - 28/45) (Y - X) in
  let! beta := rdiv (28/45 - 2/3 * X) (Y - X) in
  let! B4 := rdiv alpha X in let B := B4 / 4 in
  let! C4 := rdiv beta Y in let C := C4 / 4 in
  let A := 1 - 4 * B - 4 * C in
  let! g1' := rdiv alpha (4 * B) in let g1 := g1' / 2 in
  let! g2' := rdiv (X * (Y / 9 - 2/15)) (Y - X) in let! g2 := rdiv g2' alpha in
  let! q := rsqrt (g1 ^ 2 - g2) in
  let! u := rsqrt (g1 + q) in
  let! v := rsqrt (g1 - q) in
  let! h1' := rdiv beta (4 * C) in let h1 := h1' / 2 in
  let! h2' := rdiv (Y * (2/15 - X / 9)) (Y - X) in let! h2 := rdiv h2' beta in
  let! p := rsqrt (h1 ^ 2 - h2) in
  let! r := rsqrt (h1 - p) in
  let! s := rsqrt (h1 + p) in
  c2_scheme [("zero2", ([A], [])); ("c2", ([B; B; C; C], [[u; v; r; s]; [- v; u; - s; r]]))] 1.
(** tn/_walkington.py:29-42 with an arbitrary number in the place of 1 / sqrt(d + 1) in line 37, degree 2 declared *)
Definition walkington_2_at (a : R) (d : nat) : option scheme := normalize d [(1 / INR (fact (d + 1)), _xi1 d a)] 2.
(** ... with (1 - 1 / sqrt(d + 2)) / (d + 1) *)
Definition repaired_walkington_2 (d : nat) : option scheme :=
  let! q := rsqrt (INR d + 2) in
  let! a := rdiv 1 q in
  walkington_2_at ((1 - a) / (INR d + 1)) d.
