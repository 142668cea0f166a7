(** Model of the symmetry orbits in quadpy/t3/_helpers.py and quadpy/u3/_helpers.py. *)
From Coq Require Import Reals List Arith String.
From Verif Require Import Spec CombModel PyBase SymmModel.
Import ListNotations.
Local Notation length := List.length.
Open Scope R_scope.

Inductive t3key := T_s4 | T_s31 | T_s22 | T_s211 | T_s1111 | T_plain.

(** t3/_helpers.py:53-140: the barycentric points generated for one parameter column. *)
Definition t3_orbit (k : t3key) (col : list R) : list point :=
  let a := nth 0 col 0 in
  let b := nth 1 col 0 in
  let c := nth 2 col 0 in
  match k with
  | T_s4 => [[1/4; 1/4; 1/4; 1/4]]                                                       (* 53-56 *)
  | T_s31 => let b := 1 - 3 * a in [[a; a; a; b]; [a; a; b; a]; [a; b; a; a]; [b; a; a; a]]  (* 59-63 *)
  | T_s22 => let b := (1 - 2 * a) / 2 in                                                  (* 66-82 *)
      [[a; a; b; b]; [a; b; a; b]; [b; a; a; b]; [a; b; b; a]; [b; a; b; a]; [b; b; a; a]]
  | T_s211 => let c := 1 - 2 * a - b in                                                   (* 85-105 *)
      [[a; a; b; c]; [a; b; a; c]; [b; a; a; c]; [a; b; c; a]; [b; a; c; a]; [b; c; a; a];
       [a; a; c; b]; [a; c; a; b]; [c; a; a; b]; [a; c; b; a]; [c; a; b; a]; [c; b; a; a]]
  | T_s1111 => let d := 1 - a - b - c in                                                  (* 108-140 *)
      [[a; b; c; d]; [a; b; d; c]; [a; c; b; d]; [a; c; d; b]; [a; d; b; c]; [a; d; c; b];
       [b; a; c; d]; [b; a; d; c]; [b; c; a; d]; [b; c; d; a]; [b; d; a; c]; [b; d; c; a];
       [c; a; b; d]; [c; a; d; b]; [c; b; a; d]; [c; b; d; a]; [c; d; a; b]; [c; d; b; a];
       [d; a; b; c]; [d; a; c; b]; [d; b; a; c]; [d; b; c; a]; [d; c; a; b]; [d; c; b; a]]
  | T_plain => [col]                                                                      (* 154 *)
  end.
Definition t3_arity (k : t3key) : nat :=
  match k with T_s4 => 0 | T_s31 | T_s22 => 1 | T_s211 => 2 | T_s1111 => 3 | T_plain => 4 end.
(** Shape errors are [None]; s4 ignores its data. *)
Definition t3_cols (k : t3key) (rows : list (list R)) : option (list (list R)) :=
  let nv := match rows with [] => 1%nat | r :: _ => length r end in
  match t3_arity k with
  | O => Some [[]]
  | ar => if (Nat.eqb (length rows) ar && forallb (fun r => Nat.eqb (length r) nv) rows)%bool
          then Some (columns nv rows) else None
  end.
(** t3/_helpers.py:166-179 *)
Definition t3_expand (data : list (t3key * (list R * list (list R)))) : option (list point * list R) :=
  gen_expand t3_cols t3_orbit data.
(** t3/_helpers.py:148-155 *)
Open Scope string_scope.
Definition t3_table : list (string * t3key) :=
  [("s4", T_s4); ("s31", T_s31); ("s211", T_s211); ("s22", T_s22); ("s1111", T_s1111); ("plain", T_plain)].
Definition t3_expand_str (data : list (string * (list R * list (list R)))) :=
  let! d := resolve t3_table data in t3_expand d.
Close Scope string_scope.

Inductive u3key :=
| U_a1 | U_a2 | U_a3 | U_llm | U_llm2 | U_pq0 | U_pq02 | U_rs0 | U_rsw | U_rsw2 | U_rst | U_rst_weird | U_plain.

(** u3/_helpers.py:212-219, 266-272, 301-315, 351-367, 432-438, 479-485: the values a, b (and c) from the
    rows of one column; angles are turned into Cartesian values, a missing last value is computed with a
    square root (of a negative number: no real value). *)
Definition u3_params (k : u3key) (col : list R) : option (list R) :=
  match k, col with
  | (U_a1 | U_a2 | U_a3), _ => Some []
  | U_pq0, v :: _ => Some [sin (v * PI); cos (v * PI)]
  | (U_pq02 | U_rs0), [a] => let! b := rsqrt (1 - a ^ 2) in Some [a; b]
  | (U_pq02 | U_rs0), [a; b] => Some [a; b]
  | U_llm, v :: _ => let beta := v * PI in Some [sin beta / sqrt 2; cos beta]
  | U_llm2, [L] => let! m := rsqrt (1 - 2 * L ^ 2) in Some [L; m]
  | U_llm2, [L; m] => Some [L; m]
  | U_rsw, [p; t] =>
      let phi := p * PI in let theta := t * PI in
      Some [sin theta * cos phi; sin theta * sin phi; cos theta]
  | (U_rsw2 | U_rst | U_rst_weird), [r; s] => let! w := rsqrt (1 - r ^ 2 - s ^ 2) in Some [r; s; w]
  | (U_rsw2 | U_rst | U_rst_weird), [r; s; w] => Some [r; s; w]
  | U_plain, [x; y; w] => Some [x; y; w]
  | _, _ => None
  end.

(** u3/_helpers.py:161-519: the points for normalised values. *)
Definition u3_orbit (k : u3key) (col : list R) : list point :=
  let a := nth 0 col 0 in
  let b := nth 1 col 0 in
  let r := nth 0 col 0 in
  let s := nth 1 col 0 in
  let w := nth 2 col 0 in
  match k with
  | U_a1 => let a := 1 in                                                                 (* 161-167 *)
      [[a; 0; 0]; [-a; 0; 0]; [0; a; 0]; [0; -a; 0]; [0; 0; a]; [0; 0; -a]]
  | U_a2 => let a := 1 / sqrt 2 in                                                        (* 170-191 *)
      [[a; a; 0]; [a; -a; 0]; [-a; a; 0]; [-a; -a; 0];
       [a; 0; a]; [a; 0; -a]; [-a; 0; a]; [-a; 0; -a];
       [0; a; a]; [0; a; -a]; [0; -a; a]; [0; -a; -a]]
  | U_a3 => let a := 1 / sqrt 3 in                                                        (* 194-209 *)
      [[a; a; a]; [a; a; -a]; [a; -a; a]; [a; -a; -a]; [-a; a; a]; [-a; a; -a]; [-a; -a; a]; [-a; -a; -a]]
  | U_pq0 | U_pq02 =>                                                                     (* 212-263 *)
      [[a; b; 0]; [-a; b; 0]; [-a; -b; 0]; [a; -b; 0];
       [b; a; 0]; [-b; a; 0]; [-b; -a; 0]; [b; -a; 0];
       [a; 0; b]; [-a; 0; b]; [-a; 0; -b]; [a; 0; -b];
       [b; 0; a]; [-b; 0; a]; [-b; 0; -a]; [b; 0; -a];
       [0; a; b]; [0; -a; b]; [0; -a; -b]; [0; a; -b];
       [0; b; a]; [0; -b; a]; [0; -b; -a]; [0; b; -a]]
  | U_rs0 =>                                                                              (* 266-298 *)
      [[a; b; 0]; [-a; b; 0]; [-a; -b; 0]; [a; -b; 0];
       [b; 0; a]; [-b; 0; a]; [-b; 0; -a]; [b; 0; -a];
       [0; a; b]; [0; -a; b]; [0; -a; -b]; [0; a; -b]]
  | U_llm | U_llm2 => let L := a in let m := b in                                         (* 301-348 *)
      [[L; L; m]; [-L; L; m]; [L; -L; m]; [-L; -L; m]; [L; L; -m]; [-L; L; -m]; [L; -L; -m]; [-L; -L; -m];
       [L; m; L]; [-L; m; L]; [L; m; -L]; [-L; m; -L]; [L; -m; L]; [-L; -m; L]; [L; -m; -L]; [-L; -m; -L];
       [m; L; L]; [m; -L; L]; [m; L; -L]; [m; -L; -L]; [-m; L; L]; [-m; -L; L]; [-m; L; -L]; [-m; -L; -L]]
  | U_rsw | U_rsw2 =>                                                                     (* 351-429 *)
      [[r; s; w]; [w; r; s]; [s; w; r]; [s; r; w]; [w; s; r]; [r; w; s];
       [-r; s; w]; [w; -r; s]; [s; w; -r]; [s; -r; w]; [w; s; -r]; [-r; w; s];
       [r; -s; w]; [w; r; -s]; [-s; w; r]; [-s; r; w]; [w; -s; r]; [r; w; -s];
       [r; s; -w]; [-w; r; s]; [s; -w; r]; [s; r; -w]; [-w; s; r]; [r; -w; s];
       [-r; -s; w]; [w; -r; -s]; [-s; w; -r]; [-s; -r; w]; [w; -s; -r]; [-r; w; -s];
       [-r; s; -w]; [-w; -r; s]; [s; -w; -r]; [s; -r; -w]; [-w; s; -r]; [-r; -w; s];
       [r; -s; -w]; [-w; r; -s]; [-s; -w; r]; [-s; r; -w]; [-w; -s; r]; [r; -w; -s];
       [-r; -s; -w]; [-w; -r; -s]; [-s; -w; -r]; [-s; -r; -w]; [-w; -s; -r]; [-r; -w; -s]]
  | U_rst =>                                                                              (* 432-476 *)
      [[r; s; w]; [w; r; s]; [s; w; r];
       [-r; s; w]; [w; -r; s]; [s; w; -r];
       [r; -s; w]; [w; r; -s]; [-s; w; r];
       [r; s; -w]; [-w; r; s]; [s; -w; r];
       [-r; -s; w]; [w; -r; -s]; [-s; w; -r];
       [-r; s; -w]; [-w; -r; s]; [s; -w; -r];
       [r; -s; -w]; [-w; r; -s]; [-s; -w; r];
       [-r; -s; -w]; [-w; -r; -s]; [-s; -w; -r]]
  | U_rst_weird => let t := w in                                                          (* 479-519 *)
      [[r; s; t]; [-r; t; s]; [s; t; r]; [-s; r; t]; [t; r; s]; [-t; s; r];
       [r; -s; -t]; [-r; -t; -s]; [s; -t; -r]; [-s; -r; -t]; [t; -r; -s]; [-t; -s; -r];
       [r; t; -s]; [-r; s; -t]; [s; r; -t]; [-s; t; -r]; [t; s; -r]; [-t; r; -s];
       [r; -t; s]; [-r; -s; t]; [s; -r; t]; [-s; -t; r]; [t; -s; r]; [-t; -r; s]]
  | U_plain => [col]                                                                      (* 540 *)
  end.

Fixpoint mapM {A B} (f : A -> option B) (l : list A) : option (list B) :=
  match l with
  | [] => Some []
  | x :: l' => let! y := f x in let! ys := mapM f l' in Some (y :: ys)
  end.
Definition u3_cols (k : u3key) (rows : list (list R)) : option (list (list R)) :=
  let nv := match rows with [] => 1%nat | r :: _ => length r end in
  match k with
  | U_a1 | U_a2 | U_a3 => Some [[]]
  | _ => if forallb (fun r => Nat.eqb (length r) nv) rows then mapM (u3_params k) (columns nv rows) else None
  end.
(** u3/_helpers.py:552-564 *)
Definition u3_expand (data : list (u3key * (list R * list (list R)))) : option (list point * list R) :=
  gen_expand u3_cols u3_orbit data.
(** u3/_helpers.py:527-541 *)
Open Scope string_scope.
Definition u3_table : list (string * u3key) :=
  [("a1", U_a1); ("a2", U_a2); ("a3", U_a3); ("llm", U_llm); ("llm2", U_llm2); ("pq0", U_pq0); ("pq02", U_pq02);
   ("rs0", U_rs0); ("rsw", U_rsw); ("rsw2", U_rsw2); ("rst", U_rst); ("rst_weird", U_rst_weird); ("plain", U_plain)].
Definition u3_expand_str (data : list (string * (list R * list (list R)))) :=
  let! d := resolve u3_table data in u3_expand d.
Close Scope string_scope.
