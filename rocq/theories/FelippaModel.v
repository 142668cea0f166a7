(** Model of the closed-form schemes in quadpy/p3 (pyramid) and quadpy/w3 (wedge).  Points and weights are those of the scheme
    object; the maps onto pyramids and wedges are in PyraModel.v.  felippa_9 of the pyramid is in RestModel.v,
    felippa_4, 5, 6 of the wedge in DecModel.v. *)
From Coq Require Import Reals List Arith.
From Verif Require Import Spec CombModel PyBase.
Import ListNotations.
Open Scope R_scope.

(** untangle(data) and the constructors P3Scheme, W3Scheme (p3/_helpers.py:6-9, w3/_helpers.py:6-9). *)
Definition mk3 (data : list (R * list point)) (degree : nat) : scheme := mk_scheme 3 (mk_rule (untangle data)) degree.
(** p3/_helpers.py:90-91 *)
Definition s4 (a z : R) : list point := [[a; a; z]; [- a; a; z]; [a; - a; z]; [- a; - a; z]].
(** p3/_helpers.py:94-95 *)
Definition s4_0 (a z : R) : list point := [[a; 0; z]; [- a; 0; z]; [0; a; z]; [0; - a; z]].

(** p3/_felippa.py:20-24 *)
Definition p3_felippa_1 : option scheme := Some (mk3 [(128/27, [[0; 0; - (1/2)]])] 1).
(** p3/_felippa.py:27-34 *)
Definition p3_felippa_2 : option scheme :=
  let! r := rsqrt (2/15) in
  Some (mk3 [(81/100, s4 (8 * r / 5) (- (2/3))); (125/27, [[0; 0; 2/5]])] 2).
(** p3/_felippa.py:37-45 *)
Definition p3_felippa_3 : option scheme :=
  let! r := rsqrt (12/35) in
  Some (mk3 [(504/625, s4 r (- (2/3))); (576/625, [[0; 0; 1/6]]); (64/15, [[0; 0; 1/2]])] 2).
(** p3/_felippa.py:48-56 *)
Definition p3_felippa_4 : option scheme :=
  let! q := rsqrt 10 in
  let w1 := 5 * (68 + 5 * q) / 432 in
  let w2 := 85/54 - w1 in
  let! g1 := rsqrt (1/3) in
  let g2 := (2 * q - 5) / 15 in
  Some (mk3 [(w1, s4 g1 g2); (w2, s4 g1 (- (2/3) - g2))] 3).
(** p3/_felippa.py:59-67 *)
Definition p3_felippa_5 : option scheme :=
  let! q := rsqrt 51 in
  let w1 := (11764 - 461 * q) / 15300 in
  let w2 := 346/225 - w1 in
  let! r1 := rsqrt (2/15 * (573 - 1 * 2 * q)) in
  let! r2 := rsqrt (2/15 * (573 - -1 * 2 * q)) in
  let g1 := r1 / 15 in
  let g2 := r2 / 15 in
  let g3 := - (1) * (2 * q + 1 * 13) / 35 in
  let g4 := - (-1) * (2 * q + -1 * 13) / 35 in
  Some (mk3 [(w1, s4 g1 g3); (w2, s4 g2 g4)] 2).
(** p3/_felippa.py:70-85 *)
Definition p3_felippa_6 : option scheme :=
  let! q := rsqrt 2865 in
  let w1 := 7 * (11472415 - 70057 * q) / 130739500 in
  let w2 := 84091/68450 - w1 in
  let! t := rdiv (573 + 5 * q) (109825 + 969 * q) in
  let! r1 := rsqrt t in
  let g1 := 8 * r1 in
  let! r2 := rsqrt (2 * (8025 + q) / 35) in
  let g2 := r2 / 37 in
  let g3 := - (1) * (1 * 87 + q) / 168 in
  let g4 := - (-1) * (-1 * 87 + q) / 168 in
  Some (mk3 [(w1, s4 g1 g3); (w2, s4 g2 g4); (18/5, [[0; 0; 2/3]])] 2).
(** p3/_felippa.py:88-106 *)
Definition p3_felippa_7 : option scheme :=
  let w1 := 170569/331200 in
  let w2 := 276710106577408/1075923777052725 in
  let w3 := 12827693806929/30577384040000 in
  let w4 := 10663383340655070643544192/4310170528879365193704375 in
  let! r1 := rsqrt (35/59) in
  let g1 := 7 * r1 / 8 in
  let! r2 := rsqrt (336633710/33088740423) in
  let g2 := 224 * r2 / 37 in
  let! r3 := rsqrt (37043/35) in
  let g3 := r3 / 56 in
  let g4 := - (127/153) in
  let g5 := 1490761/2842826 in
  Some (mk3 [(w1, s4 g1 (- (1/7))); (w2, s4_0 g2 (- (9/28))); (w3, s4 g3 g4); (w4, [[0; 0; g5]])] 2).
(** p3/_felippa.py:109-127 *)
Definition p3_felippa_8 : option scheme :=
  let! q := rsqrt 10 in
  let w1 := 5 * (68 + 5 * q) / 432 in
  let w2 := 85/54 - w1 in
  let! g1 := rsqrt (3/5) in
  let g2 := 1 - 2 * (10 - q) / 15 in
  let g3 := - (2/3) - g2 in
  Some (mk3 [(w1 * (25/81), s4 g1 g2); (w1 * (40/81), s4_0 g1 g2); (w1 * (64/81), [[0; 0; g2]]);
             (w2 * (25/81), s4 g1 g3); (w2 * (40/81), s4_0 g1 g3); (w2 * (64/81), [[0; 0; g3]])] 3).

(** w3/_felippa.py:80-82 *)
Definition s3 : list point := [[1/3; 1/3; 0]].
(** w3/_felippa.py:95-97 *)
Definition s21_z (a z : R) : list point :=
  let b := 1 - 2 * a in [[a; b; z]; [b; a; z]; [a; a; z]; [a; b; - z]; [b; a; - z]; [a; a; - z]].
(** w3/_felippa.py:23-26 *)
Definition w3_felippa_1 : option scheme := Some (mk3 [(1, s3)] 1).
(** w3/_felippa.py:29-32 *)
Definition w3_felippa_2 : option scheme := let! r := rsqrt (1/3) in Some (mk3 [(1/6, s21_z (1/6) r)] 2).
(** w3/_felippa.py:35-38 *)
Definition w3_felippa_3 : option scheme := let! r := rsqrt (1/3) in Some (mk3 [(1/6, s21_z (1/2) r)] 2).
