(** Model of quadpy/tn: schemes for the n-simplex.  Points are given by their n+1 barycentric coordinates,
    weights are relative to the volume.  sympy/float arithmetic is modelled by exact reals. *)
From Coq Require Import Reals List Arith.
From Verif Require Import Spec CombModel PyBase MiscModel TnBase CnModel.
Import ListNotations.
Open Scope R_scope.

(** Most constructors pass [points.T], the transposed array of rows, to TnScheme (tn/_helpers.py:10-16),
    whose columns are the points: a rule pairs weight i with row i ([from_data] of CnModel).
    hammer_stroud_1a, hammer_stroud_1b and lauffer_1 pass the array without transposing it; then point j is
    column j of the array of rows. *)
Definition np_columns (m : nat) (rows : list point) : list point :=
  map (fun j => map (fun row => nth j row 0) rows) (seq 0 m).
Definition from_data_untransposed (n : nat) (data : list (R * list point)) (degree : nat) : scheme :=
  let '(points, weights) := untangle data in
  mk_scheme n (mk_rule (np_columns (n + 1) points, weights)) degree.

(** weights /= np.sum(weights) (tn/_walkington.py:24, 40, 53, 72, 95 and tn/_grundmann_moeller.py:43) *)
Definition normalize (n : nat) (data : list (R * list point)) (degree : nat) : option scheme :=
  let '(points, weights) := untangle data in
  let total := Rsum weights in
  let! _ := rdiv 1 total in
  Some (mk_scheme n (mk_rule (points, map (fun w => w / total) weights)) degree).

(** tn/_stroud.py:34-40 *)
Definition stroud_tn_1_1 (n : nat) : scheme :=
  from_data n [(1, [repeat (1 / INR (n + 1)) (n + 1)])] 1.

(** tn/_lauffer.py:18-21 (also stroud_tn_1_2) *)
Definition lauffer_1 (n : nat) : option scheme :=
  let! p := Rrd (n + 1) [(1, 1%nat)] in
  Some (from_data_untransposed n [(1 / INR (n + 1), p)] 1).

(** tn/_lauffer.py:24-30 (also stroud_tn_2_2) *)
Definition lauffer_2 (n : nat) : option scheme :=
  let N := INR n in
  let B := (2 - N) / ((N + 1) * (N + 2)) in
  let C := 4 / ((N + 1) * (N + 2)) in
  let! p1 := Rrd (n + 1) [(1, 1%nat)] in
  let! p2 := Rrd (n + 1) [(1/2, 2%nat)] in
  Some (from_data n [(B, p1); (C, p2)] 2).

(** tn/_lauffer.py:33-48 (also stroud_tn_3_9) *)
Definition lauffer_3 (n : nat) : option scheme :=
  let N := INR n in
  let B := (N ^ 2 - 4 * N + 6) / ((N + 1) * (N + 2) * (N + 3)) in
  let C := (27 - 9 * N) / (2 * (N + 1) * (N + 2) * (N + 3)) in
  let D := 27 / ((N + 1) * (N + 2) * (N + 3)) in
  let r := 1/3 in
  let s := 2/3 in
  let! p1 := Rrd (n + 1) [(1, 1%nat)] in
  let! p2 := Rrd (n + 1) [(r, 1%nat); (s, 1%nat)] in
  let! p3 := Rrd (n + 1) [(r, 3%nat)] in
  Some (from_data n [(B, p1); (C, p2); (D, p3)] 3).

(** tn/_lauffer.py:51-75 (also stroud_tn_4_1) *)
Definition lauffer_4 (n : nat) : option scheme :=
  guard (3 <=? n)%nat (
  let N := INR n in
  let nprod := (N + 1) * (N + 2) * (N + 3) * (N + 4) in
  let B1 := (-3 * N ^ 3 + 17 * N ^ 2 - 58 * N + 72) / (3 * nprod) in
  let B2 := (16 * (N ^ 2 - 5 * N + 12)) / (3 * nprod) in
  let B3 := (4 * (N ^ 2 - 9 * N + 12)) / nprod in
  let B4 := (64 * (4 - N)) / (2 * nprod) in
  let B5 := 256 / nprod in
  let r := 1/4 in
  let s := 3/4 in
  let t := 1/2 in
  let! p1 := Rrd (n + 1) [(1, 1%nat)] in
  let! p2 := Rrd (n + 1) [(r, 1%nat); (s, 1%nat)] in
  let! p3 := Rrd (n + 1) [(t, 2%nat)] in
  let! p4 := Rrd (n + 1) [(r, 2%nat); (t, 1%nat)] in
  let! p5 := Rrd (n + 1) [(r, 4%nat)] in
  Some (from_data n [(B1, p1); (B2, p2); (B3, p3); (B4, p4); (B5, p5)] 4)).

(** tn/_lauffer.py:78-109 (also stroud_tn_5_2) *)
Definition lauffer_5 (n : nat) : option scheme :=
  guard (4 <=? n)%nat (
  let N := INR n in
  let nprod := (N + 1) * (N + 2) * (N + 3) * (N + 4) * (N + 5) in
  let B1 := (12 * N ^ 4 - 82 * N ^ 3 + 477 * N ^ 2 - 1277 * N + 1440) / (12 * nprod) in
  let B2 := (5 ^ 2 * (-3 * N ^ 3 + 19 * N ^ 2 - 96 * N + 170)) / (12 * nprod) in
  let B3 := (5 ^ 2 * (- N ^ 3 + 13 * N ^ 2 - 47 * N + 65)) / (6 * nprod) in
  let B4 := (5 ^ 3 * (N ^ 2 - 6 * N + 20)) / (3 * nprod) in
  let B5 := (5 ^ 3 * (N ^ 2 - 11 * N + 20)) / (4 * nprod) in
  let B6 := (5 ^ 4 * (5 - N)) / (2 * nprod) in
  let B7 := 5 ^ 5 / nprod in
  let r := 1/5 in
  let s := 4/5 in
  let u := 2/5 in
  let v := 3/5 in
  let! p1 := Rrd (n + 1) [(1, 1%nat)] in
  let! p2 := Rrd (n + 1) [(r, 1%nat); (s, 1%nat)] in
  let! p3 := Rrd (n + 1) [(u, 1%nat); (v, 1%nat)] in
  let! p4 := Rrd (n + 1) [(r, 2%nat); (v, 1%nat)] in
  let! p5 := Rrd (n + 1) [(r, 1%nat); (u, 2%nat)] in
  let! p6 := Rrd (n + 1) [(r, 3%nat); (u, 1%nat)] in
  let! p7 := Rrd (n + 1) [(r, 5%nat)] in
  Some (from_data n [(B1, p1); (B2, p2); (B3, p3); (B4, p4); (B5, p5); (B6, p6); (B7, p7)] 5)).

(** tn/_hammer_stroud.py:21-28 (also stroud_tn_2_1a) *)
Definition hammer_stroud_1a (n : nat) : option scheme :=
  let N := INR n in
  let! q := rsqrt (N + 2) in
  let r := (N + 2 - q) / (N + 1) / (N + 2) in
  let s := (N + 2 + N * q) / (N + 1) / (N + 2) in
  let! p := Rrd (n + 1) [(r, n); (s, 1%nat)] in
  Some (from_data_untransposed n [(1 / (N + 1), p)] 2).

(** tn/_hammer_stroud.py:31-38 (also stroud_tn_2_1b) *)
Definition hammer_stroud_1b (n : nat) : option scheme :=
  let N := INR n in
  let! q := rsqrt (N + 2) in
  let r := (N + 2 + q) / (N + 1) / (N + 2) in
  let s := (N + 2 - N * q) / (N + 1) / (N + 2) in
  let! p := Rrd (n + 1) [(r, n); (s, 1%nat)] in
  Some (from_data_untransposed n [(1 / (N + 1), p)] 2).

(** tn/_hammer_stroud.py:41-55 (also stroud_tn_3_1) *)
Definition hammer_stroud_2 (n : nat) : option scheme :=
  let N := INR n in
  let B := - ((N + 1) ^ 2 / (4 * (N + 2))) in
  let C := (N + 3) ^ 2 / (4 * (N + 1) * (N + 2)) in
  let r := 1 / (N + 1) in
  let s := 1 / (N + 3) in
  let t := 3 / (N + 3) in
  let! p := Rrd (n + 1) [(t, 1%nat); (s, n)] in
  Some (from_data n [(B, [repeat r (n + 1)]); (C, p)] 3).

(** tn/_stroud_1961.py:20-35 (also stroud_tn_3_3) *)
Definition stroud_1961 (n : nat) : option scheme :=
  let N := INR n in
  let r := 1 / (N + 1) in
  let! s := rdiv 1 N in
  let prod := (N + 1) * (N + 2) * (N + 3) in
  let A := (3 - N) * (N + 1) ^ 3 / prod in
  let B := 3 / prod in
  let C := N ^ 3 / prod in
  let! p1 := Rrd (n + 1) [(1, 1%nat)] in
  let! p2 := Rrd (n + 1) [(s, n)] in
  Some (from_data n [(A, [repeat r (n + 1)]); (B, p1); (C, p2)] 3).

(** tn/_stroud_1966.py:21-35 (also stroud_tn_3_2) *)
Definition stroud_1966_1 (n : nat) : option scheme :=
  let N := INR n in
  let! q := rsqrt (4 * N + 13) in
  let r := (2 * N + 5 - q) / 2 / (N + 1) / (N + 3) in
  let s := 1 - N * r in
  let B := (1 - q) / 2 / (N + 1) / (N + 2) / (N + 3) in
  let C := (2 * N ^ 2 + 10 * N + 11 + q) / 2 / (N + 1) / (N + 2) / (N + 3) in
  let! p1 := Rrd (n + 1) [(1, 1%nat)] in
  let! p2 := Rrd (n + 1) [(r, n); (s, 1%nat)] in
  Some (from_data n [(B, p1); (C, p2)] 3).

(** Value of the polynomial with the given coefficients, highest power first (the argument convention of
    np.roots and mp.polyroots). *)
Definition poly_val (coefs : list R) (x : R) : R := fold_left (fun acc c => acc * x + c) coefs 0.

(** tn/_stroud_1966.py:38-56 (also stroud_tn_3_4).  [min_real_root] stands for
    np.min of the real roots found by np.roots; its contract is a hypothesis of the theorem. *)
Definition stroud_1966_2 (min_real_root : list R -> R) (n : nat) : option scheme :=
  let N := INR n in
  let r := min_real_root [2 * (N - 2) * (N + 1) * (N + 3); - (5 * N ^ 2 + 5 * N - 18); 4 * N; -1] in
  let s := 1 - N * r in
  let t := 1/2 in
  let! b := rdiv (N - 2) (1 - 2 * N * r ^ 2 - 2 * (1 - N * r) ^ 2) in
  let B := b / (N + 1) / (N + 2) in
  let! C := rdiv (2 * (1 / (N + 1) - B)) N in
  let! p1 := Rrd (n + 1) [(r, n); (s, 1%nat)] in
  let! p2 := Rrd (n + 1) [(t, 2%nat)] in
  Some (from_data n [(B, p1); (C, p2)] 3).

(** tn/_stroud_1966.py:59-79 (also stroud_tn_3_5) *)
Definition stroud_1966_3 (n : nat) : option scheme :=
  guard (2 <? n)%nat (
  let N := INR n in
  let r := 1/2 in
  let! s := rdiv 1 N in
  let prod := (N + 1) * (N + 2) * (N + 3) in
  let B := (6 - N) / prod in
  let! C := rdiv (8 * (N - 3)) ((N - 2) * prod) in
  let! D := rdiv (N ^ 3) ((N - 2) * prod) in
  let! p1 := Rrd (n + 1) [(1, 1%nat)] in
  let! p2 := Rrd (n + 1) [(r, 2%nat)] in
  let! p3 := Rrd (n + 1) [(s, n)] in
  Some (from_data n [(B, p1); (C, p2); (D, p3)] 3)).

(** tn/_stroud_1966.py:82-100 (also stroud_tn_3_7) *)
Definition stroud_1966_4 (n : nat) : option scheme :=
  guard (3 <=? n)%nat (
  let N := INR n in
  let r := 1 / (N + 1) in
  let s := 1/3 in
  let! A := rdiv ((N + 1) ^ 2 * (N - 3)) ((N - 2) * (N + 2) * (N + 3)) in
  let B := (9 - N) / (2 * (N + 1) * (N + 2) * (N + 3)) in
  let! C := rdiv 27 ((N - 2) * (N + 1) * (N + 2) * (N + 3)) in
  let! p1 := Rrd (n + 1) [(1, 1%nat)] in
  let! p2 := Rrd (n + 1) [(s, 3%nat)] in
  Some (from_data n [(A, [repeat r (n + 1)]); (B, p1); (C, p2)] 3)).

(** tn/_stroud_1966.py:103-120 (also stroud_tn_3_8) *)
Definition stroud_1966_5 (n : nat) : option scheme :=
  let N := INR n in
  let! r := rdiv 1 N in
  let s := 1/3 in
  let prod := (N + 1) * (N + 2) * (N + 3) in
  let! A := rdiv (- N ^ 2 + 11 * N - 12) (2 * (N - 1) * prod) in
  let! B := rdiv (N ^ 3) ((N - 1) * prod) in
  let! C := rdiv 27 ((N - 1) * prod) in
  let! p1 := Rrd (n + 1) [(1, 1%nat)] in
  let! p2 := Rrd (n + 1) [(r, n)] in
  let! p3 := Rrd (n + 1) [(s, 3%nat)] in
  Some (from_data n [(A, p1); (B, p2); (C, p3)] 3).

(** tn/_stroud_1966.py:123-145 (also stroud_tn_3_10) *)
Definition stroud_1966_6 (n : nat) : option scheme :=
  guard (3 <=? n)%nat (guard (negb (n =? 5)%nat) (
  let N := INR n in
  let r := 1 / (N + 1) in
  let s := 1/3 in
  let! t := rdiv 1 (N - 2) in
  let prod := (N + 1) * (N + 2) * (N + 3) in
  let! A := rdiv ((3 - N) * (N - 12) * (N + 1) ^ 2) (3 * (N - 2) * (N + 2) * (N + 3)) in
  let! B := rdiv (54 * (3 * N - 11)) ((N - 5) * (N - 2) * (N - 1) * prod) in
  let! C := rdiv (2 * (N - 2) ^ 2 * (N - 9)) ((N - 5) * (N - 1) * prod) in
  let! p1 := Rrd (n + 1) [(s, 3%nat)] in
  let! p2 := Rrd (n + 1) [(t, (n - 2)%nat)] in
  Some (from_data n [(A, [repeat r (n + 1)]); (B, p1); (C, p2)] 3))).

(** tn/_stroud_1966.py:148-169 (also stroud_tn_3_11) *)
Definition stroud_1966_7 (n : nat) : option scheme :=
  guard (3 <=? n)%nat (guard (negb (n =? 5)%nat) (
  let N := INR n in
  let s := 1/3 in
  let! t := rdiv 1 (N - 2) in
  let prod := (N + 1) * (N + 2) * (N + 3) in
  let A := (12 - N) / (2 * prod) in
  let! B := rdiv (27 * (N - 7)) ((N - 5) * (N - 1) * prod) in
  let! C := rdiv (6 * (N - 2) ^ 2) ((N - 5) * (N - 1) * prod) in
  let! p1 := Rrd (n + 1) [(1, 1%nat)] in
  let! p2 := Rrd (n + 1) [(s, 3%nat)] in
  let! p3 := Rrd (n + 1) [(t, (n - 2)%nat)] in
  Some (from_data n [(A, p1); (B, p2); (C, p3)] 3))).

(** tn/_stroud_1964.py:20-58 (stroud_1964a, stroud_1964b, stroud_tn_3_6a, stroud_tn_3_6b).
    [roots] stands for np.roots / mp.polyroots followed by np.sort: the list of all roots in increasing
    order.  Its contract is a hypothesis of the theorems. *)
Definition stroud_1964 (roots : list R -> list R) (variant_a : bool) (n : nat) : option scheme :=
  let N := INR n in
  if (n =? 2)%nat then
    match roots [1; -1; 1/4; - (1/60)] with
    | [r; s; t] =>
        let! p := Rrd (n + 1) [(r, 1%nat); (s, 1%nat); (t, 1%nat)] in
        Some (from_data n [(1 / (N * (N + 1)), p)] 3)
    | _ => None
    end
  else
    guard (2 <? n)%nat (
    let rts := roots [N + 1; -3; 3 / (N + 2); -1 / ((N + 2) * (N + 3))] in
    guard (if (8 <? n)%nat then negb variant_a else true) (
    match rts with
    | [r0; r1; _] =>
        let r := if variant_a then r0 else r1 in
        match roots [1; - (1 - (N - 1) * r); N / (2 * (N + 2)) - (N - 1) * r + N * (N - 1) / 2 * r ^ 2] with
        | [s; t] =>
            let! p := Rrd (n + 1) [(r, (n - 1)%nat); (s, 1%nat); (t, 1%nat)] in
            Some (from_data n [(1 / (N * (N + 1)), p)] 3)
        | _ => None
        end
    | _ => None
    end)).

(** tn/_walkington.py:100-101 *)
Definition _c (d : nat) : list point := [repeat (1 / INR (d + 1)) (d + 1)].
(** tn/_walkington.py:104-108 *)
Definition _xi1 (d : nat) (a : R) : list point :=
  let b := 1 - INR d * a in
  map (fun i => map (fun j => if (j =? i)%nat then b else a) (seq 0 (d + 1))) (seq 0 (d + 1)).
(** tn/_walkington.py:111-128 *)
Definition _xi11 (d : nat) (a : R) : option (list point) :=
  guard (1 <? d)%nat (
  let b := (1 - (INR d - 1) * a) / 2 in
  if (d =? 2)%nat then Some [[b; b; a]; [b; a; b]; [a; b; b]]
  else guard (d =? 3)%nat (Some
    [[b; b; a; a]; [b; a; b; a]; [b; a; a; b]; [a; b; a; b]; [a; a; b; b]; [a; b; b; a]])).
(** tn/_walkington.py:131-160 *)
Definition _xi21 (d : nat) (a : R) : option (list point) :=
  guard (1 <? d)%nat (
  let b := (1 - (INR d - 2) * a) / 3 in
  let c := 1 - (INR d - 1) * a - b in
  if (d =? 2)%nat then Some [[b; c; a]; [c; b; a]; [c; a; b]; [b; a; c]; [a; b; c]; [a; c; b]]
  else guard (d =? 3)%nat (Some
    [[b; c; a; a]; [b; a; c; a]; [b; a; a; c]; [a; b; a; c]; [a; a; b; c]; [a; b; c; a];
     [c; b; a; a]; [c; a; b; a]; [c; a; a; b]; [a; c; a; b]; [a; a; c; b]; [a; c; b; a]])).
(** tn/_walkington.py:162-166 *)
Definition _xi111 (d : nat) (a : R) : option (list point) :=
  guard (d =? 3)%nat (
  let b := (1 - (INR d - 2) * a) / 3 in
  Some [[b; b; b; a]; [b; b; a; b]; [b; a; b; b]; [a; b; b; b]]).

(** tn/_walkington.py:19-26 *)
Definition walkington_1 (d : nat) : option scheme :=
  normalize d [(1 / INR (fact d), _c d)] 1.

(** tn/_walkington.py:29-42 *)
Definition walkington_2 (d : nat) : option scheme :=
  let! q := rsqrt (INR d + 1) in
  let! a := rdiv 1 q in
  normalize d [(1 / INR (fact (d + 1)), _xi1 d a)] 1.

(** tn/_walkington.py:45-55 *)
Definition walkington_3 (d : nat) : option scheme :=
  let D := INR d in
  normalize d [(- (D + 1) ^ 3 / (4 * INR (fact (d + 2))), _c d);
               ((D + 3) ^ 3 / (4 * INR (fact (d + 3))), _xi1 d (1 / (D + 3)))] 3.

(** tn/_walkington.py:58-74 *)
Definition walkington_5 (d : nat) : option scheme :=
  let D := INR d in
  let w0 := (D + 1) ^ 5 / (32 * INR (fact (d + 3))) in
  let w1 := - (D + 3) ^ 5 / (16 * INR (fact (d + 4))) in
  let w2 := (D + 5) ^ 5 / (16 * INR (fact (d + 5))) in
  let! x11 := _xi11 d (1 / (D + 5)) in
  normalize d [(w0, _c d); (w1, _xi1 d (1 / (D + 3))); (w2, _xi1 d (1 / (D + 5))); (w2, x11)] 5.

(** tn/_walkington.py:77-97 *)
Definition walkington_7 (d : nat) : option scheme :=
  let D := INR d in
  let w0 := - (1/384) * ((D + 1) ^ 7 / INR (fact (d + 4))) in
  let w1 := 1/128 * ((D + 3) ^ 7 / INR (fact (d + 5))) in
  let w2 := - (1/64) * ((D + 5) ^ 7 / INR (fact (d + 6))) in
  let w3 := 1/64 * ((D + 7) ^ 7 / INR (fact (d + 7))) in
  let! x11 := _xi11 d (1 / (D + 5)) in
  let! x21 := _xi21 d (1 / (D + 7)) in
  let! x111 := _xi111 d (1 / (D + 7)) in
  normalize d [(w0, _c d); (w1, _xi1 d (1 / (D + 3))); (w2, _xi1 d (1 / (D + 5))); (w2, x11);
               (w3, _xi1 d (1 / (D + 7))); (w3, x21); (w3, x111)] 7.

(** tn/_stroud_1969.py:19-66 (also stroud_tn_5_1).  [solve A b] stands for np.linalg.solve; its contract is a
    hypothesis of the theorem. *)
Definition stroud_1969_points (n : nat) : option (list (list point)) :=
  let N := INR n in
  let! q := rsqrt 15 in
  let e := N ^ 2 + 8 * N + 1 in
  let f := N ^ 2 + 14 * N - 11 in
  let t := 1 / (N + 1) in
  let r pm := (N + 4 - pm * q) / e in
  let s pm := (4 * N + 1 + pm * N * q) / e in
  let u pm := (N + 7 + pm * 2 * q) / f in
  let v pm := (4 * N - 2 - pm * (N - 1) * q) / f in
  let! p2 := Rrd (n + 1) [(r 1, n); (s 1, 1%nat)] in
  let! p3 := Rrd (n + 1) [(r (-1), n); (s (-1), 1%nat)] in
  let! p4 := Rrd (n + 1) [(u 1, (n - 1)%nat); (v 1, 2%nat)] in
  let! p5 := Rrd (n + 1) [(u (-1), (n - 1)%nat); (v (-1), 2%nat)] in
  Some ([[repeat t (n + 1)]; p2; p3; p4] ++ (if (3 <? n)%nat then [p5] else [])).
Definition stroud_1969 (solve : list (list R) -> list R -> list R) (n : nat) : option scheme :=
  guard (3 <=? n)%nat (
  let! pts := stroud_1969_points n in
  let k_range := [0; 2; 3; 4]%nat ++ (if (3 <? n)%nat then [5%nat] else []) in
  let b0 := integrate_monomial_over_unit_simplex (repeat 0%nat n) in
  let b := map (fun k => integrate_monomial_over_unit_simplex (k :: repeat 0%nat (n - 1)) / b0) k_range in
  let A := map (fun k => map (fun p => Rsum (map (fun x => nth 0 x 0 ^ k) p)) pts) k_range in
  let w := solve A b in
  Some (from_data n (List.combine w pts) 5)).
