(** Model of quadpy/un: schemes for the unit sphere of R^n (weights are normalised: they sum to 1, integrate()
    multiplies by the surface area). *)
From Coq Require Import Reals List Arith.
From Verif Require Import Spec CombModel PyBase SymmModel MiscModel CnModel SphereSpec.
Import ListNotations.
Open Scope R_scope.

(** un/_stroud.py:17-21 *)
Definition stroud_un_3_1 (n : nat) : option scheme :=
  let! w := rdiv 1 (2 * INR n) in
  let! p := Rfsd n [(1, 1%nat)] in
  Some (from_data n [(w, p)] 3).

(** un/_stroud.py:24-28 *)
Definition stroud_un_3_2 (n : nat) : option scheme :=
  let! q := rdiv 1 (INR n) in
  let! r := rsqrt q in
  Some (from_data n [(1 / 2 ^ n, Rpm (repeat r n))] 3).

(** un/_stroud.py:31-40 *)
Definition stroud_un_5_1 (n : nat) : option scheme :=
  let N := INR n in
  let! B1 := rdiv (4 - N) (2 * N * (N + 2)) in
  let! B2 := rdiv 1 (N * (N + 2)) in
  let! p1 := Rfsd n [(1, 1%nat)] in
  let! r := rsqrt (1/2) in
  let! p2 := Rfsd n [(r, 2%nat)] in
  Some (from_data n [(B1, p1); (B2, p2)] 5).

(** un/_stroud.py:43-52 *)
Definition stroud_un_5_2 (n : nat) : option scheme :=
  let N := INR n in
  let! B1 := rdiv 1 (N * (N + 2)) in
  let! B2 := rdiv N (2 ^ n * (N + 2)) in
  let! p1 := Rfsd n [(1, 1%nat)] in
  let! q := rdiv 1 N in
  let! r := rsqrt q in
  Some (from_data n [(B1, p1); (B2, Rpm (repeat r n))] 5).

(** un/_stroud.py:55-64; k runs over 1..n here (k - 1 zeros in front).  2^(k-n) is 2^k / 2^n. *)
Fixpoint stroud_un_5_3_data (n : nat) (s : R) (ks : list nat) : option (list (R * list point)) :=
  match ks with
  | [] => Some []
  | k :: ks' =>
      let N := INR n in let K := INR k in
      let! B := rdiv (2 ^ k / 2 ^ n * (N + 2)) (N * (K + 1) * (K + 2)) in
      let! r := rsqrt ((K + 2) / (N + 2)) in
      let! rest := stroud_un_5_3_data n s ks' in
      Some ((B, Rpm (repeat 0 (k - 1) ++ [r] ++ repeat s (n - k))) :: rest)
  end.
Definition stroud_un_5_3 (n : nat) : option scheme :=
  let! s := rsqrt (1 / (INR n + 2)) in
  let! data := stroud_un_5_3_data n s (seq 1 n) in
  Some (from_data n data 5).

(** un/_stroud.py:67-77 *)
Definition stroud_un_5_4 (n : nat) : option scheme :=
  let N := INR n in
  let! s := rsqrt (2 * (N + 2)) in
  let! u0 := rdiv (N + 2 + (N - 1) * s) N in
  let! u := rsqrt (u0 / (N + 2)) in
  let! v0 := rdiv (N + 2 - s) N in
  let! v := rsqrt (v0 / (N + 2)) in
  let! w := rdiv 1 (2 ^ n * N) in
  let! p := Rfsd n [(u, 1%nat); (v, (n - 1)%nat)] in
  Some (from_data n [(w, p)] 5).

(** un/_stroud.py:80-93 *)
Definition stroud_un_7_2 (n : nat) : option scheme :=
  let N := INR n in
  let! A := rdiv (- (N ^ 2)) (2 ^ (n + 3) * (N + 2)) in
  let! B := rdiv ((N + 4) ^ 2) (2 ^ (n + 3) * N * (N + 2)) in
  let! q := rdiv 1 N in
  let! r := rsqrt q in
  let! s := rsqrt (5 / (N + 4)) in
  let! t := rsqrt (1 / (N + 4)) in
  let! p := Rfsd n [(s, 1%nat); (t, (n - 1)%nat)] in
  Some (from_data n [(A, Rpm (repeat r n)); (B, p)] 7).

(** un/_stroud_1967.py:18-37 (also stroud_un_7_1) *)
Definition stroud_1967_data (n : nat) : option (list (R * list point)) :=
  let N := INR n in
  let! q := rdiv 1 N in
  let! s := rsqrt q in
  let! t := rsqrt (1/2) in
  let! B := rdiv (8 - N) (N * (N + 2) * (N + 4)) in
  let! C := rdiv (N ^ 3) (2 ^ n * N * (N + 2) * (N + 4)) in
  let! D := rdiv 4 (N * (N + 2) * (N + 4)) in
  let! p1 := Rfsd n [(1, 1%nat)] in
  let! p2 := Rfsd n [(t, 2%nat)] in
  Some [(B, p1); (C, Rpm (repeat s n)); (D, p2)].
Definition stroud_1967 (n : nat) : option scheme :=
  let! data := stroud_1967_data n in
  Some (from_data n data 7).

(** helpers/misc.py:130-139, get_nsimplex_points: row r of the array; r = n gives the last row. *)
Fixpoint nsimplex_head (n : nat) (is : list nat) : option (list R) :=
  match is with
  | [] => Some []
  | i :: is' =>
      let! q := rdiv (INR n + 1) (INR n * (INR n - INR i + 1) * (INR n - INR i)) in
      let! s := rsqrt q in
      let! rest := nsimplex_head n is' in
      Some (- s :: rest)
  end.
Definition nsimplex_row (n r : nat) : option point :=
  let! head := nsimplex_head n (seq 0 r) in
  if (r <? n)%nat then
    let! q := rdiv ((INR n + 1) * (INR n - INR r)) (INR n * (INR n - INR r + 1)) in
    let! s := rsqrt q in
    Some (head ++ [s] ++ repeat 0 (n - r - 1))
  else Some head.
Fixpoint opt_list {A B} (f : A -> option B) (l : list A) : option (list B) :=
  match l with
  | [] => Some []
  | a :: l' => let! b := f a in let! bs := opt_list f l' in Some (b :: bs)
  end.
Definition get_nsimplex_points (n : nat) : option (list point) := opt_list (nsimplex_row n) (seq 0 (n + 1)).

(** numpy: entrywise sum and multiples of vectors *)
Definition vadd (x y : point) : point := map (fun ab => fst ab + snd ab) (List.combine x y).
Definition vscale (c : R) (x : point) : point := map (Rmult c) x.

(** un/_mysovskikh.py:18-21 *)
Definition mysovskikh_1 (n : nat) : option scheme :=
  let! points := get_nsimplex_points n in
  Some (mk_scheme n (mk_rule (points, repeat (1 / (INR n + 1)) (n + 1))) 2).

(** un/_mysovskikh.py:29-35: the vectors c (a[k] + a[l]) for l < k <= n, in this order *)
Definition pair_midpoints (c : R) (a : list point) : list point :=
  flat_map (fun k => map (fun l => vscale c (vadd (nth k a []) (nth l a []))) (seq 0 k)) (seq 0 (length a)).
(** un/_mysovskikh.py:24-46 *)
Definition mysovskikh_2 (n : nat) : option scheme :=
  let N := INR n in
  let! A := rdiv ((7 - N) * N) (2 * (N + 1) ^ 2 * (N + 2)) in
  let! B := rdiv (2 * (N - 1) ^ 2) (N * (N + 1) ^ 2 * (N + 2)) in
  let! a := get_nsimplex_points n in
  let! q := rdiv N (2 * (N - 1)) in
  let! c := rsqrt q in
  let b := pair_midpoints c a in
  let points := a ++ map (map Ropp) a ++ b ++ map (map Ropp) b in
  let weights := repeat A (length a) ++ repeat A (length a) ++ repeat B (length b) ++ repeat B (length b) in
  Some (mk_scheme n (mk_rule (points, weights)) 5).

(** ndim.nsphere.integrate_monomial(k) and ndim.nsphere.volume(n) (external package ndim): modelled as the true
    integral of the monomial over the unit sphere. *)
Definition ndim_nsphere (n : nat) (k : list nat) : R := sphere_int n (mono k).

(** un/_dobrodeev_1978.py:27-47 and 49; None in the table is 0 here.  "I" is t = 1; for n = 4, 7 pm_type is None, which
    is not used. *)
Definition un_dobrodeev_config (n : nat) : option (R * nat * nat * nat) :=
  match n with
  | 2 | 3 => Some (tI, 0, 1, 1) | 4 => Some (tI, 2, 0, 0) | 5 | 6 => Some (tI, 5, 1, 1) | 7 => Some (tI, 3, 0, 0)
  | 8 | 9 | 10 | 11 => Some (tI, n, 1, 1) | 12 => Some (tI, 5, 1, 1)
  | 13 | 14 | 15 | 16 | 17 => Some (tI, n, 1, 2) | 18 | 19 | 20 => Some (tI, n, 1, 3)
  | _ => None
  end%nat.
(** un/_dobrodeev_1978.py:74-78 *)
Definition un_generate_i (n i : nat) : option (R * R) :=
  let L := INR (fact n / fact i / fact (n - i)) * 2 ^ i in
  let! G := rdiv 1 L in
  let! a := rsqrt (3 / (INR n + 2)) in
  Some (G, a).
(** un/_dobrodeev_1978.py:81-88 *)
Definition un_generate_jk (n : nat) (t : R) (j k : nat) : option (R * R * R) :=
  let N := INR n in let J := INR j in let K := INR k in
  let M := INR (fact n / fact j / fact k / fact (n - j - k)) * 2 ^ (j + k) in
  let! G := rdiv 1 M in
  let! jk := rdiv 1 (J + K) in
  let! kj := rdiv K J in
  let! d := rsqrt (3 * (J + K) / (N + 2) - 1) in
  let! b := rsqrt (jk * (1 + t * (kj * d))) in
  let! jk' := rdiv J K in
  let! c := rsqrt (jk * (1 - t * (jk' * d))) in
  Some (G, b, c).
(** un/_dobrodeev_1978.py:91-117 *)
Definition un_compute_dobrodeev (n : nat) (I0 I2 I22 I4 t : R) (i j k : nat) : option (R * R * R * R) :=
  let nR := INR n in let iR := INR i in let jR := INR j in let kR := INR k in
  let L := INR (fact n / (fact i * fact (n - i)))%nat * 2 ^ i in
  let M := INR (fact n / (fact j * fact k * fact (n - j - k)))%nat * 2 ^ (j + k) in
  let N := L + M in
  let! F1 := rdiv I22 I0 in
  let! F2 := rdiv (I2 ^ 2) (I0 ^ 2) in
  let! F3 := rdiv I4 I0 in
  let! jki := rdiv (jR + kR - iR) iR in
  let! c1 := rdiv (jR + kR - 1) nR in
  let! c2 := rdiv (nR - 1) nR in
  let Rr := - jki * F2 + c1 * F3 - c2 * F1 in
  let! ji := rdiv 1 iR in
  let! jkn := rdiv (jR + kR) nR in
  let H := ji * ((jR + kR - iR) * F2 + jkn * ((iR - 1) * F3 - (nR - 1) * F1)) in
  let! LM := rdiv L M in
  let! m2 := rdiv I2 I0 in
  let Q := LM * Rr + H in
  let! G := rdiv 1 N in
  let! ni := rdiv nR iR in
  let! a := rsqrt (ni * m2) in
  let! njk := rdiv nR (jR + kR) in
  let! kj := rdiv kR jR in
  let! skQ := rsqrt (kj * Q) in
  let! b := rsqrt (njk * (m2 + t * skQ)) in
  let! jk := rdiv jR kR in
  let! sjQ := rsqrt (jk * Q) in
  let! c := rsqrt (njk * (m2 - t * sjQ)) in
  Some (G, a, b, c).
(** un/_dobrodeev_1978.py:22-71 *)
Definition un_dobrodeev_1978 (n : nat) : option scheme :=
  let! (t, i, j, k) := un_dobrodeev_config n in
  match i, j with
  | O, _ =>
      let! (G, b, c) := un_generate_jk n t j k in
      let! p := Rfsd n [(b, j); (c, k)] in
      Some (from_data n [(G, p)] 5)
  | _, O =>
      let! (G, a) := un_generate_i n i in
      let! p := Rfsd n [(a, i)] in
      Some (from_data n [(G, p)] 5)
  | _, _ =>
      let I0 := ndim_nsphere n (repeat 0%nat n) in
      let I2 := ndim_nsphere n (2 :: repeat 0 (n - 1))%nat in
      let I22 := ndim_nsphere n (2 :: 2 :: repeat 0 (n - 2))%nat in
      let I4 := ndim_nsphere n (4 :: repeat 0 (n - 1))%nat in
      let! (G, a, b, c) := un_compute_dobrodeev n I0 I2 I22 I4 t i j k in
      let! p1 := Rfsd n [(a, i)] in
      let! p2 := Rfsd n [(b, j); (c, k)] in
      Some (from_data n [(G, p1); (G, p2)] 5)
  end.
