(** Model of the one-dimensional rules with explicit formulas (quadpy/c1) and of the circle rule (quadpy/u2).
    Weights and points are exact reals; numpy and sympy compute float64 or symbolic versions of the same expressions. *)
From Coq Require Import Reals List Arith ZArith Bool.
From Coquelicot Require Import Coquelicot.
From Verif Require Import Spec Spec1 CombModel AdaptModel PyBase UnModel.
Import ListNotations.
Open Scope R_scope.

(** The parts of a C1Scheme object that matter: c1/_helpers.py:57-60. [degree] may be negative in the code. *)
Record c1_scheme := mk_c1 { c1_degree : Z; c1_rule : rule1 }.
(** C1Scheme(name, degree, weights, points) *)
Definition c1_scheme_of (degree : Z) (weights points : list R) : c1_scheme := mk_c1 degree (List.combine weights points).

(** numpy.linspace(a, b, m) *)
Definition linspace (a b : R) (m : nat) : list R := map (fun i => a + INR i * ((b - a) / INR (m - 1))) (seq 0 m).

(* ------------------------------------------------------------------ Newton-Cotes *)
(** sympy.prod([(t - i) for i in is if i != r]) as a function of t *)
Definition nc_prod (is : list nat) (r : nat) (t : R) : R :=
  fold_right Rmult 1 (map (fun i => t - INR i) (filter (fun i => negb (i =? r)%nat) is)).
(** c1/_newton_cotes.py:9-37; sympy.integrate is exact, so it is the integral. *)
Definition newton_cotes_closed (index : nat) : option c1_scheme :=
  let points := linspace (-1) 1 (index + 1) in
  let degree := if Nat.even index then Z.of_nat (index + 1) else Z.of_nat index in
  let n := index in
  let! weights := opt_list (fun r =>
    rdiv (2 * (-1) ^ (n - r) * RInt (nc_prod (seq 0 (n + 1)) r) 0 (INR n) / INR (fact r * fact (n - r))) (INR index)) (seq 0 (n + 1)) in
  Some (c1_scheme_of degree weights points).
(** c1/_newton_cotes.py:40-62 *)
Definition newton_cotes_open (index : nat) : option c1_scheme :=
  let points := removelast (tl (linspace (-1) 1 (index + 2))) in
  let degree := if Nat.even (index + 1) then Z.of_nat index else (Z.of_nat index - 1)%Z in
  let n := (index + 1)%nat in
  let! weights := opt_list (fun r =>
    rdiv (2 * (-1) ^ (n - r + 1) * RInt (nc_prod (seq 1 (n - 1)) r) 0 (INR n) / INR (fact (r - 1) * fact (n - 1 - r))) (INR n)) (seq 1 (n - 1)) in
  Some (c1_scheme_of degree weights points).

(* ------------------------------------------------------------------ Chebyshev-Gauss *)
(** degree = n if n % 2 == 1 else n + 1 *)
Definition cg_degree (n : nat) : Z := if Nat.odd n then Z.of_nat n else Z.of_nat (n + 1).
(** c1/_chebyshev_gauss.py:8-29; the three modes compute the same expressions *)
Definition chebyshev_gauss_1 (n : nat) : option c1_scheme :=
  let! points := opt_list (fun k => let! q := rdiv (INR (2 * k - 1)) (2 * INR n) in Some (cos (q * PI))) (seq 1 n) in
  let! w := rdiv PI (INR n) in
  Some (c1_scheme_of (cg_degree n) (repeat w n) points).
(** c1/_chebyshev_gauss.py:32-62 *)
Definition chebyshev_gauss_2 (n : nat) : option c1_scheme :=
  let! points := opt_list (fun k => let! q := rdiv (PI * INR k) (INR n + 1) in Some (cos q)) (seq 1 n) in
  let! weights := opt_list (fun k => let! q := rdiv (PI * INR k) (INR n + 1) in let! c := rdiv PI (INR n + 1) in Some (c * sin q ^ 2)) (seq 1 n) in
  Some (c1_scheme_of (cg_degree n) weights points).

(* ------------------------------------------------------------------ Clenshaw-Curtis and Fejer *)
(** numpy.fft.ihfft of a real array a of length n: entry k, 0 <= k <= n/2, is (1/n) sum_m a_m exp(2 pi i m k / n) *)
Definition ihfft_re (a : list R) : list R :=
  let n := length a in
  map (fun k => / INR n * Rsum (map (fun m => nth m a 0 * cos (2 * PI * INR m * INR k / INR n)) (seq 0 n))) (seq 0 (n / 2 + 1)).
Definition ihfft_im (a : list R) : list R :=
  let n := length a in
  map (fun k => / INR n * Rsum (map (fun m => nth m a 0 * sin (2 * PI * INR m * INR k / INR n)) (seq 0 n))) (seq 0 (n / 2 + 1)).
(** w = ihfft(a); assert max(w.imag) < 1.0e-15; w.real (c1/_clenshaw_curtis.py:39-41) *)
Definition ihfft_checked (a : list R) : option (list R) :=
  guard (forallb (fun x => Rltb x (1 / 10 ^ 15)) (ihfft_im a)) (Some (ihfft_re a)).
(** numpy.arange(1, n, 2) *)
Definition odds_below (n : nat) : list R := map (fun i => INR (2 * i + 1)) (seq 0 (n / 2)).
(** concatenate([2.0 / N / (N - 2), [1.0 / N[-1]], zeros(m)]); the entries of N are odd integers, so no division by
    zero; N[-1] raises IndexError for empty N.  (c1/_clenshaw_curtis.py:29-32, c1/_fejer.py:57-60) *)
Definition waldvogel_v0 (n : nat) : option (list R) :=
  let N := odds_below n in
  match rev N with
  | [] => None
  | last :: _ => Some (map (fun x => 2 / x / (x - 2)) N ++ [1 / last] ++ repeat 0 (n - length N))
  end.
(** v2 = -v0[:-1] - v0[:0:-1] (c1/_clenshaw_curtis.py:33, c1/_fejer.py:61) *)
Definition waldvogel_v2 (v0 : list R) : list R :=
  map (fun ab => - fst ab - snd ab) (List.combine (removelast v0) (rev (tl v0))).
(** weights from the half spectrum: concatenate([w, w[::-1]]) for odd n, concatenate([w, w[len(w)-2::-1]]) for even n
    (c1/_clenshaw_curtis.py:43-46, c1/_fejer.py:67-70) *)
Definition mirror (n : nat) (w : list R) : list R := if Nat.odd n then w ++ rev w else w ++ rev (removelast w).
(** g0 = -ones(n); g0[length] += n; g0[m] += n; g = g0 / (n**2 - 1 + n % 2)  (c1/_clenshaw_curtis.py:34-37) *)
Definition cc_g (n : nat) : list R :=
  let len := (n / 2)%nat in let m := (n - len)%nat in
  map (fun i => (-1 + (if (i =? len)%nat then INR n else 0) + (if (i =? m)%nat then INR n else 0)) / (INR n ^ 2 - 1 + INR (n mod 2))) (seq 0 n).
(** c1/_clenshaw_curtis.py:20-48.  For n = 1 the code divides by zero, for n <= 1 it raises IndexError at N[-1]. *)
Definition clenshaw_curtis (n : nat) : option c1_scheme :=
  let! points := opt_list (fun k => let! q := rdiv (PI * INR k) (INR n - 1) in Some (- cos q)) (seq 0 n) in
  if (n =? 2)%nat then Some (c1_scheme_of (Z.of_nat n) [1; 1] points)
  else
    let n1 := (n - 1)%nat in
    let! v0 := waldvogel_v0 n1 in
    let v2 := waldvogel_v2 v0 in
    let! w := ihfft_checked (map (fun ab => fst ab + snd ab) (List.combine v2 (cc_g n1))) in
    Some (c1_scheme_of (Z.of_nat n) (mirror n1 w) points).
(** c1/_fejer.py:47-74 *)
Definition fejer_2 (n : nat) : option c1_scheme :=
  let! points := opt_list (fun k => let! q := rdiv (PI * INR k) (INR n + 1) in Some (- cos q)) (seq 1 n) in
  let n1 := (n + 1)%nat in
  let! v0 := waldvogel_v0 n1 in
  let! w := ihfft_checked (waldvogel_v2 v0) in
  Some (c1_scheme_of (Z.of_nat n) (removelast (tl (mirror n1 w))) points).
(** complex numbers as pairs; numpy.fft.ifft of a complex array of length n: (1/n) sum_m v_m exp(2 pi i m k / n) *)
Definition ifft_re (v : list (R * R)) : list R :=
  let n := length v in
  map (fun k => / INR n * Rsum (map (fun m => let z := nth m v (0, 0) in let t := 2 * PI * INR m * INR k / INR n in fst z * cos t - snd z * sin t) (seq 0 n))) (seq 0 n).
Definition ifft_im (v : list (R * R)) : list R :=
  let n := length v in
  map (fun k => / INR n * Rsum (map (fun m => let z := nth m v (0, 0) in let t := 2 * PI * INR m * INR k / INR n in fst z * sin t + snd z * cos t) (seq 0 n))) (seq 0 n).
(** c1/_fejer.py:19-44: v0 = concatenate([2 exp(1j pi K / n) / (1 - 4 K^2), zeros(length + 1)]);
    v1 = v0[:-1] + conjugate(v0[:0:-1]).  ifft of an empty array raises. *)
Definition fejer_1_v0 (n : nat) : list (R * R) :=
  let len := (n / 2)%nat in let m := (n - len)%nat in
  map (fun K => (2 * cos (PI * INR K / INR n) / (1 - 4 * INR K ^ 2), 2 * sin (PI * INR K / INR n) / (1 - 4 * INR K ^ 2))) (seq 0 m)
  ++ repeat (0, 0) (len + 1).
Definition fejer_1_v1 (v0 : list (R * R)) : list (R * R) :=
  map (fun ab => (fst (fst ab) + fst (snd ab), snd (fst ab) - snd (snd ab))) (List.combine (removelast v0) (rev (tl v0))).
Definition fejer_1 (n : nat) : option c1_scheme :=
  let! points := opt_list (fun k => let! q := rdiv (PI * (INR k + 0.5)) (INR n) in Some (- cos q)) (seq 0 n) in
  let v1 := fejer_1_v1 (fejer_1_v0 n) in
  guard (negb (length v1 =? 0)%nat) (guard (forallb (fun x => Rltb x (1 / 10 ^ 15)) (ifft_im v1))
    (Some (c1_scheme_of (Z.of_nat n) (ifft_re v1) points))).

(* ------------------------------------------------------------------ Krylov's circle rule *)
(** The parts of a U2Scheme (u2/_helpers.py:14-17) *)
Record u2_scheme := mk_u2 { u2_degree : Z; u2_rule : rule }.
(** u2/_krylov.py:23-27; u2/_helpers.py:55-56.  For n = 0 the weight 1/0 is no number and the vectorised cosine of an empty
    array raises. *)
Definition krylov (n : nat) : option u2_scheme :=
  let! w := rdiv 1 (INR n) in
  let! points := opt_list (fun k => let! a := rdiv (2 * INR k * PI) (INR n) in Some [cos a; sin a]) (seq 0 n) in
  Some (mk_u2 (Z.of_nat n - 1) (List.combine (repeat w n) points)).
Definition u2_get_good_scheme (n : nat) : option u2_scheme := krylov n.
