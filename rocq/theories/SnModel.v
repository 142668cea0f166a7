(** Model of quadpy/sn: schemes for the unit ball of R^n (weights are normalised: they sum to 1, integrate()
    multiplies by the volume). *)
From Coq Require Import Reals List Arith.
From Verif Require Import Spec IntegralSpec CombModel PyBase SymmModel MiscModel CnModel MsModel UnModel.
Import ListNotations.
Open Scope R_scope.

(** ndim.nball.integrate_monomial(k) (external package ndim): modelled as the true integral of the monomial over the
    unit ball. *)
Definition ndim_nball (n : nat) (k : list nat) : R := ball_int n 1 (mono k).
(** sn/_mcnamee_stenger.py:12-15 *)
Definition sn_integrator (n : nat) (k : list nat) : R := ndim_nball n (k ++ repeat 0%nat (n - length k)).

(** sn/_hammer_stroud.py:18-27; sn/_stroud.py:34-35 is alpha = 0 *)
Definition sn_hammer_stroud_11n (n : nat) (alpha : R) : option scheme :=
  let N := INR n in
  let! q := rdiv (N + alpha) (N + alpha + 2) in
  let! r := rsqrt q in
  let! w := rdiv 1 (2 * N) in
  let! p := Rfsd n [(r, 1%nat)] in
  Some (from_data n [(w, p)] 3).
Definition stroud_sn_3_1 (n : nat) : option scheme := sn_hammer_stroud_11n n 0.

(** sn/_hammer_stroud.py:30-46; sn/_stroud.py:49-50 is alpha = 0 *)
Definition sn_hammer_stroud_12n (n : nat) (alpha : R) : option scheme :=
  let N := INR n in
  let! q := rdiv (3 * (N + alpha + 2)) ((N + 2) * (N + alpha + 4)) in
  let! r := rsqrt q in
  let! B1 := rdiv ((4 - N) * (N + 2) * (N + alpha) * (N + alpha + 4)) (18 * N * (N + alpha + 2) ^ 2) in
  let! B2 := rdiv ((N + 2) * (N + alpha) * (N + alpha + 4)) (36 * N * (N + alpha + 2) ^ 2) in
  let B0 := 1 - 2 * N * B1 - 2 * N * (N - 1) * B2 in
  let! p1 := Rfsd n [(r, 1%nat)] in
  let! p2 := Rfsd n [(r, 2%nat)] in
  Some (from_data n [(B0, Rz n); (B1, p1); (B2, p2)] 5).
Definition stroud_sn_5_2 (n : nat) : option scheme := sn_hammer_stroud_12n n 0.

(** sn/_stroud.py:38-46 *)
Definition stroud_sn_3_2 (n : nat) : option scheme :=
  let! r := rsqrt (1 / (INR n + 2)) in
  Some (from_data n [(1 / 2 ^ n, Rpm (repeat r n))] 3).

(** sn/_stroud_1957.py:22-52 (also stroud_sn_2_1).  The code builds the coordinate rows and transposes; here point
    number i (0 <= i <= n) is built directly: the pairs c (cos, sin)(2 k i pi / (n + 1)) for k = 1..n//2 and, for odd n,
    a last coordinate (-1)^i d. *)
Definition trig_point (n : nat) (c d : R) (i : nat) : point :=
  flat_map (fun k => let ang := 2 * INR k * INR i * PI / (INR n + 1) in [c * cos ang; c * sin ang]) (seq 1 (n / 2))
  ++ (if Nat.odd n then [if Nat.odd i then - d else d] else []).
Definition sn_stroud_1957 (n : nat) : option scheme :=
  let! c := rsqrt (2 / (INR n + 2)) in
  let! s := rsqrt (INR n + 2) in
  let! d := rdiv 1 s in
  let! w := rdiv 1 (INR n + 1) in
  Some (from_data n [(w, map (trig_point n c d) (seq 0 (n + 1)))] 2).

(** sn/_stroud_1966.py:22-39 (also stroud_sn_5_3) *)
Definition sn_stroud_1966_a (n : nat) : option scheme :=
  let N := INR n in
  let! a := rsqrt (2 * (N + 4)) in
  let! r2 := rdiv (N + 4 - a) (N + 4) in
  let! s2 := rdiv (N * (N + 4) + 2 * a) ((N ^ 2 + 2 * N - 4) * (N + 4)) in
  let! B1 := rdiv 1 (r2 ^ 2 * (N + 2) * (N + 4)) in
  let! B2 := rdiv 1 (s2 ^ 2 * 2 ^ n * (N + 2) * (N + 4)) in
  let! r := rsqrt r2 in
  let! s := rsqrt s2 in
  let! p := Rfsd n [(r, 1%nat)] in
  Some (from_data n [(B1, p); (B2, Rpm (repeat s n))] 5).

(** sn/_stroud_1966.py:42-69 (also stroud_sn_5_4), with alpha = 0 as in line 46.  The loop returns its data and the
    amount subtracted from B0.  2^(k-n) is 2^k / 2^n. *)
Fixpoint sn_stroud_1966_b_data (n : nat) (s : R) (ks : list nat) : option (list (R * list point) * R) :=
  match ks with
  | [] => Some ([], 0)
  | k :: ks' =>
      let N := INR n in let K := INR k in
      let! B := rdiv (2 ^ k / 2 ^ n * (N + 2) * (N + 0) * (N + 0 + 4)) (N * (K + 1) * (K + 2) * (N + 0 + 2) ^ 2) in
      let! r := rsqrt ((K + 2) * (N + 0 + 2) / ((N + 2) * (N + 0 + 4))) in
      let! (rest, q) := sn_stroud_1966_b_data n s ks' in
      Some ((B, map (fun p => repeat 0 (k - 1) ++ p) (Rpm ([r] ++ repeat s (n - k)))) :: rest, 2 ^ (n - k + 1) * B + q)
  end.
Definition sn_stroud_1966_b (n : nat) : option scheme :=
  let N := INR n in
  let! s := rsqrt ((N + 0 + 2) / ((N + 2) * (N + 0 + 4))) in
  let! (data, q) := sn_stroud_1966_b_data n s (seq 1 n) in
  Some (from_data n (data ++ [(1 - q, Rz n)]) 5).

(** sn/_stroud_1966.py:72-87 (also stroud_sn_5_5) *)
Definition sn_stroud_1966_c (n : nat) : option scheme :=
  let N := INR n in
  let! a := rsqrt (2 * (N + 2)) in
  let! r2 := rdiv (N + 2 + (N - 1) * a) (N * (N + 4)) in
  let! r := rsqrt r2 in
  let! s2 := rdiv (N + 2 - a) (N * (N + 4)) in
  let! s := rsqrt s2 in
  let! B0 := rdiv 4 ((N + 2) ^ 2) in
  let! B1 := rdiv (N + 4) (2 ^ n * (N + 2) ^ 2) in
  Some (from_data n [(B0, Rz n); (B1, combine [([r; - r], 1%nat); ([s; - s], (n - 1)%nat)])] 5).

(** sn/_stroud_1966.py:90-110 (also stroud_sn_5_6) *)
Definition sn_stroud_1966_d (n : nat) : option scheme :=
  let N := INR n in
  let! a' := rsqrt (N + 4) in
  let a := 2 * a' in
  let! b := rsqrt (2 * (N + 1) * (N + 2) * (N + 4)) in
  let! r2 := rdiv (N * (N + 4) + a + (N - 1) * b) (N * (N + 2) * (N + 4)) in
  let! r := rsqrt r2 in
  let! s2 := rdiv (N * (N + 4) + a - b) (N * (N + 2) * (N + 4)) in
  let! s := rsqrt s2 in
  let! t2 := rdiv (N + 4 - a) ((N + 2) * (N + 4)) in
  let! t := rsqrt t2 in
  let! B := rdiv 1 (2 ^ n * (N + 1)) in
  Some (from_data n [(B, combine [([r; - r], 1%nat); ([s; - s], (n - 1)%nat)]); (B, Rpm (repeat t n))] 5).

(** sn/_stroud_1967_7.py:21-53; tt is +1 for variant a and -1 for variant b *)
Definition sn_stroud_1967_7_ab (n : nat) (variant_a : bool) : option scheme :=
  let N := INR n in
  guard (3 <=? n)%nat (guard (n <=? (if variant_a then 7 else 6))%nat (
  let tt := if variant_a then 1 else -1 in
  let! alpha := rsqrt (6 * (N + 6) * (8 - N)) in
  let! r2 := rdiv (3 * (N + 6) * (8 - N) - tt * (N - 2) * alpha) ((N + 6) * (34 - 5 * N)) in
  let! s2 := rdiv (3 * N * (N + 6) - tt * 2 * alpha) ((N + 6) * (3 * N ^ 2 + 6 * N - 16)) in
  let! t2 := rdiv (6 * (N + 6) + tt * alpha) (14 * (N + 6)) in
  let! B := rdiv (8 - N) ((N + 2) * (N + 4) * (N + 6) * r2 ^ 3) in
  let! C := rdiv 1 ((N + 2) * (N + 4) * (N + 6) * s2 ^ 3 * 2 ^ n) in
  let! D := rdiv 1 ((N + 2) * (N + 4) * (N + 6) * t2 ^ 3 * 2) in
  let A := 1 - 2 * N * B - 2 ^ n * C - 2 * N * (N - 1) * D in
  let! r := rsqrt r2 in
  let! s := rsqrt s2 in
  let! t := rsqrt t2 in
  let! p1 := Rfsd n [(r, 1%nat)] in
  let! p2 := Rfsd n [(t, 2%nat)] in
  Some (from_data n [(A, Rz n); (B, p1); (C, Rpm (repeat s n)); (D, p2)] 7))).
Definition sn_stroud_1967_7_a (n : nat) : option scheme := sn_stroud_1967_7_ab n true.
Definition sn_stroud_1967_7_b (n : nat) : option scheme := sn_stroud_1967_7_ab n false.

(** numpy: two scaled copies of a rule, as in sn/_stroud_1967_7.py:80-85 and enr2/_stroud_1967_7.py:80-87:
    points r1 * x and r2 * x with weights f A1 w and f A2 w *)
Definition scaled_copies (rule : rule) (r1 r2 A1 A2 f : R) : Spec.rule :=
  map (fun wp => (f * (A1 * fst wp), vscale r1 (snd wp))) rule ++ map (fun wp => (f * (A2 * fst wp), vscale r2 (snd wp))) rule.
(** sn/_stroud_1967_7.py:64-87 (also stroud_sn_7_2) *)
Definition sn_stroud_1967_7_c (n : nat) : option scheme :=
  let N := INR n in
  guard (3 <=? n)%nat (
  let! alpha := rsqrt (2 * (N + 2) * (N + 4)) in
  let! r1 := rsqrt (((N + 2) * (N + 4) + 2 * alpha) / (N + 4) / (N + 6)) in
  let! r2 := rsqrt (((N + 2) * (N + 4) - 2 * alpha) / (N + 4) / (N + 6)) in
  let! A1 := rdiv (2 * (N + 2) ^ 2 + (N - 2) * alpha) (4 * N * (N + 2) ^ 2) in
  let! A2 := rdiv (2 * (N + 2) ^ 2 - (N - 2) * alpha) (4 * N * (N + 2) ^ 2) in
  let! s := stroud_1967 n in
  Some (mk_scheme n (scaled_copies (s_rule s) r1 r2 A1 A2 N) 7)).

(** sn/_dobrodeev_1970.py:20-42 *)
Definition sn_dobrodeev_1970 (n : nat) : option scheme :=
  let N := INR n in
  let A := 1/8 in
  let B := (5 - N) / 4 in
  let! C := rdiv ((6 - N) * (1 - N ^ 2) + 36) (4 * (N + 3)) in
  let! D := rdiv 81 ((N + 3) * (N + 6) ^ 2) in
  let! E1 := rdiv (45 * N ^ 2 + 324 * N + 216) (N ^ 2 + 12 * N + 36) in
  let E := E1 - N * (N ^ 2 - 12 * N + 65) / 6 in
  let! r := rsqrt (3 / (N + 6)) in
  let! pa := Rfsd n [(r, 3%nat)] in
  let! pb := Rfsd n [(r, 2%nat)] in
  let! pc := Rfsd n [(r, 1%nat)] in
  let! pd := Rfsd n [(1, 1%nat)] in
  let '(points, weights) := untangle [(A, pa); (B, pb); (C, pc); (D, pd); (E, Rz n)] in
  let! V := rdiv (27 * (N + 2) * (N + 4)) ((N + 6) ^ 2) in
  if Req_EM_T V 0 then None else
  Some (mk_scheme n (mk_rule (points, map (fun w => w / V) weights)) 7).

(** sn/_dobrodeev_1978.py:22-42 *)
Definition sn_dobrodeev_config (n : nat) : option (R * nat * nat * nat) :=
  match n with
  | 2 | 3 => Some (tII, 1, 1, 1) | 4 => Some (tII, 4, 1, 1) | 5 | 6 => Some (tI, 3, 1, 1)
  | 7 | 8 | 9 => Some (tI, n, 1, 1) | 10 => Some (tI, 9, 1, 2) | 11 => Some (tI, 5, 1, 2)
  | 12 | 13 | 14 | 15 => Some (tI, n, 1, 2) | 16 => Some (tII, 15, 1, 4) | 17 | 18 | 19 | 20 => Some (tI, n, 1, 3)
  | _ => None
  end%nat.
(** sn/_dobrodeev_1978.py:19-55 *)
Definition sn_dobrodeev_1978 (n : nat) : option scheme :=
  let! (t, i, j, k) := sn_dobrodeev_config n in
  let I0 := ndim_nball n (repeat 0%nat n) in
  let I2 := ndim_nball n (2 :: repeat 0 (n - 1))%nat in
  let I22 := ndim_nball n (2 :: 2 :: repeat 0 (n - 2))%nat in
  let I4 := ndim_nball n (4 :: repeat 0 (n - 1))%nat in
  let! (G, a, b, c) := compute_dobrodeev n I0 I2 I22 I4 t i j k in
  let! p1 := Rfsd n [(a, i)] in
  let! p2 := Rfsd n [(b, j); (c, k)] in
  Some (from_data n [(G, p1); (G, p2)] 5).

(** sn/_mcnamee_stenger.py:18-45 *)
Definition sn_mcnamee_stenger_3 (n : nat) : option scheme := ms3 n (sn_integrator n).
Definition sn_mcnamee_stenger_5 (n : nat) : option scheme := ms5 n (sn_integrator n).
Definition sn_mcnamee_stenger_7a (n : nat) : option scheme := ms7 n (sn_integrator n) false.
Definition sn_mcnamee_stenger_7b (n : nat) : option scheme := ms7 n (sn_integrator n) true.
Definition sn_mcnamee_stenger_9a (n : nat) : option scheme := ms9 n (sn_integrator n) false.
Definition sn_mcnamee_stenger_9b (n : nat) : option scheme := ms9 n (sn_integrator n) true.
