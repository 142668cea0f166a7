(** Model of quadpy/enr and quadpy/enr2: schemes for R^n with the weights exp(-r) and exp(-r^2) (weights are
    normalised; integrate() multiplies by the total mass). *)
From Coq Require Import Reals List Arith.
From Verif Require Import Spec IntegralSpec SphereSpec CombModel PyBase SymmModel MiscModel CnModel MsModel UnModel SnModel.
Import ListNotations.
Open Scope R_scope.

(** ndim.enr.integrate_monomial(k) and ndim.enr2.integrate_monomial(k, "physicists") (external package ndim): modelled
    as the true integrals of the monomial; volume(n) is the one with all exponents 0. *)
Definition ndim_enr (n : nat) (k : list nat) : R := radial_int (fun r => exp (- r)) n (mono k).
Definition ndim_enr2 (n : nat) (k : list nat) : R := radial_int (fun r => exp (- (r * r))) n (mono k).

(** enr2/_stroud_secrest.py:59-69, _nsimplex: row i of the array; i = n gives the last row. *)
Fixpoint enr2_nsimplex_head (n : nat) (ks : list nat) : option (list R) :=
  match ks with
  | [] => Some []
  | k :: ks' =>
      let! q := rdiv (INR n + 1) ((INR n + 1 - INR k) * (INR n - INR k)) in
      let! s := rsqrt q in
      let! rest := enr2_nsimplex_head n ks' in
      Some (- s :: rest)
  end.
Definition enr2_nsimplex_row (n i : nat) : option point :=
  let! head := enr2_nsimplex_head n (seq 0 i) in
  if (i <? n)%nat then
    let! q := rdiv ((INR n + 1) * (INR n - INR i)) (INR n + 1 - INR i) in
    let! s := rsqrt q in
    Some (head ++ [s] ++ repeat 0 (n - i - 1))
  else Some head.
Definition enr2_nsimplex (n : nat) : option (list point) := opt_list (enr2_nsimplex_row n) (seq 0 (n + 1)).

(* ------------------------------------------------------------------ enr *)
(** enr/_stroud_secrest.py:20-24 *)
Definition enr_stroud_secrest_1 (n : nat) : option scheme :=
  let! w := rdiv 1 (INR n + 1) in
  let! c := rsqrt (INR n + 1) in
  let! p := enr2_nsimplex n in
  Some (from_data n [(w, map (vscale c) p)] 2).
(** enr/_stroud_secrest.py:27-32 (also stroud_enr_3_1) *)
Definition enr_stroud_secrest_2 (n : nat) : option scheme :=
  let! nu := rsqrt (INR n * (INR n + 1)) in
  let! w := rdiv 1 (2 * INR n) in
  let! p := Rfsd n [(nu, 1%nat)] in
  Some (from_data n [(w, p)] 3).
(** enr/_stroud_secrest.py:35-40 (also stroud_enr_3_2) *)
Definition enr_stroud_secrest_3 (n : nat) : option scheme :=
  let! nu := rsqrt (INR n + 1) in
  Some (from_data n [(1 / 2 ^ n, Rpm (repeat nu n))] 3).
(** enr/_stroud_secrest.py:43-53 (also stroud_enr_5_1) *)
Definition enr_stroud_secrest_4 (n : nat) : option scheme :=
  let N := INR n in
  let! nu := rsqrt ((N + 2) * (N + 3)) in
  let! xi := rsqrt ((N + 2) * (N + 3) / 2) in
  let! A := rdiv (2 * (2 * N + 3)) ((N + 2) * (N + 3)) in
  let! B := rdiv ((4 - N) * (N + 1)) (2 * (N + 2) ^ 2 * (N + 3)) in
  let! C := rdiv (N + 1) ((N + 2) ^ 2 * (N + 3)) in
  let! p1 := Rfsd n [(nu, 1%nat)] in
  let! p2 := Rfsd n [(xi, 2%nat)] in
  Some (from_data n [(A, Rz n); (B, p1); (C, p2)] 5).
(** enr/_stroud.py:37-51.  2^(k-n) is 2^k / 2^n. *)
Fixpoint stroud_enr_5_3_data (n : nat) (s : R) (ks : list nat) : option (list (R * list point)) :=
  match ks with
  | [] => Some []
  | k :: ks' =>
      let N := INR n in let K := INR k in
      let! r := rsqrt ((K + 2) * (N + 3)) in
      let! B := rdiv (2 ^ k / 2 ^ n * (N + 1)) ((K + 1) * (K + 2) * (N + 3)) in
      let! rest := stroud_enr_5_3_data n s ks' in
      Some ((B, Rpm (repeat 0 (k - 1) ++ [r] ++ repeat s (n - k))) :: rest)
  end.
Definition stroud_enr_5_3 (n : nat) : option scheme :=
  let! s := rsqrt (INR n + 3) in
  let! data := stroud_enr_5_3_data n s (seq 1 n) in
  let B0 := 1 - fold_right Rplus 0 (map (fun item => fst item * INR (length (snd item))) data) in
  Some (from_data n (data ++ [(B0, Rz n)]) 5).
(** enr/_stroud.py:54-63 *)
Definition stroud_enr_5_4 (n : nat) : option scheme :=
  let N := INR n in
  let! a := rsqrt (2 * (N + 2)) in
  let! r2 := rdiv ((N + 2) * (N + 3) + (N - 1) * (N + 3) * a) N in
  let! r := rsqrt r2 in
  let! s2 := rdiv ((N + 2) * (N + 3) - (N + 3) * a) N in
  let! s := rsqrt s2 in
  let! A := rdiv (4 * N + 6) ((N + 2) * (N + 3)) in
  let! B := rdiv (N + 1) ((N + 2) * (N + 3) * 2 ^ n) in
  let! p := Rfsd n [(r, 1%nat); (s, (n - 1)%nat)] in
  Some (from_data n [(A, Rz n); (B, p)] 5).
(** enr/_mcnamee_stenger.py:13-49 *)
Definition enr_integrator (n : nat) (k : list nat) : R := ndim_enr n (k ++ repeat 0%nat (n - length k)).
Definition enr_mcnamee_stenger_3 (n : nat) : option scheme := ms3 n (enr_integrator n).
Definition enr_mcnamee_stenger_5 (n : nat) : option scheme := ms5 n (enr_integrator n).
Definition enr_mcnamee_stenger_7a (n : nat) : option scheme := ms7 n (enr_integrator n) false.
Definition enr_mcnamee_stenger_7b (n : nat) : option scheme := ms7 n (enr_integrator n) true.
Definition enr_mcnamee_stenger_9a (n : nat) : option scheme := ms9 n (enr_integrator n) false.
Definition enr_mcnamee_stenger_9b (n : nat) : option scheme := ms9 n (enr_integrator n) true.

(* ------------------------------------------------------------------ enr2 *)
(** enr2/_stroud_secrest.py:19-27 (also stroud_enr2_3_1, although its degree is 2) *)
Definition enr2_stroud_secrest_1 (n : nat) : option scheme :=
  let! w := rdiv 1 (INR n + 1) in
  let! c := rsqrt (1 / 2) in
  let! p := enr2_nsimplex n in
  Some (from_data n [(w, map (vscale c) p)] 2).
(** enr2/_stroud_secrest.py:30-35 (also stroud_enr2_3_2) *)
Definition enr2_stroud_secrest_2 (n : nat) : option scheme :=
  let! nu := rsqrt (INR n / 2) in
  let! w := rdiv 1 (2 * INR n) in
  let! p := Rfsd n [(nu, 1%nat)] in
  Some (from_data n [(w, p)] 3).
(** enr2/_stroud_secrest.py:38-43 *)
Definition enr2_stroud_secrest_3 (n : nat) : option scheme :=
  let! nu := rsqrt (1 / 2) in
  Some (from_data n [(1 / 2 ^ n, Rpm (repeat nu n))] 3).
(** enr2/_stroud_secrest.py:46-56 (also stroud_enr2_5_2, lu_darmofal_2) *)
Definition enr2_stroud_secrest_4 (n : nat) : option scheme :=
  let N := INR n in
  let! nu := rsqrt ((N + 2) / 2) in
  let! xi := rsqrt ((N + 2) / 4) in
  let! A := rdiv 2 (N + 2) in
  let! B := rdiv (4 - N) (2 * (N + 2) ^ 2) in
  let! C := rdiv 1 ((N + 2) ^ 2) in
  let! p1 := Rfsd n [(nu, 1%nat)] in
  let! p2 := Rfsd n [(xi, 2%nat)] in
  Some (from_data n [(A, Rz n); (B, p1); (C, p2)] 5).
(** enr2/_phillips.py:20-33 (also lu_darmofal_3) *)
Definition enr2_phillips (n : nat) : option scheme :=
  let N := INR n in
  let! la := rsqrt (3 / 2) in
  let! p1 := Rfsd n [(la, 1%nat)] in
  let! p2 := Rfsd n [(la, 2%nat)] in
  Some (from_data n [((N ^ 2 - 7 * N + 18) / 18, Rz n); ((4 - N) / 18, p1); (1 / 36, p2)] 5).
(** enr2/_xiu.py:19-36 *)
Definition enr2_xiu (n : nat) : option scheme :=
  let! s := rsqrt 2 in
  let! d := rdiv 1 s in
  let! w := rdiv 1 (INR n + 1) in
  Some (from_data n [(w, map (trig_point n 1 d) (seq 0 (n + 1)))] 2).
(** enr2/_lu_darmofal.py:25-59 *)
Definition enr2_lu_darmofal_1 (n : nat) : option scheme :=
  let N := INR n in
  guard (2 <=? n)%nat (
  let! a := get_nsimplex_points n in
  let! q := rdiv N (2 * (N - 1)) in
  let! c := rsqrt q in
  let b := pair_midpoints c a in
  let! sg := rsqrt (N / 2 + 1) in
  let points := [repeat 0 n] ++ map (vscale sg) a ++ map (vscale (- sg)) a ++ map (vscale sg) b ++ map (vscale (- sg)) b in
  let! p := rdiv 2 (N + 2) in
  let! A := rdiv (N ^ 2 * (7 - N)) (2 * (N + 1) ^ 2 * (N + 2) ^ 2) in
  let! B := rdiv (2 * (N - 1) ^ 2) ((N + 1) ^ 2 * (N + 2) ^ 2) in
  let weights := [p] ++ repeat A (length a) ++ repeat A (length a) ++ repeat B (length b) ++ repeat B (length b) in
  Some (mk_scheme n (mk_rule (points, weights)) 5)).
(** enr2/_stroud.py:31-44 *)
Definition stroud_enr2_5_3 (n : nat) : option scheme :=
  let N := INR n in
  guard (2 <? n)%nat (
  let! r := rsqrt ((N + 2) / 4) in
  let! q := rdiv (N + 2) (2 * (N - 2)) in
  let! s := rsqrt q in
  let! A := rdiv 4 ((N + 2) ^ 2) in
  let! B := rdiv ((N - 2) ^ 2) (2 ^ n * (N + 2) ^ 2) in
  let! p := Rfsd n [(r, 1%nat)] in
  Some (from_data n [(A, p); (B, Rpm (repeat s n))] 5)).
(** enr2/_stroud.py:47-62 *)
Fixpoint stroud_enr2_5_4_data (n : nat) (ks : list nat) : option (list (R * list point)) :=
  match ks with
  | [] => Some []
  | k :: ks' =>
      let K := INR k in
      let! r := rsqrt ((K + 2) / 2) in
      let! s := rsqrt (1 / 2) in
      let! al := rdiv (2 ^ k / 2 ^ n) ((K + 1) * (K + 2)) in
      let! rest := stroud_enr2_5_4_data n ks' in
      Some ((al, Rpm (repeat 0 (k - 1) ++ [r] ++ repeat s (n - k))) :: rest)
  end.
Definition stroud_enr2_5_4 (n : nat) : option scheme :=
  let! B0 := rdiv 2 (INR n + 2) in
  let! data := stroud_enr2_5_4_data n (seq 1 n) in
  Some (from_data n ((B0, Rz n) :: data) 5).
(** enr2/_stroud.py:65-89; pm is +1 for variant a and -1 for variant b *)
Definition stroud_enr2_5_5 (n : nat) (pm : R) : option scheme :=
  let N := INR n in
  let! a := rsqrt (2 * (N + 2)) in
  let! r2 := rdiv (N + 2 + pm * (N - 1) * a) (2 * N) in
  let! r := rsqrt r2 in
  let! s2 := rdiv (N + 2 - pm * a) (2 * N) in
  let! s := rsqrt s2 in
  let! A := rdiv 2 (N + 2) in
  let! B := rdiv 1 (2 ^ n * (N + 2)) in
  let! p := Rfsd n [(r, 1%nat); (s, (n - 1)%nat)] in
  Some (from_data n [(A, Rz n); (B, p)] 5).
Definition stroud_enr2_5_5a (n : nat) : option scheme := stroud_enr2_5_5 n 1.
Definition stroud_enr2_5_5b (n : nat) : option scheme := stroud_enr2_5_5 n (-1).
(** enr2/_stroud.py:92-108 *)
Definition stroud_enr2_5_6 (n : nat) : option scheme :=
  let N := INR n in
  guard (5 <=? n)%nat (
  let! q2 := rsqrt 2 in
  let! a := rsqrt (2 * (N + 1)) in
  let! r2 := rdiv (N - q2 + (N - 1) * a) (2 * N) in
  let! r := rsqrt r2 in
  let! s2 := rdiv (N - q2 - a) (2 * N) in
  let! s := rsqrt s2 in
  let! t := rsqrt ((1 + q2) / 2) in
  let! A := rdiv 1 (2 ^ n * (N + 1)) in
  let! p := Rfsd n [(r, 1%nat); (s, (n - 1)%nat)] in
  Some (from_data n [(A, p); (A, Rpm (repeat t n))] 5)).
(** enr2/_stroud_1967_7.py:22-60; pm is +1 for variant a and -1 for variant b *)
Definition enr2_stroud_1967_7_2 (n : nat) (variant_a : bool) : option scheme :=
  let N := INR n in
  guard (existsb (Nat.eqb n) (if variant_a then [2; 3; 4; 6; 7] else [3; 4]))%nat (
  let pm := if variant_a then 1 else -1 in
  let! be := rsqrt (3 * (8 - N)) in
  let! r2 := rdiv ((3 * (8 - N) - pm * (N - 2) * be) / 2) (5 - N) in
  let! s2 := rdiv ((3 * N - pm * 2 * be) / 2) (3 * N - 8) in
  let t2 := (6 + pm * be) / 2 in
  let! B0 := rdiv (8 - N) (r2 ^ 3) in
  let B := B0 / 8 in
  let! C0 := rdiv 1 (s2 ^ 3) in
  let C := C0 / 2 ^ (n + 3) in
  let! D0 := rdiv 1 (t2 ^ 3) in
  let D := D0 / 16 in
  let A := 1 - 2 * N * B - 2 ^ n * C - 2 * N * (N - 1) * D in
  let! r := rsqrt r2 in
  let! s := rsqrt s2 in
  let! t := rsqrt t2 in
  let! p1 := Rfsd n [(r, 1%nat)] in
  let! p2 := Rfsd n [(t, 2%nat)] in
  Some (from_data n [(A, Rz n); (B, p1); (C, Rpm (repeat s n)); (D, p2)] 7)).
Definition enr2_stroud_1967_7_2a (n : nat) : option scheme := enr2_stroud_1967_7_2 n true.
Definition enr2_stroud_1967_7_2b (n : nat) : option scheme := enr2_stroud_1967_7_2 n false.
(** enr2/_stroud_1967_7.py:71-95 (also stroud_enr2_7_2) *)
Definition enr2_stroud_1967_7_4 (n : nat) : option scheme :=
  let N := INR n in
  guard (3 <=? n)%nat (
  let! a := rsqrt (2 * (N + 2)) in
  let! r1 := rsqrt ((N + 2 - a) / 2) in
  let! r2 := rsqrt ((N + 2 + a) / 2) in
  let! g := gamma_n_2 n in
  let! q1 := rdiv ((N + 2 + a) / 4) (N + 2) in
  let! q2 := rdiv ((N + 2 - a) / 4) (N + 2) in
  let! s := stroud_1967 n in
  let! f := rdiv (ndim_nsphere n (repeat 0%nat n)) (ndim_enr2 n (repeat 0%nat n)) in
  Some (mk_scheme n (scaled_copies (s_rule s) r1 r2 (q1 * g) (q2 * g) f) 7)).
(** enr2/_cools_haegemans.py:22-29 *)
Fixpoint enr2_mu (j : nat) : R :=
  match j with
  | O => 1
  | S O => 0
  | S (S j' as j1) => INR j1 / 2 * enr2_mu j'
  end.
(** cn/_cools_haegemans.py:132-148 for a moment function mu: one pass of the loop for q, given the list of the
    earlier values and coeffs = np.poly(lmbdas2) (the coefficients of prod (x - lmbda), leading one first). *)
Fixpoint np_poly (zs : list R) : list R :=
  match zs with
  | [] => [1]
  | z :: zs' => let c := np_poly zs' in map (fun ab => fst ab - z * snd ab) (List.combine (c ++ [0]) (0 :: c))
  end.
Definition ch_gener_step (mu : nat -> R) (delta2 : R) (lm : list R) (q : nat) : option R :=
  let coeffs := np_poly lm in
  let a0 := map (fun kc => snd kc * mu (2 * (q - fst kc) + 2)%nat) (List.combine (seq 0 (length coeffs)) coeffs) in
  let a1 := map (fun kc => snd kc * mu (2 * (q - fst kc))%nat) (List.combine (seq 0 (length coeffs)) coeffs) in
  if Req_EM_T delta2 0 then None else
  let prod_ := prod_list (map (fun l => 1 - l / delta2) lm) in
  let! m := rdiv (mu 2%nat ^ (q + 1)) (mu 0%nat ^ q) in
  let a := fold_right Rplus 0 a0 - m * prod_ in
  let b := fold_right Rplus 0 a1 - m * prod_ / delta2 in
  rdiv a b.
Fixpoint ch_gener_loop (mu : nat -> R) (delta2 : R) (lm : list R) (qs : list nat) : option (list R) :=
  match qs with
  | [] => Some lm
  | q :: qs' => let! l := ch_gener_step mu delta2 lm q in ch_gener_loop mu delta2 (lm ++ [l]) qs'
  end.
Definition ch_gener (mu : nat -> R) (delta2 : R) (m : nat) : option (list R) := ch_gener_loop mu delta2 [] (seq 1 m).
(** enr2/_cools_haegemans.py:32-49.  _mu(0) ** (n - m) is 1, also for negative exponents. *)
Definition enr2_cools_haegemans_1 (n : nat) (delta2 : R) : option scheme :=
  if Rle_dec (1 / 2) delta2 then
    let! w0 := rdiv (2 * delta2 - 1) (2 * delta2) in
    let! w := rdiv (enr2_mu 2 ^ 1) (2 ^ n * delta2 ^ 1) in
    let! d := rsqrt delta2 in
    Some (from_data n [(w0, Rz n); (w, Rpm (repeat d n))] 3)
  else None.
(** enr2/_cools_haegemans.py:52-79 *)
Definition enr2_cools_haegemans_2 (n : nat) (delta2 : R) : option scheme :=
  let N := INR n in
  guard (1 <=? n)%nat (
  if Rle_dec (1 / 2) delta2 then
  if (if (2 <? n)%nat then if Rle_dec delta2 ((N + 2) / (2 * N - 4)) then true else false else true) then
    let! lm := ch_gener enr2_mu delta2 1 in
    let! w0 := rdiv (- (2 * delta2 - 1) * (2 * delta2 * N - 4 * delta2 - N - 2)) (8 * delta2 ^ 2) in
    let! w1 := rdiv ((2 * delta2 - 1) ^ 2) (16 * delta2 ^ 2) in
    let! w := rdiv (enr2_mu 2 ^ 2) (2 ^ n * delta2 ^ 2) in
    let! l0 := rsqrt (nth 0 lm 0) in
    let! p1 := Rfsd n [(l0, 1%nat)] in
    let! d := rsqrt delta2 in
    Some (from_data n [(w0, Rz n); (w1, p1); (w, Rpm (repeat d n))] 5)
  else None
  else None).
(** enr2/_cools_haegemans.py:82-132; the default of delta2 is 2/3 *)
Definition enr2_cools_haegemans_3 (n : nat) (delta2 : R) : option scheme :=
  let N := INR n in
  guard (2 <=? n)%nat (
  let! lm := ch_gener enr2_mu delta2 2 in
  let delta4 := delta2 ^ 2 in
  let delta6 := delta2 ^ 3 in
  let! w0 := rdiv ((delta6 * (16 * N ^ 2 - 72 * N + 128) + delta4 * (-28 * N ^ 2 + 48 * N - 32)
                    + delta2 * (16 * N ^ 2 + 30 * N - 16) + (-3 * N ^ 2 - 18 * N - 24)) * (2 * delta2 - 1))
                  (64 * (4 * delta2 - 3) * delta6) in
  let! w1' := rdiv ((12 * delta4 * N - 32 * delta4 - 12 * delta2 * N + 3 * N + 12) * (2 * delta2 - 1)) (192 * delta6) in
  let w1 := - w1' in
  let! w2 := rdiv ((2 * delta2 - 1) * (2 * delta2 - 3) ^ 3) (384 * (4 * delta2 - 3) * delta6) in
  let! w11 := rdiv ((2 * delta2 - 1) ^ 3) (128 * delta6) in
  let! w := rdiv (enr2_mu 2 ^ 3) (2 ^ n * delta2 ^ 3) in
  let! d := rsqrt delta2 in
  let! l0 := rsqrt (nth 0 lm 0) in
  let! l1 := rsqrt (nth 1 lm 0) in
  let! p1 := Rfsd n [(l0, 1%nat)] in
  let! p2 := Rfsd n [(l1, 1%nat)] in
  let! p11 := Rfsd n [(l0, 2%nat)] in
  Some (from_data n [(w0, Rz n); (w1, p1); (w2, p2); (w11, p11); (w, Rpm (repeat d n))] 7)).
(** enr2/_mcnamee_stenger.py:12-45 *)
Definition enr2_integrator (n : nat) (k : list nat) : R := ndim_enr2 n (k ++ repeat 0%nat (n - length k)).
Definition enr2_mcnamee_stenger_3 (n : nat) : option scheme := ms3 n (enr2_integrator n).
Definition enr2_mcnamee_stenger_5 (n : nat) : option scheme := ms5 n (enr2_integrator n).
Definition enr2_mcnamee_stenger_7a (n : nat) : option scheme := ms7 n (enr2_integrator n) false.
Definition enr2_mcnamee_stenger_7b (n : nat) : option scheme := ms7 n (enr2_integrator n) true.
Definition enr2_mcnamee_stenger_9a (n : nat) : option scheme := ms9 n (enr2_integrator n) false.
Definition enr2_mcnamee_stenger_9b (n : nat) : option scheme := ms9 n (enr2_integrator n) true.
