(** Model of quadpy/cn: schemes for the n-cube [-1,1]^n.
    The argument n is a dimension; the code is only meaningful for n >= 1 (n = 0 makes numpy reshape/divide
    errors) and the theorems say so.  sympy/float arithmetic is modelled by exact reals. *)
From Coq Require Import Reals List Arith.
From Verif Require Import Spec CombModel PyBase SymmModel MiscModel.
Import ListNotations.
Open Scope R_scope.

Definition from_data (n : nat) (data : list (R * list point)) (degree : nat) : scheme :=
  mk_scheme n (mk_rule (untangle data)) degree.
Definition from_symm (n : nat) (d : list (key * (list R * list (list R)))) (degree : nat) : option scheme :=
  let! pw := expand_symmetries d n in Some (mk_scheme n (mk_rule pw) degree).

(** cn/_ewing.py:19-22 (also stroud_cn_3_5) *)
Definition ewing (n : nat) : option scheme :=
  from_symm n [(K0, ([2/3], [])); (Ka, ([1 / (3 * 2 ^ n)], [[1]]))] 3.

(** cn/_tyler.py:17-20 (also stroud_cn_3_3) *)
Definition tyler (n : nat) : option scheme :=
  from_symm n [(K0, ([(3 - INR n) / 3], [])); (Ka0, ([1/6], [[1]]))] 3.

(** cn/_hammer_stroud.py:19-22 *)
Definition hammer_stroud_1n (n : nat) : option scheme :=
  let! w := rdiv 1 (2 * INR n) in
  let! r := rsqrt (INR n / 3) in
  from_symm n [(Ka0, ([w], [[r]]))] 3.

(** cn/_hammer_stroud.py:25-34 (also stroud_cn_5_2) *)
Definition hammer_stroud_2n (n : nat) : option scheme :=
  let N := INR n in
  let! r := rsqrt (3/5) in
  let! p1 := Rfsd n [(r, 1%nat)] in
  let! p2 := Rfsd n [(r, 2%nat)] in
  Some (from_data n [((25 * N ^ 2 - 115 * N + 162) / 162, Rz n); ((70 - 25 * N) / 162, p1); (25/324, p2)] 5).

(** cn/_mustard_lyness_blatt.py:19-27 (also stroud_cn_5_5) *)
Definition mustard_lyness_blatt (n : nat) : option scheme :=
  let! r := rsqrt (2/5) in
  from_symm n [(K0, ([(8 - 5 * INR n) / 9], [])); (Ka0, ([5/18], [[r]])); (Ka, ([1 / (9 * 2 ^ n)], [[1]]))] 5.

(** cn/_helpers.py:154-158: the n permutations of [a, b, ..., b] *)
Definition _s (n : nat) (a b : R) : list point :=
  map (fun i => map (fun j => if (i =? j)%nat then a else b) (seq 0 n)) (seq 0 n).

(** cn/_thacher.py:20-25 (also stroud_cn_2_2) *)
Definition thacher (n : nat) : option scheme :=
  let! s3 := rsqrt 3 in
  let r := s3 / 6 in
  Some (from_data n [(1, [repeat (2 * r) n]); (r, _s n (-1) r); (- r, _s n 1 r)] 2).

(** cn/_stroud_1957.py:21-31 (also stroud_cn_2_1) *)
Definition stroud_1957_2 (n : nat) : option scheme :=
  let! s3 := rsqrt 3 in
  let r := s3 / 6 in
  Some (from_data n [(1, [repeat (2 * r) n]); (r, _s n (-1) r); (- r, _s n 1 r)] 2).

(** cn/_stroud_1957.py:34-54 (also stroud_cn_3_1).  The code builds the coordinate rows and transposes;
    here point number i (1 <= i <= 2n) is built directly from its rows' entries: for k = 1..n2 the pair
    sqrt(2/3) (cos, sin)((2k-1) i pi / n), and for odd n a last coordinate (-1)^(i-1)/sqrt(3). *)
Definition stroud_1957_3_point (n : nat) (s23 s3 : R) (i : nat) : point :=
  let n2 := (n / 2)%nat in
  flat_map (fun k => let ang := (2 * INR k - 1) * INR i * PI / INR n in [s23 * cos ang; s23 * sin ang])
           (seq 1 n2)
  ++ (if Nat.odd n then [if Nat.odd i then 1 / s3 else - (1 / s3)] else []).
Definition stroud_1957_3 (n : nat) : option scheme :=
  let! s23 := rsqrt (2/3) in
  let! s3 := rsqrt 3 in
  let! w := rdiv 1 (2 * INR n) in
  Some (from_data n [(w, map (stroud_1957_3_point n s23 s3) (seq 1 (2 * n)))] 3).

(** cn/_phillips.py:20-79 (also stroud_cn_7_1).  Parameters (p2, q, r); p1 = 1 in every case.
    r is unused for n = 2. *)
Definition phillips_params (n : nat) : option (R * R * R) :=
  let N := INR n in
  match n with
  | 0 | 1 => None
  | 2 => Some (14/3, 5/3, 0)
  | 3 => Some (14/5, 5/2, 1)
  | 4 => Some (112/11, 5, 2)
  | _ =>
      let En := (25 * N ^ 2 - 165 * N + 302) / 972 in
      let! e := rdiv 1 (35 * En) in
      let! p2 := rdiv 1 (3/5 - e) in
      Some (p2, 5/3, 5/3)
  end.
Definition phillips (n : nat) : option scheme :=
  let N := INR n in
  let! (p2, q, r) := phillips_params n in
  let p1 := 1 in
  let gamma := (N - 1) * (19 - 5 * N) / 270 in
  let delta := (N - 1) * (N - 2) / 108 in
  let a1 := (23 - 5 * N) / 180 - gamma * q / 2 in
  let a2 := (35 * N ^ 2 - 231 * N + 466) / 3780 in
  let! beta1 := rdiv (a1 - a2 * p2) (p1 - p2) in
  let! beta2 := rdiv (a1 - a2 * p1) (p2 - p1) in
  let! sp1 := rsqrt p1 in
  let! lambda1 := rdiv 1 sp1 in
  let! sp2 := rsqrt p2 in
  let! lambda2 := rdiv 1 sp2 in
  let! sq := rsqrt q in
  let! mu := rdiv 1 sq in
  let! b1 := rdiv beta1 (lambda1 ^ 6) in
  let! b2 := rdiv beta2 (lambda2 ^ 6) in
  let! c := rdiv gamma (2 * (N - 1) * mu ^ 6) in
  let a := 1 - 2 * N * (b1 + b2) - 4 * INR (comb n 2) * c in
  let! pl1 := Rfsd n [(lambda1, 1%nat)] in
  let! pl2 := Rfsd n [(lambda2, 1%nat)] in
  let! pmu := Rfsd n [(mu, 2%nat)] in
  if (2 <? n)%nat then
    let! sr := rsqrt r in
    let! nu := rdiv 1 sr in
    let! d := rdiv delta (4 * INR (comb (n - 1) 2) * nu ^ 6) in
    let a' := a - 8 * INR (comb n 3) * d in
    let! pnu := Rfsd n [(nu, 3%nat)] in
    Some (from_data n [(a', Rz n); (b1, pl1); (b2, pl2); (c, pmu); (d, pnu)] 7)
  else
    Some (from_data n [(a, Rz n); (b1, pl1); (b2, pl2); (c, pmu)] 7).

(** cn/_dobrodeev_1970.py:20-53 *)
Definition dobrodeev_1970 (n : nat) : option scheme :=
  let N := INR n in
  guard (3 <=? n)%nat (
  let A := 1/8 in
  let B := (19 - 5 * N) / 20 in
  let alpha := 35 * N * (5 * N - 33) in
  let! C := rdiv ((alpha + 2114) ^ 3) (700 * (alpha + 1790) * (alpha + 2600)) in
  let! D' := rdiv (alpha + 2114) (alpha + 2600) in
  let D := 729/1750 * D' in
  let E := N * (N - 1) * (N - 47/10) / 3 - 2 * N * (C + D) + 729/125 in
  let! a := rsqrt (3/5) in
  let b := a in
  let! c2 := rdiv (alpha + 1790) (alpha + 2114) in
  let! c := rsqrt (3/5 * c2) in
  let d := 1 in
  let! pa := Rfsd n [(a, 3%nat)] in
  let! pb := Rfsd n [(b, 2%nat)] in
  let! pc := Rfsd n [(c, 1%nat)] in
  let! pd := Rfsd n [(d, 1%nat)] in
  let '(points, weights) := untangle [(A, pa); (B, pb); (C, pc); (D, pd); (E, Rz n)] in
  Some (mk_scheme n (mk_rule (points, map (fun w => w * (125/729)) weights)) 7)).

(** cn/_helpers.py:120-126 on the reference cube limits [[-1,1]]*n *)
Definition integrate_monomial_over_ncube (limits : list (R * R)) (exp : list nat) : R :=
  prod_list (map (fun ak => (snd (fst ak) ^ (snd ak + 1) - fst (fst ak) ^ (snd ak + 1)) / INR (snd ak + 1))
                 (List.combine limits exp)).

(** cn/_dobrodeev_1978.py:21-41 *)
Definition tI : R := 1.
Definition tII : R := -1.
Definition dobrodeev_1978_config (n : nat) : option (R * nat * nat * nat) :=
  match n with
  | 2 => Some (tII, 1, 1, 1) | 3 => Some (tI, 3, 1, 1) | 4 => Some (tI, 4, 1, 1) | 5 => Some (tI, 5, 1, 1)
  | 6 => Some (tI, 5, 1, 1) | 7 => Some (tI, 6, 1, 2) | 8 => Some (tI, 7, 1, 2) | 9 => Some (tI, 6, 1, 2)
  | 10 => Some (tI, 6, 1, 9) | 11 => Some (tI, 6, 1, 10) | 12 => Some (tI, 7, 1, 11) | 13 => Some (tI, 8, 2, 2)
  | 14 => Some (tI, 8, 1, 13) | 15 => Some (tI, 9, 1, 14) | 16 => Some (tI, 10, 2, 3) | 17 => Some (tI, 10, 2, 3)
  | 18 => Some (tI, 15, 3, 3) | 19 => Some (tII, 9, 1, 18) | 20 => Some (tI, 9, 1, 18)
  | _ => None
  end%nat.
(** cn/_dobrodeev_1978.py:18-57 *)
Definition dobrodeev_1978 (n : nat) : option scheme :=
  let! (t, i, j, k) := dobrodeev_1978_config n in
  let limits := repeat (-1, 1) n in
  let I0 := integrate_monomial_over_ncube limits (repeat 0%nat n) in
  let I2 := integrate_monomial_over_ncube limits (2 :: repeat 0 (n - 1))%nat in
  let I22 := integrate_monomial_over_ncube limits (2 :: 2 :: repeat 0 (n - 2))%nat in
  let I4 := integrate_monomial_over_ncube limits (4 :: repeat 0 (n - 1))%nat in
  let! (G, a, b, c) := compute_dobrodeev n I0 I2 I22 I4 t i j k in
  let! p1 := Rfsd n [(a, i)] in
  let! p2 := Rfsd n [(b, j); (c, k)] in
  Some (from_data n [(G, p1); (G, p2)] 5).

(** cn/_stroud_1966.py:21-29 (also stroud_cn_5_4) *)
Definition stroud_1966_a (n : nat) : option scheme :=
  let N := INR n in
  let! r := rsqrt ((5 * N + 4) / 30) in
  let! s2 := rdiv (5 * N + 4) (15 * N - 12) in
  let! s := rsqrt s2 in
  from_symm n [(Ka0, ([40 / (5 * N + 4) ^ 2], [[r]]));
               (Ka, ([((5 * N - 4) / (5 * N + 4)) ^ 2 / 2 ^ n], [[s]]))] 5.

(** cn/_stroud_1966.py:35-42, loop body for one k: rows 0^(k-1), +-r, +-s, ..., +-s.
    2 ** (k - n + 1) is 2^(k+1) / 2^n. *)
Definition stroud_1966_b_rows (n k : nat) (r s : R) : list point :=
  map (fun row => repeat 0 (k - 1) ++ match row with [] => [] | h :: t => h * r :: map (fun v => v * s) t end)
      (Rpm (repeat 1 (n - k + 1))).
Fixpoint stroud_1966_b_data (n : nat) (s : R) (ks : list nat) : option (list (R * list point)) :=
  match ks with
  | [] => Some []
  | k :: ks' =>
      let! r := rsqrt ((5 * INR k + 4) / 15) in
      let b := 5 * (2 ^ (k + 1) / 2 ^ n) / ((5 * INR k - 1) * (5 * INR k + 4)) in
      let! rest := stroud_1966_b_data n s ks' in
      Some ((b, stroud_1966_b_rows n k r s) :: rest)
  end.
(** cn/_stroud_1966.py:32-46 (also stroud_cn_5_6) *)
Definition stroud_1966_b (n : nat) : option scheme :=
  let! s3 := rsqrt 3 in
  let s := 1 / s3 in
  let! data := stroud_1966_b_data n s (seq 1 n) in
  Some (from_data n ((4 / (5 * INR n + 4), Rz n) :: data) 5).

(** cn/_helpers.py:136-151: all sign variants of the n permutations of [r, s, ..., s] *)
Definition _fs11 (n : nat) (r s : R) : list point :=
  flat_map (fun i => product (map (fun j => if (j =? i)%nat then [r; - r] else [s; - s]) (seq 0 n))) (seq 0 n).

(** cn/_stroud_1966.py:49-55 (also stroud_cn_5_7) *)
Definition stroud_1966_c (n : nat) : option scheme :=
  let N := INR n in
  let! q := rsqrt (5 * N + 4) in
  let! r2 := rdiv (5 * N + 4 + 2 * (N - 1) * q) (15 * N) in
  let! r := rsqrt r2 in
  let! s2 := rdiv (5 * N + 4 - 2 * q) (15 * N) in
  let! s := rsqrt s2 in
  Some (from_data n [(4 / (5 * N + 4), Rz n); (5 / ((5 * N + 4) * 2 ^ n), _fs11 n r s)] 5).

(** cn/_stroud_1966.py:58-68 (also stroud_cn_5_8) *)
Definition stroud_1966_d (n : nat) : option scheme :=
  let N := INR n in
  let! s5 := rsqrt 5 in
  let! q := rsqrt (5 * N + 5) in
  let! r2 := rdiv (5 * N - 2 * s5 + 2 * (N - 1) * q) (15 * N) in
  let! r := rsqrt r2 in
  let! s2 := rdiv (5 * N - 2 * s5 - 2 * q) (15 * N) in
  let! s := rsqrt s2 in
  let! t := rsqrt ((5 + 2 * s5) / 15) in
  let w := 1 / (2 ^ n * (N + 1)) in
  Some (from_data n [(w, _fs11 n r s); (w, Rpm (repeat t n))] 5).

(** itertools.permutations(l, r): all ordered selections of r positions of l. *)
Fixpoint selects {A} (l : list A) : list (A * list A) :=
  match l with
  | [] => []
  | x :: l' => (x, l') :: map (fun yr => (fst yr, x :: snd yr)) (selects l')
  end.
Fixpoint permutations {A} (r : nat) (l : list A) : list (list A) :=
  match r with
  | O => [[]]
  | S r' => flat_map (fun xr => map (cons (fst xr)) (permutations r' (snd xr))) (selects l)
  end.
(** cn/_helpers.py:161-176.  The code removes repetitions with a Python set, whose iteration order is
    unspecified; here the first occurrences are kept in order (the order of points does not change sums). *)
Definition _s11 (n : nat) (a b : R) : list point :=
  nodup (list_eq_dec Req_EM_T) (permutations n ([a; b] ++ repeat 0 (n - 2))).
Definition _s2 (n : nat) (a : R) : list point := _s11 n a a.

(** cn/_stroud_1968.py:21-37 (also stroud_cn_5_3) *)
Definition stroud_1968 (n : nat) : option scheme :=
  let N := INR n in
  let! r := rsqrt (7/15) in
  let! s24 := rsqrt 24 in
  let! s := rsqrt ((7 + s24) / 15) in
  let! t := rsqrt ((7 - s24) / 15) in
  let! pr := Rfsd n [(r, 1%nat)] in
  let! ps := Rfsd n [(s, 1%nat)] in
  let! pt := Rfsd n [(t, 1%nat)] in
  Some (from_data n
    [((5 * N ^ 2 - 15 * N + 14) / 14, Rz n);
     (25/168, _s2 n r);
     (25/168, _s2 n (- r));
     (-25 * (N - 2) / 168, pr);
     (5/48, _s11 n s (- t));
     (5/48, _s11 n (- s) t);
     (-5 * (N - 2) / 48, ps);
     (-5 * (N - 2) / 48, pt)] 5).

(** cn/_cools_haegemans.py:20-23 *)
Definition ch_mu (j : nat) : R := if Nat.even j then 1 / INR (j + 1) else 0.
(** cn/_cools_haegemans.py:26-37 *)
Definition cools_haegemans_1 (n : nat) (delta2 : R) : option scheme :=
  if Rle_dec (1/3) delta2 then
    let! w0 := rdiv (3 * delta2 - 1) (3 * delta2) in
    let! w := rdiv (1/3) (2 ^ n * delta2) in
    let! delta := rsqrt delta2 in
    from_symm n [(K0, ([w0], [])); (Ka, ([w], [[delta]]))] 3
  else None.
(** cn/_cools_haegemans.py:132-148 with m = 1, the only call: the loop body once, with coeffs = [1],
    prod_ = 1 (empty product) and q = 1. *)
Definition ch_gener1 (delta2 : R) : option R :=
  let a0 := 1 * ch_mu 4 in
  let a1 := 1 * ch_mu 2 in
  let! corr_b := rdiv (ch_mu 2 ^ 2 / ch_mu 0 ^ 1 * 1) delta2 in
  rdiv (a0 - ch_mu 2 ^ 2 / ch_mu 0 ^ 1 * 1) (a1 - corr_b).
(** cn/_cools_haegemans.py:40-58 *)
Definition cools_haegemans_2 (n : nat) (delta2 : R) : option scheme :=
  let N := INR n in
  let! lmbda2 := ch_gener1 delta2 in
  let! w0 := rdiv (- (15 * delta2 * N - 12 * delta2 - 5 * N - 4) * (3 * delta2 - 1)) (36 * delta2 ^ 2) in
  let! w1 := rdiv (5 * (3 * delta2 - 1) ^ 2) (72 * delta2) in
  let! w := rdiv ((1/3) ^ 2) (2 ^ n * delta2 ^ 2) in
  let! lmbda := rsqrt lmbda2 in
  let! delta := rsqrt delta2 in
  from_symm n [(K0, ([w0], [])); (Ka0, ([w1], [[lmbda]])); (Ka, ([w], [[delta]]))] 5.

(** cn/_stroud.py:29-34 *)
Definition stroud_cn_1_1 (n : nat) : scheme := mk_scheme n (mk_rule ([repeat 0 n], [1])) 1.
(** cn/_stroud.py:37-42 *)
Definition stroud_cn_1_2 (n : nat) : scheme :=
  mk_scheme n (mk_rule (Rpm (repeat 1 n), repeat (1 / 2 ^ n) (2 ^ n))) 1.
(** cn/_stroud.py:45-50 *)
Definition stroud_cn_3_2 (n : nat) : option scheme :=
  let! w := rdiv 1 (2 * INR n) in
  let! r := rsqrt (INR n / 3) in
  let! pts := Rfsd n [(r, 1%nat)] in
  Some (mk_scheme n (mk_rule (pts, repeat w (2 * n))) 3).
(** cn/_stroud.py:53-58 *)
Definition stroud_cn_3_4 (n : nat) : option scheme :=
  let! s3 := rsqrt 3 in
  Some (mk_scheme n (mk_rule (Rpm (repeat (s3 / 3) n), repeat (1 / 2 ^ n) (2 ^ n))) 3).

(** np.array(np.meshgrid( *lst)).T.reshape(-1, n) with n copies of the list l: meshgrid's default "xy"
    indexing exchanges the first two axes and .T reverses all of them, so the rows run through all tuples
    with coordinate n slowest and, fastest, coordinate 1 and then 2. *)
Definition swap2 {A} (l : list A) : list A :=
  match l with a :: b :: l' => b :: a :: l' | _ => l end.
Definition mesh_rows (n : nat) (l : list R) : list (list R) :=
  map (fun t => swap2 (rev t)) (product (repeat l n)).
(** cn/_stroud.py:61-68 *)
Definition stroud_cn_3_6 (n : nat) : scheme :=
  let weights := map (fun row => prod_list row / 2 ^ n) (mesh_rows n [1/3; 4/3; 1/3]) in
  mk_scheme n (mk_rule (mesh_rows n [-1; 0; 1], weights)) 3.
(** cn/_stroud.py:71-79 *)
Definition stroud_cn_5_9 (n : nat) : option scheme :=
  let weights := map (fun row => prod_list row / 2 ^ n) (mesh_rows n [5/9; 8/9; 5/9]) in
  let! s := rsqrt (3/5) in
  Some (mk_scheme n (mk_rule (mesh_rows n [- s; 0; s], weights)) 5).
