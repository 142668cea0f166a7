(** Model of quadpy/cn/_mcnamee_stenger.py, the generic construction of fully symmetric rules.
    [integ l] is integrator(n, l): the integral of x_1^l_1 ... x_m^l_m over the domain. *)
From Coq Require Import Reals List Arith.
From Verif Require Import Spec CombModel PyBase SymmModel MiscModel CnModel.
Import ListNotations.
Open Scope R_scope.

(** weights /= I0 after untangle: lines 63-65, 140-143, 247-250 *)
Definition ms_scheme (n : nat) (data : list (R * list point)) (I0 : R) (degree : nat) : option scheme :=
  if Req_EM_T I0 0 then None else
  let '(points, weights) := untangle data in
  Some (mk_scheme n (mk_rule (points, map (fun w => w / I0) weights)) degree).

(** lines 20-39 *)
Definition ms3 (n : nat) (integ : list nat -> R) : option scheme :=
  let I0 := integ [] in
  let I2 := integ [2%nat] in
  let! u2 := rdiv I2 I0 in
  let! A1 := rdiv I2 (2 * u2) in
  let A0 := (1 - INR n) * I0 in
  let! u := rsqrt u2 in
  let! w0 := rdiv A0 I0 in
  let! w1 := rdiv A1 I0 in
  let! p1 := Rfsd n [(u, 1%nat)] in
  Some (from_data n [(w0, Rz n); (w1, p1)] 3).

(** lines 42-66 *)
Definition ms5 (n : nat) (integ : list nat -> R) : option scheme :=
  guard (2 <=? n)%nat (
  let N := INR n in
  let I0 := integ [] in
  let I2 := integ [2%nat] in
  let I4 := integ [4%nat] in
  let I22 := integ [2; 2]%nat in
  let! q := rdiv I4 I2 in
  let! u := rsqrt q in
  let! r := rdiv I2 I4 in
  let A0 := I0 - N * r ^ 2 * (I4 - (N - 1) / 2 * I22) in
  let A1 := 1/2 * r ^ 2 * (I4 - (N - 1) * I22) in
  let A11 := 1/4 * r ^ 2 * I22 in
  let! p1 := Rfsd n [(u, 1%nat)] in
  let! p11 := Rfsd n [(u, 2%nat)] in
  ms_scheme n [(A0, Rz n); (A1, p1); (A11, p11)] I0 5).

(** lines 85-91 and 168-174: both roots of a t^2 - b t + c = 0, exchanged if switch_uv *)
Definition ms_roots (a b c : R) (switch_uv : bool) : option (R * R) :=
  let! s := rsqrt (b ^ 2 - 4 * a * c) in
  let! u2 := rdiv (b + s) (2 * a) in
  let! v2 := rdiv (b - s) (2 * a) in
  Some (if switch_uv then (v2, u2) else (u2, v2)).

(** lines 100-109, 111-118, 185-194, 205-221: inv @ vec for the matrix [[p, q], [r, s]] with its
    determinant p s - q r, where inv = [[s, -q], [-r, p]] / det *)
Definition ms_solve (p q r s x y : R) : option (R * R) :=
  let det := p * s - q * r in
  let! i00 := rdiv s det in
  let! i01 := rdiv (- q) det in
  let! i10 := rdiv (- r) det in
  let! i11 := rdiv p det in
  Some (i00 * x + i01 * y, i10 * x + i11 * y).

(** lines 69-145 *)
Definition ms7 (n : nat) (integ : list nat -> R) (switch_uv : bool) : option scheme :=
  guard (3 <=? n)%nat (
  let N := INR n in
  let I0 := integ [] in
  let I2 := integ [2%nat] in
  let I4 := integ [4%nat] in
  let I6 := integ [6%nat] in
  let I22 := integ [2; 2]%nat in
  let I24 := integ [2; 4]%nat in
  let I222 := integ [2; 2; 2]%nat in
  let a := I2 ^ 2 - I0 * I4 in
  let b := I2 * I4 - I0 * I6 in
  let c := I4 ^ 2 - I2 * I6 in
  let! (u2, v2) := ms_roots a b c switch_uv in
  let u4 := u2 ^ 2 in
  let u6 := u2 ^ 3 in
  let v4 := v2 ^ 2 in
  let v6 := v2 ^ 3 in
  let! A111 := rdiv I222 ((2 * u2) ^ 3) in
  let! (x1, y1) := ms_solve u4 v4 u6 v6 (I22 - 2 ^ 3 * (N - 2) * u4 * A111) (I24 - 2 ^ 3 * (N - 2) * u6 * A111) in
  let A11 := 1/4 * x1 in
  let A22 := 1/4 * y1 in
  let c12 := INR (comb (n - 1) 2) in
  let! (x2, y2) := ms_solve u2 v2 u4 v4 (I2 - 2 ^ 3 * c12 * u2 * A111) (I4 - 2 ^ 3 * c12 * u4 * A111) in
  let A1 := -2 * (N - 1) * A11 + 1/2 * x2 in
  let A2 := -2 * (N - 1) * A22 + 1/2 * y2 in
  let A0 := I0 - 2 * N * (A1 + A2) - 2 ^ 2 * INR (comb n 2) * (A11 + A22) - 2 ^ 3 * INR (comb n 3) * A111 in
  let! u := rsqrt u2 in
  let! v := rsqrt v2 in
  let! pu := Rfsd n [(u, 1%nat)] in
  let! pv := Rfsd n [(v, 1%nat)] in
  let! puu := Rfsd n [(u, 2%nat)] in
  let! pvv := Rfsd n [(v, 2%nat)] in
  let! puuu := Rfsd n [(u, 3%nat)] in
  ms_scheme n [(A0, Rz n); (A1, pu); (A2, pv); (A11, puu); (A22, pvv); (A111, puuu)] I0 7).

(** lines 148-252 *)
Definition ms9 (n : nat) (integ : list nat -> R) (switch_uv : bool) : option scheme :=
  guard (4 <=? n)%nat (
  let N := INR n in
  let I0 := integ [] in
  let I2 := integ [2%nat] in
  let I4 := integ [4%nat] in
  let I6 := integ [6%nat] in
  let I8 := integ [8%nat] in
  let I24 := integ [2; 4]%nat in
  let I26 := integ [2; 6]%nat in
  let I44 := integ [4; 4]%nat in
  let I222 := integ [2; 2; 2]%nat in
  let I224 := integ [2; 2; 4]%nat in
  let I2222 := integ [2; 2; 2; 2]%nat in
  let a := I4 ^ 2 - I2 * I6 in
  let b := I4 * I6 - I2 * I8 in
  let c := I6 ^ 2 - I4 * I8 in
  let! (u2, v2) := ms_roots a b c switch_uv in
  let u4 := u2 ^ 2 in
  let u6 := u2 ^ 3 in
  let u8 := u2 ^ 4 in
  let v4 := v2 ^ 2 in
  let v6 := v2 ^ 3 in
  let v8 := v2 ^ 4 in
  let! A1111 := rdiv I2222 ((2 * u2) ^ 4) in
  let! (x1, y1) := ms_solve u6 v6 u8 v8 (I222 - 2 ^ 4 * (N - 3) * u6 * A1111) (I224 - 2 ^ 4 * (N - 3) * u8 * A1111) in
  let A111 := 1/8 * x1 in
  let A222 := 1/8 * y1 in
  let! A12 := rdiv (I26 - I44) (2 ^ 2 * u2 * v2 * (u2 - v2) ^ 2) in
  let c22 := INR (comb (n - 2) 2) in
  let! (x2, y2) := ms_solve u6 v6 u8 v8
    (I24 - 2 ^ 2 * (u4 * v2 + u2 * v4) * A12 - 2 ^ 4 * c22 * u6 * A1111)
    (I26 - 2 ^ 2 * (u6 * v2 + u2 * v6) * A12 - 2 ^ 4 * c22 * u8 * A1111) in
  let A11 := -2 * (N - 2) * A111 + 1/4 * x2 in
  let A22 := -2 * (N - 2) * A222 + 1/4 * y2 in
  let c13 := INR (comb (n - 1) 3) in
  let c12 := INR (comb (n - 1) 2) in
  let! (x3, y3) := ms_solve u2 v2 u4 v4 (I2 - 2 ^ 4 * c13 * u2 * A1111) (I4 - 2 ^ 4 * c13 * u4 * A1111) in
  let A1 := -2 * (N - 1) * (A11 + A12) - 2 ^ 2 * c12 * A111 + 1/2 * x3 in
  let A2 := -2 * (N - 1) * (A22 + A12) - 2 ^ 2 * c12 * A222 + 1/2 * y3 in
  let A0 := I0 - 2 * N * (A1 + A2) - 2 ^ 2 * INR (comb n 2) * (A11 + 2 * A12 + A22)
    - 2 ^ 3 * INR (comb n 3) * (A111 + A222) - 2 ^ 4 * INR (comb n 4) * A1111 in
  let! u := rsqrt u2 in
  let! v := rsqrt v2 in
  let! pu := Rfsd n [(u, 1%nat)] in
  let! pv := Rfsd n [(v, 1%nat)] in
  let! puu := Rfsd n [(u, 2%nat)] in
  let! puv := Rfsd n [(u, 1%nat); (v, 1%nat)] in
  let! pvv := Rfsd n [(v, 2%nat)] in
  let! puuu := Rfsd n [(u, 3%nat)] in
  let! pvvv := Rfsd n [(v, 3%nat)] in
  let! puuuu := Rfsd n [(u, 4%nat)] in
  ms_scheme n [(A0, Rz n); (A1, pu); (A2, pv); (A11, puu); (A12, puv); (A22, pvv); (A111, puuu); (A222, pvvv);
    (A1111, puuuu)] I0 9).

(** lines 256-266; the assertion len(k) <= n holds in every call above once the n >= ... assertions hold *)
Definition ms_cube_integrator (n : nat) (k : list nat) : R :=
  if existsb Nat.odd k then 0 else 2 ^ n / prod_list (map (fun kk => INR (kk + 1)) k).
(** lines 269-298 *)
Definition cn_mcnamee_stenger_3 (n : nat) := guard (1 <=? n)%nat (ms3 n (ms_cube_integrator n)).
Definition cn_mcnamee_stenger_5 (n : nat) := ms5 n (ms_cube_integrator n).
Definition cn_mcnamee_stenger_7a (n : nat) := ms7 n (ms_cube_integrator n) false.
Definition cn_mcnamee_stenger_7b (n : nat) := ms7 n (ms_cube_integrator n) true.
Definition cn_mcnamee_stenger_9a (n : nat) := ms9 n (ms_cube_integrator n) false.
Definition cn_mcnamee_stenger_9b (n : nat) := ms9 n (ms_cube_integrator n) true.
