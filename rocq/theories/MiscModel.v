(** Model of quadpy/helpers/misc.py (numerical helpers). *)
From Coq Require Import Reals List Arith.
From Verif Require Import Spec CombModel PyBase.
Import ListNotations.
Open Scope R_scope.

(** misc.py:142-148.  Both branches multiply the entries, starting from 1. *)
Definition prod_list (l : list R) : R := fold_left Rmult l 1.

(** misc.py:151-158.  Factorial branch (taken for sys.version < "3.8"; a ValueError for b > a gives 0);
    math.comb returns the same numbers. *)
Definition comb (a b : nat) : nat :=
  if (b <=? a)%nat then (fact a / fact b / fact (a - b))%nat else 0%nat.

(** misc.py:161-171, gamma(n/2); factorial(-1) raises for n = 0. *)
Definition gamma_n_2 (n : nat) : option R :=
  if Nat.even n then
    match n with
    | O => None
    | _ => Some (INR (fact (n / 2 - 1)))
    end
  else
    let n2 := (n / 2)%nat in
    Some (INR (fact (2 * n2)) / (4 ^ n2 * INR (fact n2)) * sqrt PI).

(** misc.py:89-127.  t = +1 for pm_type "I" and -1 for "II". *)
Definition compute_dobrodeev (n : nat) (I0 I2 I22 I4 t : R) (i j k : nat) : option (R * R * R * R) :=
  let nR := INR n in let iR := INR i in let jR := INR j in let kR := INR k in
  let L := INR (comb n i) * 2 ^ i in
  let M := INR (fact n / (fact j * fact k * fact (n - j - k)))%nat * 2 ^ (j + k) in
  let N := L + M in
  let! F1 := rdiv I22 I0 in
  let! F2 := rdiv (I2 ^ 2) (I0 ^ 2) in
  let! F3 := rdiv I4 I0 in
  let! F4 := rdiv (F3 - F1) nR in
  let F := F1 - F2 + F4 in
  let! jki := rdiv (jR + kR - iR) iR in
  let! c1 := rdiv (jR + kR - 1) nR in
  let! c2 := rdiv (nR - 1) nR in
  let Rr := - jki * F2 + c1 * F3 - c2 * F1 in
  let! ji := rdiv 1 iR in
  let! jkn := rdiv (jR + kR) nR in
  let H := ji * ((jR + kR - iR) * F2 + jkn * ((iR - 1) * F3 - (nR - 1) * F1)) in
  let! LM := rdiv L M in
  let! m2 := rdiv I2 I0 in
  let! sLM := rsqrt (LM * F) in
  let Q := LM * Rr + H - t * 2 * m2 * jki * sLM in
  let! G := rdiv 1 N in
  let! ML := rdiv M L in
  let! sML := rsqrt (ML * F) in
  let! ni := rdiv nR iR in
  let! a := rsqrt (ni * (m2 + t * sML)) in
  let! njk := rdiv nR (jR + kR) in
  let! kj := rdiv kR jR in
  let! skQ := rsqrt (kj * Q) in
  let! b := rsqrt (njk * (m2 - t * sLM + t * skQ)) in
  let! jk := rdiv jR kR in
  let! sjQ := rsqrt (jk * Q) in
  let! c := rsqrt (njk * (m2 - t * sLM - t * sjQ)) in
  Some (G, a, b, c).
