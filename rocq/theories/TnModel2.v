(** Model of quadpy/tn/_grundmann_moeller.py and quadpy/tn/_silvester.py. *)
From Coq Require Import Reals List Arith.
From Verif Require Import Spec CombModel PyBase MiscModel TnBase CnModel TnModel.
Import ListNotations.
Open Scope R_scope.

(** tn/_grundmann_moeller.py:20-46.  Rationals (and the float 2**(-2*s)) are exact reals here. *)
Definition grundmann_moeller (n s : nat) : option scheme :=
  let d := (2 * s + 1)%nat in
  let exponents := get_all_exponents (n + 1) s in
  let data := map (fun i =>
      ((-1) ^ i * (/ 2 ^ (2 * s)) * INR (d + n - 2 * i) ^ d / (INR (fact i) * INR (fact (d + n - i))),
       map (fun part => map (fun p => INR (2 * p + 1) / INR (d + n - 2 * i)) part) (nth (s - i) exponents [])))
    (seq 0 (s + 1)) in
  normalize n data d.

(** tn/_silvester.py:18-38.  The recursion is on sum(k); see TnBase for the search of the first positive entry. *)
Fixpoint integrate_bary_fuel (fuel : nat) (k : list nat) : R :=
  match first_nonzero k, fuel with
  | None, _ => 1
  | Some _, O => 0
  | Some (v, k2), S fuel' => integrate_bary_fuel fuel' k2 * (INR v / INR (list_sum k + (length k - 1)))
  end.
Definition integrate_bary (k : list nat) : R := integrate_bary_fuel (list_sum k) k.

(** Product of polynomials given as lists of (coefficient, exponents). *)
Definition mp_mul (p q : mpoly) : mpoly :=
  flat_map (fun a => map (fun b => (fst a * fst b, map (fun e => (fst e + snd e)%nat) (List.combine (snd a) (snd b)))) q) p.
(** Exponents of the variable t_i among m variables. *)
Definition mp_unit (m i : nat) : list nat := map (fun j => if (j =? i)%nat then 1%nat else 0%nat) (seq 0 m).

(** tn/_silvester.py:51-56.  The polynomial g = prod (t_i - x_k)/(x_m - x_k) over the coordinates i and the
    k < m = idx[i], multiplied out.  sympy collects equal monomials and lists the exponents of the occurring
    variables first; the weight is a sum over the terms of a function that is symmetric in the exponents, so
    neither matters. *)
Definition silvester_g (dim : nat) (x : nat -> R) (idx : list nat) : mpoly :=
  fold_left mp_mul
    (flat_map (fun im => map (fun k =>
        [(/ (x (snd im) - x k), mp_unit (dim + 1) (fst im)); (- x k / (x (snd im) - x k), repeat 0%nat (dim + 1))])
        (seq 0 (snd im)))
      (List.combine (seq 0 (length idx)) idx))
    [(1, repeat 0%nat (dim + 1))].

(** tn/_silvester.py:41-67 *)
Definition silvester_data (dim n : nat) (x : nat -> R) : list R * list point :=
  let idxs := nth n (get_all_exponents (dim + 1) n) [] in
  (map (fun idx => Rsum (map (fun ck => fst ck * integrate_bary (snd ck)) (silvester_g dim x idx))) idxs,
   map (map x) idxs).

(** tn/_silvester.py:70-96.  [closed] tells the variant.  For n = 0 the product g has no factor and is the int
    1, so zip(coeffs, exp) raises a TypeError in both variants (the closed one divides 0 by 0 before). *)
Definition silvester (dim : nat) (closed : bool) (n : nat) : option scheme :=
  match n with
  | O => None
  | _ =>
      let x := if closed then fun k => INR k / INR n else fun k => INR (k + 1) / INR (n + 1 + dim) in
      let '(weights, points) := silvester_data dim n x in
      Some (mk_scheme dim (mk_rule (points, weights)) n)
  end.
