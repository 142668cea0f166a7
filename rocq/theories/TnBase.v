(** Model of the monomial integral in quadpy/tn/_helpers.py. *)
From Coq Require Import Reals List Arith.
From Verif Require Import Spec PyBase.
Import ListNotations.
Open Scope R_scope.

(** tn/_helpers.py:110-114: index of the first positive entry, and k with that entry decremented *)
Fixpoint first_nonzero (k : list nat) : option (nat * list nat) :=
  match k with
  | [] => None
  | O :: k' => match first_nonzero k' with Some (v, k2) => Some (v, O :: k2) | None => None end
  | S a :: k' => Some (S a, a :: k')
  end.

(** tn/_helpers.py:80-115.  The exponents are natural numbers (the code asserts k >= 0).  The recursion is on
    sum(k), which decreases by one in each call; [fuel] bounds it and is started at sum(k). *)
Fixpoint imus_fuel (fuel : nat) (k : list nat) : R :=
  match first_nonzero k, fuel with
  | None, _ => 1 / INR (fact (length k))
  | Some _, O => 0
  | Some (v, k2), S fuel' => imus_fuel fuel' k2 * (INR v / INR (list_sum k + length k))
  end.
Definition integrate_monomial_over_unit_simplex (k : list nat) : R := imus_fuel (list_sum k) k.
