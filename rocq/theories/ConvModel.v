(** The branch of gauss_legendre that calls numpy. *)
From Coq Require Import Reals List Arith ZArith.
From Verif Require Import Spec Spec1 C1Model.
Open Scope R_scope.

(** c1/_gauss_legendre.py:8-13, mode "numpy" (the default): [leggauss n] is numpy's (points, weights); numpy raises for n < 1. *)
Definition gauss_legendre_numpy (leggauss : nat -> list R * list R) (n : nat) : option c1_scheme :=
  if (n <? 1)%nat then None else
  let (points, weights) := leggauss n in
  Some (mk_c1 (2 * Z.of_nat n - 1) (List.combine weights points)).
