(** Evaluation of a scheme for the half line and for the whole line. *)
From Coq Require Import Reals List.
From Verif Require Import Spec Spec1 RsumLemmas.
Import ListNotations.
Open Scope R_scope.

(** e1r/_helpers.py:11-14 and e1r2/_helpers.py:11-14 (the two methods have the same text): the points are wrapped into an array
    of shape (1, n), the integrand is called on it, and the values are multiplied with the weights, so the result is an array
    with one entry.
    Simplification: the integrand acts on every entry separately; [dot] is its default, the exact sum of products. *)
Definition e1_integrate (q : rule1) (f : R -> R) : list R :=
  let x := [map snd q] in
  let fx := map (map f) x in
  map (fun row => Rsum (map (fun p => fst p * snd p) (combine row (map fst q)))) fx.
