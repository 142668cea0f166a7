(** Contract of numpy.polynomial.legendre.leggauss(n) = (points, weights): n points and weights that integrate every
    polynomial of degree at most 2 n - 1 over [-1, 1].  Nothing in this file refers to the model of the code. *)
From Coq Require Import Reals List Arith.
From Verif Require Import Spec Spec1.
Open Scope R_scope.

Definition leggauss_ok (leggauss : nat -> list R * list R) : Prop :=
  forall n, (1 <= n)%nat ->
    length (fst (leggauss n)) = n /\ length (snd (leggauss n)) = n /\
    exact1 (2 * n - 1) (List.combine (snd (leggauss n)) (fst (leggauss n))).
