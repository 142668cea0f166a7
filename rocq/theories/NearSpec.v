(** Exactness up to a tolerance, for rules that are given by decimal numbers.  Nothing in this file refers to the model of the
    code. *)
From Coq Require Import Reals List Arith.
From Coquelicot Require Import Coquelicot.
From Verif Require Import Spec Spec1.
Import ListNotations.
Open Scope R_scope.

(** For every polynomial c_0 + c_1 x + ... of degree at most [d] the error of [q] on [-1, 1] is at most
    [tol] (|c_0| + |c_1| + ...). *)
Definition near1 (d : nat) (tol : R) (q : rule1) : Prop :=
  forall c, (length c <= S d)%nat -> Rabs (apply1 q (peval c) - RInt (peval c) (-1) 1) <= tol * Rsum (map Rabs c).
