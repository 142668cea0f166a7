(** Specification of the reference integrals as iterated Riemann integrals (Coquelicot's [RInt]).
    Nothing in this file refers to the model of the code. *)
From Coq Require Import Reals List Arith.
From Coquelicot Require Import Coquelicot.
From Verif Require Import Spec.
Import ListNotations.
Open Scope R_scope.

(** Integral of f over the cube [-1,1]^n, one variable after the other. *)
Fixpoint cube_int (n : nat) (f : point -> R) : R :=
  match n with
  | O => f []
  | S m => RInt (fun x => cube_int m (fun xs => f (x :: xs))) (-1) 1
  end.

(** Integral of f over the box [a_1,b_1] x ... x [a_n,b_n]. *)
Fixpoint box_int (limits : list (R * R)) (f : point -> R) : R :=
  match limits with
  | [] => f []
  | (a, b) :: limits' => RInt (fun x => box_int limits' (fun xs => f (x :: xs))) a b
  end.

(** Mean value over the cube (its volume is 2^n). *)
Definition cube_mean (n : nat) (f : point -> R) : R := cube_int n f / 2 ^ n.

(** Integral of f over { x in R^n : x_i >= 0, sum x_i <= h }. *)
Fixpoint simplex_int (n : nat) (h : R) (f : point -> R) : R :=
  match n with
  | O => f []
  | S m => RInt (fun x => simplex_int m (h - x) (fun xs => f (x :: xs))) 0 h
  end.

(** Mean value over the unit simplex (volume 1/n!) of a function of the n+1 barycentric coordinates
    (1 - sum x, x_1, ..., x_n). *)
Definition simplex_mean (n : nat) (f : point -> R) : R :=
  INR (fact n) * simplex_int n 1 (fun x => f ((1 - Rsum x) :: x)).

(** Integral of f over the ball { x in R^n : |x| <= r }, one variable after the other. *)
Fixpoint ball_int (n : nat) (r : R) (f : point -> R) : R :=
  match n with
  | O => f []
  | S m => RInt (fun x => ball_int m (sqrt (r ^ 2 - x ^ 2)) (fun xs => f (x :: xs))) (- r) r
  end.
Definition ball_mean (n : nat) (f : point -> R) : R := ball_int n 1 f / ball_int n 1 (fun _ => 1).
