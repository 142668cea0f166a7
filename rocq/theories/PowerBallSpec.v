(** Specification: the mean over the unit ball of R^n with the weight |x|^alpha, in polar coordinates x = r y, |y| = 1.
    alpha is an integer larger than -n (for smaller alpha the weight has no integral), so that the power of r below is a
    natural number.  Nothing in this file refers to the model of the code. *)
From Coq Require Import Reals List ZArith.
From Coquelicot Require Import Coquelicot.
From Verif Require Import Spec SphereSpec.
Open Scope R_scope.

Definition power_ball_int (alpha : Z) (n : nat) (f : point -> R) : R :=
  RInt (fun r => r ^ Z.to_nat (Z.of_nat n - 1 + alpha) * sphere_int n (fun y => f (map (Rmult r) y))) 0 1.
Definition power_ball_mean (alpha : Z) (n : nat) (f : point -> R) : R :=
  power_ball_int alpha n f / power_ball_int alpha n (fun _ => 1).
