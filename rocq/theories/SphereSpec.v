(** Specification of the integrals over the unit sphere and over R^n with a radial weight, in polar coordinates.
    Nothing in this file refers to the model of the code. *)
From Coq Require Import Reals List Arith.
From Coquelicot Require Import Coquelicot.
From Verif Require Import Spec.
Import ListNotations.
Open Scope R_scope.

(** Surface integral over the unit sphere of R^n: x = (cos t, sin t y) with y on the unit sphere of R^(n-1) has the
    surface element sin^(n-2) t dt dy; the unit sphere of R^1 is the two points +1, -1. *)
Fixpoint sphere_int (n : nat) (f : point -> R) : R :=
  match n with
  | O => 0
  | S m =>
      match m with
      | O => f [1] + f [-1]
      | S m' => RInt (fun t => sin t ^ m' * sphere_int m (fun y => f (cos t :: map (Rmult (sin t)) y))) 0 PI
      end
  end.
Definition sphere_mean (n : nat) (f : point -> R) : R := sphere_int n f / sphere_int n (fun _ => 1).

(** Integral over R^n of f(x) w(|x|) in polar coordinates x = r y, |y| = 1. *)
Definition radial_int (w : R -> R) (n : nat) (f : point -> R) : R :=
  RInt_gen (fun r => r ^ (n - 1) * w r * sphere_int n (fun y => f (map (Rmult r) y))) (at_point 0) (Rbar_locally p_infty).
Definition radial_mean (w : R -> R) (n : nat) (f : point -> R) : R := radial_int w n f / radial_int w n (fun _ => 1).
(** The weights exp(-|x|) and exp(-|x|^2). *)
Definition enr_mean : nat -> (point -> R) -> R := radial_mean (fun r => exp (- r)).
Definition enr2_mean : nat -> (point -> R) -> R := radial_mean (fun r => exp (- (r * r))).
