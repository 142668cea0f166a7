(** The weighted integrals of classical one-dimensional quadrature, as improper Riemann integrals.
    Nothing in this file refers to the model of the code. *)
From Coq Require Import Reals.
From Coquelicot Require Import Coquelicot.
Open Scope R_scope.

(** I = integral over (-1, 1) of (1 - x)^a (1 + x)^b f(x). *)
Definition jacobi_int (a b : R) (f : R -> R) (I : R) : Prop :=
  is_RInt_gen (fun x => Rpower (1 - x) a * Rpower (1 + x) b * f x) (at_right (-1)) (at_left 1) I.
(** I = integral over (0, infinity) of x^a exp(-x) f(x). *)
Definition laguerre_int (a : R) (f : R -> R) (I : R) : Prop :=
  is_RInt_gen (fun x => Rpower x a * exp (- x) * f x) (at_right 0) (Rbar_locally p_infty) I.
(** I = integral over the real line of exp(-x^2) f(x). *)
Definition hermite_int (f : R -> R) (I : R) : Prop :=
  is_RInt_gen (fun x => exp (- x ^ 2) * f x) (Rbar_locally m_infty) (Rbar_locally p_infty) I.
