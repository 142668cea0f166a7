(** Integrals over balls and spheres with arbitrary centre and radius.  Nothing in this file refers to the model of the code. *)
From Coq Require Import Reals List Arith.
From Coquelicot Require Import Coquelicot.
From Verif Require Import Spec SphereSpec.
Import ListNotations.
Open Scope R_scope.

(** Integral over the ball { x : |x - c| <= r }, one variable after the other. *)
Fixpoint ball_int_at (c : point) (r : R) (f : point -> R) : R :=
  match c with
  | [] => f []
  | c1 :: c' => RInt (fun x => ball_int_at c' (sqrt (r ^ 2 - (x - c1) ^ 2)) (fun xs => f (x :: xs))) (c1 - r) (c1 + r)
  end.

(** The point c + r y. *)
Definition shifted (c : point) (r : R) (y : point) : point := map (fun ab => fst ab + r * snd ab) (List.combine c y).
(** Surface integral over the sphere { x : |x - c| = r }: x = c + r y with y on the unit sphere, surface element r^(n-1) dy. *)
Definition sphere_int_at (c : point) (r : R) (f : point -> R) : R :=
  r ^ (length c - 1) * sphere_int (length c) (fun y => f (shifted c r y)).
(** The circle of the plane with centre (a, b), parametrised by the full angle; arc length element r dt. *)
Definition circle_int_at (a b r : R) (f : point -> R) : R := RInt (fun t => r * f [a + r * cos t; b + r * sin t]) 0 (2 * PI).
