(** Partial derivatives of functions of several variables (C92).  Nothing in this file refers to the model of the code. *)
From Coq Require Import Reals List.
From Coquelicot Require Import Coquelicot.
From Verif Require Import Spec MeshSpec.
Import ListNotations.
Open Scope R_scope.

(** [F [i_k; ...; i_1]] is the partial derivative of [F []] in the directions i_1, ..., i_k, up to the order [r] on the set [D]:
    along every segment from c to x in D, the derivative of F w at the point y = (1 - t) c + t x is sum_i (x_i - c_i) (F (i :: w)) (y) *)
Definition has_partials (n r : nat) (D : point -> Prop) (F : list nat -> point -> R) : Prop :=
  forall w, (length w < r)%nat -> List.Forall (fun i => (i < n)%nat) w -> forall c x, D c -> D x -> forall t, 0 <= t <= 1 ->
    is_derive (fun s => F w (between s c x)) t (Rsum (map (fun i => (nth i x 0 - nth i c 0) * F (i :: w) (between t c x)) (seq 0 n))).
(** all partial derivatives of the order [r] are at most [M] in absolute value *)
Definition partials_bounded (n r : nat) (D : point -> Prop) (F : list nat -> point -> R) (M : R) : Prop :=
  forall w, length w = r -> List.Forall (fun i => (i < n)%nat) w -> forall x, D x -> Rabs (F w x) <= M.
