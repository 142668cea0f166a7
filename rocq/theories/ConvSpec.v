(** Continuity, convergence and the size of a rule.  Nothing in this file refers to the model of the code. *)
From Coq Require Import Reals List Arith.
From Verif Require Import Spec Spec1.
Import ListNotations.
Open Scope R_scope.

(** [f] is continuous on the interval [a, b] (only its values on the interval matter). *)
Definition continuous_on (a b : R) (f : R -> R) : Prop :=
  forall x, a <= x <= b -> forall eps, 0 < eps -> exists delta, 0 < delta /\
    forall y, a <= y <= b -> Rabs (y - x) < delta -> Rabs (f y - f x) < eps.
(** For all large n the call returns a number, and these numbers converge to [l]. *)
Definition converges_to (r : nat -> option R) (l : R) : Prop :=
  forall eps, 0 < eps -> exists N, forall n, (N <= n)%nat -> exists v, r n = Some v /\ Rabs (v - l) < eps.
(** The sum of the absolute values of the weights. *)
Definition weight_sum (q : rule1) : R := Rsum (map (fun wx => Rabs (fst wx)) q).
(** All points lie in [-1, 1]. *)
Definition points_within (q : rule1) : Prop := List.Forall (fun wx => -1 <= snd wx <= 1) q.
(** All points lie in (-1, 1) and all weights are positive. *)
Definition positive_inside (q : rule1) : Prop := List.Forall (fun wx => 0 < fst wx /\ -1 < snd wx < 1) q.
