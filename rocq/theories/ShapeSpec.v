(** What the shapes in C1Scheme.integrate mean (C38). *)
From Coq Require Import Reals List Arith.
From Verif Require Import Spec ShapeModel.
Import ListNotations.
Open Scope R_scope.

(** [ds], [rs], [ss] explain the shapes: the intervals are two arrays of [ss] many points, each of shape [ds]; the values of
    the function are, for each of the [ss] many intervals and each quadrature node, arrays of shape [rs]. *)
Definition fits (fx iv x ds rs ss : shape) : Prop := iv = 2%nat :: ds ++ ss /\ fx = rs ++ ss ++ x.
(** The tails of the two shapes do not coincide, not even in the last axis. *)
Definition tails_differ (ds rs : shape) : Prop := ds = [] \/ rs = [] \/ last ds 0%nat <> last rs 0%nat.

(** A multi-index of an array of shape [s]. *)
Definition within (i : list nat) (s : shape) : Prop := Forall2 lt i s.
(** [f] evaluates the function [F] (from arrays of shape [ds] to arrays of shape [rs]) at each of the [ss] times [n] points. *)
Definition evaluates (ds rs ss : shape) (n : nat) (F : (list nat -> R) -> list nat -> R) (f : nd -> nd) : Prop :=
  (forall p q r, (forall d, within d ds -> p d = q d) -> F p r = F q r) /\
  (forall x, nd_shape x = ds ++ ss ++ [n] ->
    nd_shape (f x) = rs ++ ss ++ [n] /\
    forall r s k, within r rs -> within s ss -> (k < n)%nat ->
      nd_at (f x) (r ++ s ++ [k]) = F (fun d => nd_at x (d ++ s ++ [k])) r).
(** The point of the segment from [a] (t = -1) to [b] (t = 1). *)
Definition on_segment (a b : list nat -> R) (t : R) : list nat -> R := fun d => (1 - t) / 2 * a d + (1 + t) / 2 * b d.
(** Euclidean distance of two arrays of shape [ds]. *)
Definition distance (ds : shape) (a b : list nat -> R) : R := sqrt (Rsum (map (fun d => (b d - a d) ^ 2) (indices ds))).
