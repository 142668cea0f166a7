(** What it means for an integrand on arrays to evaluate a function point by point (C86). *)
From Coq Require Import Reals List Arith.
From Verif Require Import Spec ShapeModel ShapeSpec.
Import ListNotations.
Open Scope R_scope.

(** [f] takes arrays of points, the first axis for the [dim] coordinates and any further axes, and returns the values of F for each of
    the points: arrays of shape [rs], the axes of the points behind those of [rs]. *)
Definition pointwise (dim : nat) (rs : shape) (F : point -> list nat -> R) (f : nd -> nd) : Prop :=
  forall x s, nd_shape x = dim :: s ->
    nd_shape (f x) = rs ++ s /\
    forall r i, within r rs -> within i s -> nd_at (f x) (r ++ i) = F (map (fun c => nd_at x (c :: i)) (seq 0 dim)) r.
(** The vector at the entry [s] of an array of vectors of shape s + (dim,). *)
Definition vector (dim : nat) (a : nd) (s : list nat) : point := map (fun c => nd_at a (s ++ [c])) (seq 0 dim).
(** The point lists of the domain [s] of an array of domains of shape ... + s + (dim,): the domain's own axes come first in the array,
    [lead] lists their indices in the order of the vertices. *)
Definition stacked (lead : list (list nat)) (dim : nat) (a : nd) (s : list nat) : list point :=
  map (fun j => map (fun c => nd_at a (j ++ s ++ [c])) (seq 0 dim)) lead.
Definition first (m : nat) : list (list nat) := map (fun j => [j]) (seq 0 m).
(** the corners of a cube, the first coordinate slowest *)
Fixpoint bits (n : nat) : list (list nat) := match n with O => [[]] | S n' => map (cons 0%nat) (bits n') ++ map (cons 1%nat) (bits n') end.
