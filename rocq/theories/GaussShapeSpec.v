(** The shape of a one-dimensional rule: distinct inner points with positive weights, symmetry, interlacing, uniqueness.
    Nothing in this file refers to the model of the code. *)
From Coq Require Import Reals List Arith.
From Verif Require Import Spec Spec1.
Import ListNotations.
Open Scope R_scope.

(** No point occurs twice, every weight is positive and every point lies in the domain. *)
Definition proper_rule (D : R -> Prop) (q : rule1) : Prop := NoDup (map snd q) /\ forall w x, In (w, x) q -> 0 < w /\ D x.
(** The mirror image of every point is a point with the same weight. *)
Definition mirrored (q : rule1) : Prop := forall w x, In (w, x) q -> In (w, - x) q.
(** Between neighbouring points of [q'] lies a point of [q]. *)
Definition interlaces (q q' : rule1) : Prop := forall x x', In x (map snd q') -> In x' (map snd q') -> x < x' -> (forall z, In z (map snd q') -> ~ x < z < x') ->
  exists y, In y (map snd q) /\ x < y < x'.
(** [q] integrates the polynomials of degree below [2 n]; [int f I]: the integral of f is I. *)
Definition exact_for (int : (R -> R) -> R -> Prop) (n : nat) (q : rule1) : Prop := forall c, (length c <= 2 * n)%nat -> int (peval c) (apply1 q (peval c)).
(** The same points with the same weights. *)
Definition same_rule (q q' : rule1) : Prop := forall w x, In (w, x) q <-> In (w, x) q'.
