(** Specification vocabulary: what a quadrature rule is and what it means for it to be exact.
    Nothing in this file refers to the model of the code. *)
From Coq Require Import Reals List Arith Lia Permutation.
Import ListNotations.
Open Scope R_scope.

(** A point of R^n is the list of its n coordinates, a rule is a list of (weight, point) pairs. *)
Definition point := list R.
Definition rule := list (R * point).

(** Sum of a list of reals. *)
Fixpoint Rsum (l : list R) : R :=
  match l with
  | [] => 0
  | x :: l' => x + Rsum l'
  end.

(** The value a rule assigns to a function: sum_i w_i f(x_i). *)
Definition apply (q : rule) (f : point -> R) : R :=
  Rsum (map (fun wp => fst wp * f (snd wp)) q).

(** The monomial x^k = prod_i x_i^(k_i). *)
Fixpoint mono (k : list nat) (x : point) : R :=
  match k, x with
  | a :: k', t :: x' => t ^ a * mono k' x'
  | _, _ => 1
  end.

(** Total degree of an exponent vector. *)
Definition tdeg (k : list nat) : nat := list_sum k.

(** All points of the rule live in R^n. *)
Definition points_in_dim (n : nat) (q : rule) : Prop :=
  Forall (fun wp => length (snd wp) = n) q.

(** Rule [q] on R^n is exact to degree [d] for the functional whose value on x^k is [I k]. *)
Definition exact (n d : nat) (I : list nat -> R) (q : rule) : Prop :=
  points_in_dim n q /\
  forall k, length k = n -> (tdeg k <= d)%nat -> apply q (mono k) = I k.

(** Polynomials in n variables: finite sums of coefficient * monomial. *)
Definition mpoly := list (R * list nat).
Definition mpeval (p : mpoly) (x : point) : R :=
  Rsum (map (fun ck => fst ck * mono (snd ck) x) p).
Definition mp_ok (n d : nat) (p : mpoly) : Prop :=
  Forall (fun ck => length (snd ck) = n /\ (tdeg (snd ck) <= d)%nat) p.
