(** Specification vocabulary for one-dimensional quadrature.  Nothing here refers to the model of the code. *)
From Coq Require Import Reals List Permutation.
From Coquelicot Require Import Coquelicot.
From Verif Require Import Spec.
Import ListNotations.
Open Scope R_scope.

(** A one-dimensional rule is a list of (weight, node) pairs. *)
Definition rule1 := list (R * R).
Definition apply1 (q : rule1) (f : R -> R) : R := Rsum (map (fun wx => fst wx * f (snd wx)) q).

(** The polynomial with coefficients c_0, c_1, ... (lowest power first). *)
Fixpoint peval (c : list R) (x : R) : R :=
  match c with
  | [] => 0
  | a :: c' => a + x * peval c' x
  end.

(** [q] integrates every polynomial of degree at most [d] exactly over [-1, 1]. *)
Definition exact1 (d : nat) (q : rule1) : Prop :=
  forall c, (length c <= S d)%nat -> apply1 q (peval c) = RInt (peval c) (-1) 1.

(** [q] agrees with the functional that sends x^k to [mu k] on every polynomial of degree at most [d]. *)
Definition exact1_mu (d : nat) (mu : nat -> R) (q : rule1) : Prop :=
  forall k, (k <= d)%nat -> apply1 q (fun x => x ^ k) = mu k.

(** A chain of intervals leading from a to b without gap or overlap. *)
Fixpoint chain (a b : R) (l : list (R * R)) : Prop :=
  match l with
  | [] => a = b
  | (u, v) :: l' => u = a /\ u <= v /\ chain v b l'
  end.
(** [l] lists, in any order, intervals that tile [a, b]. *)
Definition tiling (a b : R) (l : list (R * R)) : Prop := exists l', Permutation l' l /\ chain a b l'.
