(** Specification of binomial coefficients and of regular simplices; nothing here refers to the model. *)
From Coq Require Import Reals List Arith.
From Verif Require Import Spec.
Import ListNotations.
Open Scope R_scope.

(** Pascal's triangle. *)
Fixpoint binom (n k : nat) : nat :=
  match n, k with
  | _, O => 1%nat
  | O, S _ => 0%nat
  | S n', S k' => (binom n' k' + binom n' (S k'))%nat
  end.
(** n+1 points of R^n with squared norm q, pairwise inner product -q/n, and zero sum. *)
Definition inner (x y : point) : R := Rsum (map (fun ab => fst ab * snd ab) (List.combine x y)).
Definition regular_simplex (n : nat) (q : R) (ps : list point) : Prop :=
  length ps = (n + 1)%nat /\ Forall (fun p => length p = n) ps /\
  (forall i, (i <= n)%nat -> inner (nth i ps []) (nth i ps []) = q) /\
  (forall i j, (i <= n)%nat -> (j <= n)%nat -> i <> j -> inner (nth i ps []) (nth j ps []) = - q / INR n) /\
  (forall a, (a < n)%nat -> Rsum (map (fun p => nth a p 0) ps) = 0).
