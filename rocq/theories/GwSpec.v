(** Orthogonal polynomials, moments and Gauss quadrature.  Nothing in this file refers to the model of the code. *)
From Coq Require Import Reals List Arith Sorted.
From Verif Require Import Spec Spec1.
Import ListNotations.
Open Scope R_scope.

(** The monic polynomials p_0 = 1, p_1 = x - a_0, p_{k+1} = (x - a_k) p_k - b_k p_{k-1}. *)
Fixpoint monic (a b : nat -> R) (k : nat) (x : R) : R :=
  match k with
  | O => 1
  | S k' => (x - a k') * monic a b k' x - match k' with O => 0 | S k'' => b k' * monic a b k'' x end
  end.
(** L(x^m p_k) for the linear functional L that sends x^j to [mu j]. *)
Fixpoint lmonic (a b mu : nat -> R) (k m : nat) : R :=
  match k with
  | O => mu m
  | S k' => lmonic a b mu k' (S m) - a k' * lmonic a b mu k' m - match k' with O => 0 | S k'' => b k' * lmonic a b mu k'' m end
  end.
(** The polynomials p_1, ..., p_n of the recurrence are orthogonal for the functional with moments [mu]:
    p_k is orthogonal to every power below its degree. *)
Definition orthogonal (a b mu : nat -> R) (n : nat) : Prop :=
  forall k m, (m < k <= n)%nat -> lmonic a b mu k m = 0.

(** Matrix entries; the symmetric tridiagonal matrix with diagonal [d] and off-diagonal [e]. *)
Definition entry (V : list (list R)) (i j : nat) : R := nth j (nth i V []) 0.
Definition tri (d e : list R) (i j : nat) : R :=
  if (i =? j)%nat then nth i d 0 else if (i =? S j)%nat then nth j e 0 else if (S i =? j)%nat then nth i e 0 else 0.
Definition sumn (n : nat) (f : nat -> R) : R := Rsum (map f (seq 0 n)).
Definition delta (i j : nat) : R := if (i =? j)%nat then 1 else 0.
(** [x] lists the eigenvalues in ascending order and the columns of [V] are orthonormal eigenvectors. *)
Definition eigen_decomposition (d e x : list R) (V : list (list R)) : Prop :=
  let n := length d in
  length x = n /\ length V = n /\ List.Forall (fun row => length row = n) V /\ Sorted Rle x /\
  (forall i k, (i < n)%nat -> (k < n)%nat -> sumn n (fun j => tri d e i j * entry V j k) = nth k x 0 * entry V i k) /\
  (forall k l, (k < n)%nat -> (l < n)%nat -> sumn n (fun j => entry V j k * entry V j l) = delta k l) /\
  (forall i j, (i < n)%nat -> (j < n)%nat -> sumn n (fun k => entry V i k * entry V j k) = delta i j).
(** Contract of scipy.linalg.eigh_tridiagonal: it finds a decomposition whenever there is one. *)
Definition eigen_solver (eigh : list R -> list R -> list R * list (list R)) : Prop :=
  forall d e, length d = S (length e) -> (exists x V, eigen_decomposition d e x V) -> eigen_decomposition d e (fst (eigh d e)) (snd (eigh d e)).
(** Entry (i, j) of the banded matrix stored as (super-diagonal, diagonal, sub-diagonal) with A_ij = ab[1 + i - j][j]. *)
Definition banded (ab : list (list R)) (i j : nat) : R :=
  if (i =? j)%nat then nth j (nth 1 ab []) 0 else if (S i =? j)%nat then nth j (nth 0 ab []) 0 else if (i =? S j)%nat then nth j (nth 2 ab []) 0 else 0.
Definition solves_banded (ab : list (list R)) (f x : list R) : Prop :=
  length x = length f /\ forall i, (i < length f)%nat -> sumn (length f) (fun j => banded ab i j * nth j x 0) = nth i f 0.
(** Contract of scipy.linalg.solve_banded((1, 1), ab, f): it finds the solution whenever there is exactly one. *)
Definition banded_solver (solve : list (list R) -> list R -> option (list R)) : Prop :=
  forall ab f x, solves_banded ab f x -> (forall y, solves_banded ab f y -> y = x) -> solve ab f = Some x.
