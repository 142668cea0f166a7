(** Contracts of the external matrix routines behind quadpy.tools.  Nothing in this file refers to the model of the code. *)
From Coq Require Import Reals List Arith Sorted.
From Verif Require Import Spec Spec1 GwSpec.
Import ListNotations.
Open Scope R_scope.

Definition square (m : nat) (A : list (list R)) : Prop := length A = m /\ List.Forall (fun row => length row = m) A.
Definition symmetric (m : nat) (A : list (list R)) : Prop := forall i j, (i < m)%nat -> (j < m)%nat -> entry A i j = entry A j i.

(** Q^T A Q is the symmetric tridiagonal matrix with diagonal [d] and off-diagonal [e], for an orthogonal matrix Q whose last row
    and column are those of the identity. *)
Definition tridiagonalises (A : list (list R)) (d e : list R) : Prop :=
  let m := length A in
  length d = m /\ S (length e) = m /\
  exists Q : nat -> nat -> R,
    (forall i j, (i < m)%nat -> (j < m)%nat -> sumn m (fun k => Q k i * Q k j) = delta i j) /\
    (forall i j, (i < m)%nat -> (j < m)%nat -> sumn m (fun k => Q i k * Q j k) = delta i j) /\
    (forall i, (i < m)%nat -> Q i (m - 1)%nat = delta i (m - 1) /\ Q (m - 1)%nat i = delta i (m - 1)) /\
    (forall i j, (i < m)%nat -> (j < m)%nat -> sumn m (fun k => sumn m (fun l => Q k i * entry A k l * Q l j)) = tri d e i j).
(** Contract of LAPACK's sytrd (upper triangle): it reduces every symmetric matrix that can be reduced so. *)
Definition tridiagonal_reducer (sytrd : list (list R) -> option (list R * list R)) : Prop :=
  forall m A, (1 <= m)%nat -> square m A -> symmetric m A -> (exists d e, tridiagonalises A d e) -> exists d e, sytrd A = Some (d, e) /\ tridiagonalises A d e.

(** [v] is an eigenvector of A for the number r. *)
Definition eigenvector (A : list (list R)) (r : R) (v : list R) : Prop :=
  let m := length A in
  length v = m /\ (exists i, (i < m)%nat /\ nth i v 0 <> 0) /\ forall i, (i < m)%nat -> sumn m (fun j => entry A i j * nth j v 0) = r * nth i v 0.
(** The list of vectors is linearly independent. *)
Definition independent (m : nat) (vs : list (list R)) : Prop :=
  forall c : nat -> R, (forall i, (i < m)%nat -> sumn (length vs) (fun k => c k * nth i (nth k vs []) 0) = 0) -> forall k, (k < length vs)%nat -> c k = 0.
(** All eigenvalues of the symmetric matrix A, each once and in any order, with its multiplicity and a basis of its eigenvectors. *)
Definition eigen_list (A : list (list R)) (items : list (R * nat * list (list R))) : Prop :=
  NoDup (map (fun it => fst (fst it)) items) /\
  (forall r v, eigenvector A r v -> In r (map (fun it => fst (fst it)) items)) /\
  (forall r mult vs, In (r, mult, vs) items ->
     length vs = mult /\ (1 <= mult)%nat /\ independent (length A) vs /\ forall v, In v vs -> eigenvector A r v).
(** Contract of sympy's Matrix.eigenvects for symmetric matrices. *)
Definition eigenvects_solver (eigenvects : list (list R) -> list (R * nat * list (list R))) : Prop :=
  forall m A, square m A -> symmetric m A -> (exists items, eigen_list A items) -> eigen_list A (eigenvects A).

(** Contract of mpmath's tridiag_eigen(d, e, z): [d] is replaced by the eigenvalues in ascending order and the row [z] by z V; the
    last entry of [e] is only workspace. *)
Definition row_eigen_solver (tridiag_eigen : list R -> list R -> list R -> list R * list R) : Prop :=
  forall d e z, length d = length e -> length z = length d -> (1 <= length d)%nat -> (exists x V, eigen_decomposition d (removelast e) x V) ->
  exists V, eigen_decomposition d (removelast e) (fst (tridiag_eigen d e z)) V /\
    snd (tridiag_eigen d e z) = map (fun k => sumn (length d) (fun j => nth j z 0 * entry V j k)) (seq 0 (length d)).
