(** Specification vocabulary for symmetric point sets.  Nothing here refers to the model of the code. *)
From Coq Require Import Reals List Arith Permutation.
From Verif Require Import Spec.
Import ListNotations.
Open Scope R_scope.

(** The set of points O, counted with multiplicity, is mapped onto itself by g. *)
Definition invariant (g : point -> point) (O : list point) : Prop := Permutation (map g O) O.

(** Coordinate permutation: entry j of the result is entry sigma_j of p. *)
Definition permute (sigma : list nat) (p : point) : point := map (fun i => nth i p 0) sigma.
Definition is_perm (n : nat) (sigma : list nat) : Prop := Permutation sigma (seq 0 n).

(** Sign changes: coordinate j is negated where ss_j is true. *)
Fixpoint flip (ss : list bool) (p : point) : point :=
  match ss, p with
  | s :: ss', x :: p' => (if s then - x else x) :: flip ss' p'
  | _, _ => p
  end.

(** The full symmetry group of the n-cube: any coordinate permutation followed by any sign changes. *)
Definition cube_symmetric (n : nat) (O : list point) : Prop :=
  forall sigma ss, is_perm n sigma -> length ss = n -> invariant (fun p => flip ss (permute sigma p)) O.
(** Any permutation of the n coordinates. *)
Definition perm_symmetric (n : nat) (O : list point) : Prop :=
  forall sigma, is_perm n sigma -> invariant (permute sigma) O.
(** All sign changes. *)
Definition sign_symmetric (n : nat) (O : list point) : Prop :=
  forall ss, length ss = n -> invariant (flip ss) O.
(** Cyclic permutations of three coordinates. *)
Definition cyclic3_symmetric (O : list point) : Prop :=
  forall sigma, In sigma [[0; 1; 2]; [1; 2; 0]; [2; 0; 1]]%nat -> invariant (permute sigma) O.
(** Rotation of the plane by the angle phi. *)
Definition rotate (phi : R) (p : point) : point :=
  [cos phi * nth 0 p 0 - sin phi * nth 1 p 0; sin phi * nth 0 p 0 + cos phi * nth 1 p 0].
(** Rotations of the cube: signed permutations of determinant one. *)
Definition even_perms3 : list (list nat) := [[0; 1; 2]; [1; 2; 0]; [2; 0; 1]]%nat.
Definition odd_perms3 : list (list nat) := [[1; 0; 2]; [0; 2; 1]; [2; 1; 0]]%nat.
Definition odd_flips (ss : list bool) : bool := fold_right xorb false ss.
Definition rotation3_symmetric (O : list point) : Prop :=
  forall sigma ss, length ss = 3%nat ->
    (In sigma even_perms3 /\ odd_flips ss = false) \/ (In sigma odd_perms3 /\ odd_flips ss = true) ->
    invariant (fun p => flip ss (permute sigma p)) O.

Definition norm2 (p : point) : R := Rsum (map (fun x => x ^ 2) p).
Definition on_sphere (n : nat) (O : list point) : Prop := forall p, In p O -> length p = n /\ norm2 p = 1.
Definition barycentric (n : nat) (O : list point) : Prop := forall p, In p O -> length p = S n /\ Rsum p = 1.
