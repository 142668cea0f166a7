(** Contracts of the numerical root finders that the code calls. *)
From Coq Require Import Reals List Sorted.
From Verif Require Import Spec TnModel.
Import ListNotations.
Open Scope R_scope.

(** [l] lists, in increasing order and with multiplicity, all roots of the polynomial with coefficients [c]
    (highest power first), when they are all real. *)
Definition all_real_roots (c l : list R) : Prop :=
  Sorted Rle l /\ length c = S (length l) /\
  exists a, a <> 0 /\ forall x, poly_val c x = a * fold_right Rmult 1 (map (fun r => x - r) l).

(** np.roots / mp.polyroots followed by np.sort: finds the roots whenever they are all real. *)
Definition root_finder (roots : list R -> list R) : Prop :=
  forall c l, all_real_roots c l -> all_real_roots c (roots c).

(** Smallest real root, whenever there is one. *)
Definition min_root_finder (min_root : list R -> R) : Prop :=
  forall c x, poly_val c x = 0 -> (exists y, poly_val c y <> 0) ->
    poly_val c (min_root c) = 0 /\ forall y, poly_val c y = 0 -> min_root c <= y.

(** [w] solves the linear system A w = b, row by row. *)
Definition solves (A : list (list R)) (w b : list R) : Prop :=
  length w = length b /\
  map (fun row => Rsum (map (fun e => fst e * snd e) (List.combine row w))) A = b.

(** np.linalg.solve: finds the solution whenever there is exactly one. *)
Definition linear_solver (solve : list (list R) -> list R -> list R) : Prop :=
  forall A b w, solves A w b -> (forall w', solves A w' b -> w' = w) -> solve A b = w.
