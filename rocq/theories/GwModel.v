(** Model of quadpy/tools/main.py:scheme_from_rc and of the one-dimensional Gauss-type rules built on it. *)
From Coq Require Import Reals List Arith ZArith Bool.
From Coquelicot Require Import Coquelicot.
From Verif Require Import Spec Spec1 AdaptModel PyBase UnModel C1Model.
Import ListNotations.
Open Scope R_scope.

(** scipy.linalg.eigh_tridiagonal(d, e): an external routine, a parameter of the model.  Returns eigenvalues and matrix of
    eigenvectors (list of rows). *)
Definition eigh_t := list R -> list R -> list R * list (list R).
(** tools/main.py:166-171 (_scheme_from_rc_numpy); np.sqrt of a negative number is nan and makes eigh_tridiagonal raise: None.
    _scheme_from_rc_mpmath (main.py:147-163) computes the same: mpmath's tridiag_eigen applied to z = (1, 0, ..., 0) returns
    the first row of the matrix of eigenvectors. *)
Definition scheme_from_rc (eigh : eigh_t) (alpha beta : list R) (int_1 : R) : option (list R * list R) :=
  let! e := opt_list rsqrt (tl beta) in
  let (x, V) := eigh alpha e in
  Some (x, map (fun v => int_1 * v ^ 2) (nth 0 V [])).
(** C1Scheme(name, degree, weights, points) from the pair (points, weights) *)
Definition c1_of (degree : Z) (pw : list R * list R) : c1_scheme := c1_scheme_of degree (snd pw) (fst pw).

(** The recurrence coefficients of the external package orthopy: rc[k] and rc.int_1, a parameter of the model. *)
Record recurrence := mk_rc { rc_alpha : nat -> R; rc_beta : nat -> R; rc_int : R }.
(** c1/_gauss_jacobi.py:8-14 and c1/_gauss_legendre.py:8-18 (mode != "numpy"), e1r/_gauss_laguerre.py:8-24,
    e1r2/_gauss_hermite.py:8-21 (mode != "numpy"); "_, a, b = np.array([rc[k] for k in range(n)]).T" raises for n = 0 *)
Definition gauss_from_rc (eigh : eigh_t) (rc : recurrence) (n : nat) : option c1_scheme :=
  if (n =? 0)%nat then None else
  let! pw := scheme_from_rc eigh (map (rc_alpha rc) (seq 0 n)) (map (rc_beta rc) (seq 0 n)) (rc_int rc) in
  Some (c1_of (2 * Z.of_nat n - 1) pw).

(** l[-1] = v *)
Definition set_last (l : list R) (v : R) : list R := removelast l ++ [v].
(** l[0] = v *)
Definition set_first (l : list R) (v : R) : list R := v :: tl l.
(** The banded storage of scipy.linalg.solve_banded((1, 1), ab, f): ab has the rows (super-diagonal with an unused first entry,
    diagonal, sub-diagonal with an unused last entry).  An external routine, a parameter of the model; numpy's LinAlgError for a
    singular matrix is None. *)
Definition banded_t := list (list R) -> list R -> option (list R).
Definition last_of (l : list R) : R := last l 0.
(** c1/_gauss_radau.py:18-41 *)
Definition radau (eigh : eigh_t) (solve_banded : banded_t) (alpha beta : list R) (int_1 xr : R) : option (list R * list R) :=
  let beta := set_first beta int_1 in
  let n := (length alpha - 1)%nat in
  let f := repeat 0 (n - 1) ++ [last_of beta] in
  let! sb := opt_list rsqrt beta in
  let A1 := map (fun a => a - xr) alpha in
  let J := [removelast sb; removelast A1; tl sb] in
  let! d := solve_banded J f in
  let alphar := set_last alpha (xr + last_of d) in
  scheme_from_rc eigh alphar beta int_1.
(** c1/_gauss_radau.py:8-15 *)
Definition gauss_radau (eigh : eigh_t) (solve_banded : banded_t) (rc : recurrence) (n : nat) : option c1_scheme :=
  if (n <? 2)%nat then None else
  let! pw := radau eigh solve_banded (map (rc_alpha rc) (seq 0 n)) (map (rc_beta rc) (seq 0 n)) (rc_int rc) (-1) in
  Some (c1_of (2 * Z.of_nat n - 1) pw).

(** scipy.linalg.solve for a 2x2 system; None when singular *)
Definition solve2 (a b c d u v : R) : option (R * R) :=
  let! x := rdiv (u * d - b * v) (a * d - b * c) in let! y := rdiv (a * v - u * c) (a * d - b * c) in Some (x, y).
(** c1/_gauss_lobatto.py:18-51 *)
Definition lobatto (eigh : eigh_t) (solve_banded : banded_t) (alpha beta : list R) (int_1 xl1 xl2 : R) : option (list R * list R) :=
  let n := (length alpha - 1)%nat in
  let en := repeat 0 (n - 1) ++ [1] in
  let! sb := opt_list rsqrt beta in
  let J1 := [removelast sb; removelast (map (fun a => a - xl1) alpha); tl sb] in
  let J2 := [removelast sb; removelast (map (fun a => a - xl2) alpha); tl sb] in
  let! g1 := solve_banded J1 en in
  let! g2 := solve_banded J2 en in
  let! ab := solve2 1 (- last_of g1) 1 (- last_of g2) xl1 xl2 in
  scheme_from_rc eigh (set_last alpha (fst ab)) (set_last beta (snd ab)) int_1.
(** c1/_gauss_lobatto.py:8-15 *)
Definition gauss_lobatto (eigh : eigh_t) (solve_banded : banded_t) (rc : recurrence) (n : nat) : option c1_scheme :=
  if (n <? 2)%nat then None else
  let! pw := lobatto eigh solve_banded (map (rc_alpha rc) (seq 0 n)) (set_first (map (rc_beta rc) (seq 0 n)) (rc_int rc)) (rc_int rc) (-1) 1 in
  Some (c1_of (2 * Z.of_nat n - 3) pw).

(* ------------------------------------------------------------------ the recurrences of orthopy *)
(** orthopy.c1.jacobi.RecurrenceCoefficients("monic", a, b): documented values for the weight (1 - x)^a (1 + x)^b.
    rc[0] has no beta (nan); it is never used. *)
Definition jacobi_alpha (a b : R) (k : nat) : R :=
  match k with
  | O => (b - a) / (a + b + 2)
  | _ => (b ^ 2 - a ^ 2) / ((2 * INR k + a + b) * (2 * INR k + a + b + 2))
  end.
Definition jacobi_beta (a b : R) (k : nat) : R :=
  match k with
  | O => 0
  | S O => 4 * (1 + a) * (1 + b) / ((2 + a + b) ^ 2 * (3 + a + b))
  | _ => 4 * INR k * (INR k + a) * (INR k + b) * (INR k + a + b) /
         ((2 * INR k + a + b) ^ 2 * (2 * INR k + a + b + 1) * (2 * INR k + a + b - 1))
  end.
Definition jacobi_rc (a b int_1 : R) : recurrence := mk_rc (jacobi_alpha a b) (jacobi_beta a b) int_1.
(** orthopy.c1.legendre: the case a = b = 0; int_1 = 2 *)
Definition legendre_rc : recurrence := mk_rc (fun _ => 0) (fun k => INR k ^ 2 / (4 * INR k ^ 2 - 1)) 2.
(** orthopy.e1r.RecurrenceCoefficients("monic", alpha): weight x^alpha exp(-x) on (0, inf) *)
Definition laguerre_rc (a int_1 : R) : recurrence := mk_rc (fun k => 2 * INR k + 1 + a) (fun k => INR k * (INR k + a)) int_1.
(** orthopy.e1r2.RecurrenceCoefficients("physicists", "monic"): weight exp(-x^2) on the real line *)
Definition hermite_rc : recurrence := mk_rc (fun _ => 0) (fun k => INR k / 2) (sqrt PI).

(* ------------------------------------------------------------------ the named Gauss rules *)
(** c1/_gauss_jacobi.py:8-14; [int_1] is rc.int_1, the integral of the weight *)
Definition gauss_jacobi (eigh : eigh_t) (a b int_1 : R) (n : nat) : option c1_scheme := gauss_from_rc eigh (jacobi_rc a b int_1) n.
(** c1/_gauss_legendre.py:8-17 (the branch through scheme_from_rc; mode "numpy" calls numpy's leggauss) *)
Definition gauss_legendre (eigh : eigh_t) (n : nat) : option c1_scheme := gauss_from_rc eigh legendre_rc n.
(** e1r/_gauss_laguerre.py:8-25 *)
Definition gauss_laguerre (eigh : eigh_t) (a int_1 : R) (n : nat) : option c1_scheme := gauss_from_rc eigh (laguerre_rc a int_1) n.
(** e1r2/_gauss_hermite.py:8-20 (the branch through scheme_from_rc) *)
Definition gauss_hermite (eigh : eigh_t) (n : nat) : option c1_scheme := gauss_from_rc eigh hermite_rc n.
