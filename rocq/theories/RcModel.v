(** Model of quadpy/tools/main.py: coefficients_from_gauss and the three modes of scheme_from_rc. *)
From Coq Require Import Reals List Arith ZArith Bool.
From Verif Require Import Spec Spec1 AdaptModel PyBase UnModel C1Model GwModel.
Import ListNotations.
Open Scope R_scope.

(** scipy.linalg.lapack sytrd(A): an external routine, a parameter of the model; None when info != 0. *)
Definition sytrd_t := list (list R) -> option (list R * list R).
(** tools/main.py:54-62: the matrix with the points on the diagonal, the square roots of the weights in the last row and column
    and 1 in the corner.  [float(...)] on the inputs (main.py:50-52) is the identity here. *)
Definition gauss_matrix (points sq : list R) : list (list R) :=
  map (fun i => map (fun j => if (i =? j)%nat then nth i points 0 else 0) (seq 0 (length points)) ++ [nth i sq 0]) (seq 0 (length points))
  ++ [sq ++ [1]].
(** tools/main.py:40-80.  A weight whose square root is nan makes every result nan: None; so do the failing assertions and the
    IndexError of beta[0] for an empty rule.  beta[0] = nan is [None] in the list of betas.  Result: alpha, beta, int_1. *)
Definition coefficients_from_gauss (sytrd : sytrd_t) (points weights : list R) : option (list R * list (option R) * R) :=
  guard (length points =? length weights)%nat
  (let! sq := opt_list rsqrt weights in
   let! (d, e) := sytrd (gauss_matrix points sq) in
   let alpha := rev (removelast d) in
   let beta := map (fun v => v ^ 2) (rev e) in
   match beta with
   | [] => None
   | int_1 :: b => Some (alpha, None :: map Some b, int_1)
   end).

(** sympy.Matrix.eigenvects: a list of (eigenvalue, multiplicity, eigenvectors); an external routine. *)
Definition eigenvects_t := list (list R) -> list (R * nat * list (list R)).
(** tools/main.py:83-93 *)
Definition sympy_tridiag (a b : list R) : list (list R) :=
  map (fun i => map (fun j => if (i =? j)%nat then nth i a 0 else if (S i =? j)%nat then nth j b 0 else if (i =? S j)%nat then nth i b 0 else 0) (seq 0 (length a))) (seq 0 (length a)).
(** main.py:141-143 sorted(range(len(x)), key=lambda i: x[i]), applied to the pairs (x[i], w[i]); Python's sort is stable *)
Fixpoint insert_by_x (p : R * R) (l : list (R * R)) : list (R * R) :=
  match l with
  | [] => [p]
  | q :: l' => if Rle_dec (fst p) (fst q) then p :: l else q :: insert_by_x p l'
  end.
Definition sort_by_x (l : list (R * R)) : list (R * R) := fold_right insert_by_x [] l.
(** tools/main.py:130-139: one entry of eigenvects *)
Definition sympy_item (beta0 : R) (it : R * nat * list (list R)) : option (R * R) :=
  let '(val, multiplicity, vec) := it in
  guard (multiplicity =? 1)%nat
  (match vec with
   | [vec] => let! w := rdiv (beta0 * nth 0 vec 0 ^ 2) (Rsum (map (fun v => v ^ 2) vec)) in Some (val, w)
   | _ => None
   end).
(** l[0] = v, an IndexError for an empty array *)
Definition assign0 (l : list R) (v : R) : option (list R) := match l with [] => None | _ :: l' => Some (v :: l') end.
(** tools/main.py:121-144.  sympy.sqrt of a negative beta is a complex number: None, except for beta[0], whose square root is not
    used by _sympy_tridiag (0 stands for it here).  The length assertion is main.py:86.  Returns the new content of the array [beta] as well: "beta[0] = int_1" writes to the
    array passed by the caller. *)
Definition scheme_from_rc_sympy (eigenvects : eigenvects_t) (alpha beta : list R) (int_1 : R) : option (list R * list R * list R) :=
  let! beta := assign0 beta int_1 in
  let! sb := opt_list rsqrt (tl beta) in
  guard (length alpha =? length beta)%nat
  (let A := sympy_tridiag alpha (0 :: sb) in
   let! xw := opt_list (sympy_item int_1) (eigenvects A) in
   let xw := sort_by_x xw in
   Some (map fst xw, map snd xw, beta)).

(** mpmath tridiag_eigen(mp, d, b, z): overwrites d and z; an external routine.  Result: (d, z). *)
Definition tridiag_eigen_t := list R -> list R -> list R -> list R * list R.
(** tools/main.py:147-163 *)
Definition scheme_from_rc_mpmath (tridiag_eigen : tridiag_eigen_t) (alpha beta : list R) (int_1 : R) : option (list R * list R) :=
  let n := length alpha in
  let! b := opt_list (fun i => if (i + 1 <? length beta)%nat then rsqrt (nth (i + 1) beta 0) else None) (seq 0 (n - 1)) in
  guard (1 <=? n)%nat
  (let (d, z) := tridiag_eigen alpha (b ++ [0]) (1 :: repeat 0 (n - 1)) in
   Some (d, map (fun ww => int_1 * ww ^ 2) z)).

(** The values of the argument [mode]. *)
Inductive rc_mode := no_mode | sympy_mode | numpy_mode | mpmath_mode | other_mode.
(** tools/main.py:96-115.  [is_float]: the dtype of alpha is float32 or float64.  [beta] is an ndarray, so np.asarray does not copy
    it.  Result: points, weights, and the content of the caller's beta afterwards. *)
Definition scheme_from_rc_py (eigh : eigh_t) (eigenvects : eigenvects_t) (tridiag_eigen : tridiag_eigen_t)
  (is_float : bool) (mode : rc_mode) (alpha beta : list R) (int_1 : R) : option (list R * list R * list R) :=
  let! mode := match mode with no_mode => if is_float then Some numpy_mode else None | m => Some m end in
  match mode with
  | sympy_mode => scheme_from_rc_sympy eigenvects alpha beta int_1
  | numpy_mode => let! (x, w) := scheme_from_rc eigh alpha beta int_1 in Some (x, w, beta)
  | mpmath_mode => let! (x, w) := scheme_from_rc_mpmath tridiag_eigen alpha beta int_1 in Some (x, w, beta)
  | _ => None
  end.
