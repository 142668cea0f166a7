(** Model of quadpy/c1/_gauss_kronrod.py:23-101 (gauss_kronrod and _r_kronrod).
    The arithmetic of _r_kronrod is a parameter, so that the same function runs on reals (the model of the code, floats being
    exact reals) and on rationals (to evaluate it).  Arrays are functions from indices; every index used lies within the bounds
    of the numpy array (see the comments below), so no IndexError is lost, except for n = 0, which is modelled.
    A division by zero gives inf or nan, which eigh_tridiagonal rejects: None. *)
From Coq Require Import Reals List Arith ZArith Bool.
From Verif Require Import Spec Spec1 AdaptModel PyBase UnModel C1Model GwModel.
Import ListNotations.

Section Algorithm.
Context {F : Type} (zero : F) (add sub mul : F -> F -> F) (div : F -> F -> option F).
Local Infix "+!" := add (at level 50, left associativity).
Local Infix "-!" := sub (at level 50, left associativity).
Local Infix "*!" := mul (at level 40, left associativity).

Definition array := nat -> F.
(** v[i] = x *)
Definition set (v : array) (i : nat) (x : F) : array := fun j => if (j =? i)%nat then x else v j.
(** v[is] = xs for an index array without repetitions *)
Definition set_many (v : array) (is : list nat) (xs : list F) : array :=
  fold_left (fun v ix => set v (fst ix) (snd ix)) (List.combine is xs) v.
(** np.cumsum *)
Fixpoint cumsum_from (acc : F) (l : list F) : list F :=
  match l with [] => [] | x :: l' => (acc +! x) :: cumsum_from (acc +! x) l' end.
Definition cumsum (l : list F) : list F := match l with [] => [] | x :: l' => x :: cumsum_from x l' end.
(** v[:k] = v0[:k] for an array of zeros *)
Definition prefix (k : nat) (v0 : array) : array := fun i => if (i <? k)%nat then v0 i else zero.

(** _gauss_kronrod.py:70-78, one pass of the first loop; returns the pair after the swap.  Indices: k <= n / 2, so
    k + n + 1 <= 2 n and k + 1 < len(s). *)
Definition eastward (n : nat) (a b : array) (m : nat) (st : array * array) : array * array :=
  let (s, t) := st in
  let k0 := ((m + 1) / 2)%nat in
  let ks := rev (seq 0 (S k0)) in
  let s' := set_many s (map (fun k => (k + 1)%nat) ks)
    (cumsum (map (fun k => let L := (m - k)%nat in
       (a (k + n + 1)%nat -! a L) *! t (k + 1)%nat +! b (k + n + 1)%nat *! s k -! b L *! s (k + 1)%nat) ks)) in
  (t, s').
(** _gauss_kronrod.py:82-98, one pass of the second loop *)
Definition southward (n m : nat) (st : (array * array) * (array * array)) : option ((array * array) * (array * array)) :=
  let '((a, b), (s, t)) := st in
  let k0 := (m + 1 - n)%nat in
  let k1 := ((m - 1) / 2)%nat in
  let ks := seq k0 (k1 + 1 - k0) in
  let j_of := fun k => let L := (m - k)%nat in (n - 1 - L)%nat in
  let s' := set_many s (map (fun k => (j_of k + 1)%nat) ks)
    (cumsum (map (fun k => let L := (m - k)%nat in let j := j_of k in
       (zero -! (a (k + n + 1)%nat -! a L)) *! t (j + 1)%nat -! b (k + n + 1)%nat *! s (j + 1)%nat +! b L *! s (j + 2)%nat) ks)) in
  let j := j_of k1 in
  let k := ((m + 1) / 2)%nat in
  if Nat.even m then
    let! q := div (s' (j + 1)%nat -! b (k + n + 1)%nat *! s' (j + 2)%nat) (t (j + 2)%nat) in
    Some ((set a (k + n + 1) (a k +! q), b), (t, s'))
  else
    let! q := div (s' (j + 1)%nat) (s' (j + 2)%nat) in
    Some ((a, set b (k + n + 1) q), (t, s')).
(** l-value of a for loop over a range, with an early exit *)
Fixpoint loop {S} (body : nat -> S -> option S) (r : list nat) (st : S) : option S :=
  match r with [] => Some st | m :: r' => let! st' := body m st in loop body r' st' end.

(** _gauss_kronrod.py:56-101; a0 and b0 are used up to the index ceil(3 n / 2).  b[n + 1] raises IndexError for n = 0. *)
Definition r_kronrod (n : nat) (a0 b0 : array) : option (array * array) :=
  if (n =? 0)%nat then None else
  let a := prefix (3 * n / 2 + 1) a0 in
  let b := prefix ((3 * n + 1) / 2 + 1) b0 in
  let s := fun _ => zero in
  let t := set (fun _ => zero) 1 (b (n + 1)%nat) in
  let (s, t) := fold_left (fun st m => eastward n a b m st) (seq 0 (n - 1)) (s, t) in
  let j := (n / 2 + 1)%nat in
  let s := fun i => if ((1 <=? i) && (i <? j + 1))%nat then s (i - 1)%nat else s i in
  let! st := loop (southward n) (seq (n - 1) (n - 1)) ((a, b), (s, t)) in
  let '((a, b), (s, t)) := st in
  let! q := div (b (2 * n)%nat *! s 1%nat) (t 1%nat) in
  Some (set a (2 * n) (a (n - 1)%nat -! q), b).
End Algorithm.

Open Scope R_scope.
(** _gauss_kronrod.py:42-53.  scheme_from_rc returns the points in ascending order (that is what eigh_tridiagonal does), so
    sorting them again (np.argsort) changes nothing and is left out. *)
Definition gauss_kronrod (eigh : eigh_t) (rc : recurrence) (n : nat) : option c1_scheme :=
  let length := ((3 * n + 1) / 2 + 1)%nat in
  let degree := (2 * Z.of_nat length + 1)%Z in
  let beta := fun k => match k with O => rc_int rc | _ => rc_beta rc k end in
  let! ab := r_kronrod 0 Rplus Rminus Rmult rdiv n (rc_alpha rc) beta in
  let! pw := scheme_from_rc eigh (map (fst ab) (seq 0 (2 * n + 1))) (map (snd ab) (seq 0 (2 * n + 1))) (rc_int rc) in
  Some (c1_of degree pw).
