(** Shared vocabulary of the model: exceptions as [option], partial arithmetic, schemes. *)
From Coq Require Import Reals List Arith.
From Verif Require Import Spec CombModel.
Import ListNotations.
Open Scope R_scope.

(** A Python computation that may raise (AssertionError, ZeroDivisionError, complex result of a square
    root that [astype(float64)] in quadpy/helpers/_class.py:28-40 rejects, ...) is an [option]. *)
Definition bind {A B} (x : option A) (f : A -> option B) : option B :=
  match x with Some a => f a | None => None end.
Notation "'let!' x := e 'in' f" := (bind e (fun x => f))
  (at level 200, x pattern, e at level 100, f at level 200, format "'[v' 'let!'  x  :=  e  'in' '/' f ']'").
(** [guard b f]: assert b, then continue with f. *)
Definition guard {A} (b : bool) (f : option A) : option A := if b then f else None.

(** [sqrt] of a negative number has no real value. *)
Definition rsqrt (x : R) : option R := if Rle_dec 0 x then Some (sqrt x) else None.
(** Division raises (or yields a non-number) for a zero denominator. *)
Definition rdiv (a b : R) : option R := if Req_EM_T b 0 then None else Some (a / b).

(** The part of a QuadratureScheme object that integration uses: quadpy/helpers/_class.py:7-40.
    Weights and points are exact reals here; the code stores their float64 roundings.
    [points] in the code is the transposed array; a rule pairs weight i with column i. *)
Record scheme := mk_scheme { s_dim : nat; s_rule : rule; s_degree : nat }.

Definition mk_rule (pw : list point * list R) : rule := List.combine (snd pw) (fst pw).

(** The combinatorial generators at real values; 0 and unary minus are those of R. *)
Definition Reqz (x : R) : bool := if Req_EM_T x 0 then true else false.
Definition Rz : nat -> list point := z 0.
Definition Rfsd : nat -> list (R * nat) -> option (list point) := fsd 0 Ropp.
Definition Rrd : nat -> list (R * nat) -> option (list point) := rd 0.
Definition Rpm : point -> list point := pm 0 Ropp Reqz.
Definition Rpm_roll : point -> list point := pm_roll 0 Ropp Reqz.
Definition Rfs_array : point -> list point := fs_array Ropp.
