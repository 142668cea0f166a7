(** Floating point numbers: IEEE 754 binary64 with round to nearest, ties to even.  Underflow is included; the exponent is not
    bounded above, so a computation that overflows is not covered. *)
From Coq Require Import Reals ZArith.
From Flocq Require Import Core.
Open Scope R_scope.

Definition fexp64 : Z -> Z := FLT_exp (-1074) 53.
(** [x] is a binary64 number: an integer multiple of 2^-1074 with 53 significant bits *)
Definition float64 (x : R) : Prop := generic_format radix2 fexp64 x.
(** the binary64 number nearest to [x] *)
Definition rnd (x : R) : R := round radix2 fexp64 ZnearestE x.
(** half the distance from 1 to the next number, and half the smallest positive number *)
Definition u64 : R := / 2 ^ 53.
Definition eta64 : R := / 2 ^ 1075.
(** growth of k relative errors *)
Definition gamma (k : nat) : R := (1 + u64) ^ k - 1.
