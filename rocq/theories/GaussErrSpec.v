(** The square of the polynomial whose zeros are the points of a rule.  Nothing in this file refers to the model of the code. *)
From Coq Require Import Reals List.
From Verif Require Import Spec Spec1.
Import ListNotations.
Open Scope R_scope.

(** (x - x_1)^2 ... (x - x_n)^2 *)
Definition nodal_square (q : rule1) (x : R) : R := fold_right (fun wx r => (x - snd wx) ^ 2 * r) 1 q.
(** (a + 1) (a + 2) ... (a + n) *)
Fixpoint rising (a : R) (n : nat) : R := match n with O => 1 | S k => rising a k * (a + INR n) end.
