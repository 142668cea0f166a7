(** Schemes that declare less than their source claims.  Nothing in this file refers to the code. *)
From Coq Require Import Reals List Arith.
From Verif Require Import Spec PyBase.
Import ListNotations.
Open Scope R_scope.

(** The call returns a scheme whose rule is wrong on a monomial of total degree [d]: no degree from [d] on can be declared. *)
Definition falls_short (M : (point -> R) -> R) (nc d : nat) (r : option scheme) : Prop :=
  exists s k, r = Some s /\ length k = nc /\ tdeg k = d /\ apply (s_rule s) (mono k) <> M (mono k).
(** Monomials x^i y^j that are even in x or even in y. *)
Definition even_somewhere (k : list nat) : Prop := exists i j, k = [i; j] /\ (Nat.Even i \/ Nat.Even j).
(** The call returns a scheme for the plane that is right on every such monomial up to degree [d]. *)
Definition symmetric_degree (M : (point -> R) -> R) (d : nat) (r : option scheme) : Prop :=
  exists s, r = Some s /\ forall k, even_somewhere k -> (tdeg k <= d)%nat -> apply (s_rule s) (mono k) = M (mono k).
