(** What a scheme given by decimal numbers promises: exactness up to its own tolerance.  Nothing in this file refers to the code of
    the schemes. *)
From Coq Require Import Reals List Arith.
From Verif Require Import Spec PyBase.
Import ListNotations.
Open Scope R_scope.

(** The constructor returns a scheme that declares degree [d] and some [test_tolerance]; all its points have [nc] coordinates; and
    for every polynomial in [nc] variables of degree at most [d] the value of the rule differs from the value [M] by at most
    [c] * test_tolerance * (the sum of the absolute values of the coefficients). *)
Definition reaches (c : R) (M : (point -> R) -> R) (nc d : nat) (r : option (scheme * R)) : Prop :=
  exists s tol, r = Some (s, tol) /\ s_degree s = d /\ 0 < tol /\
    List.Forall (fun wp => length (snd wp) = nc) (s_rule s) /\
    forall p, mp_ok nc d p -> Rabs (apply (s_rule s) (mpeval p) - M (mpeval p)) <= c * tol * Rsum (map (fun ck => Rabs (fst ck)) p).
(** Some monomial of degree at most [d] is missed by more than [c] * test_tolerance. *)
Definition misses (c : R) (M : (point -> R) -> R) (nc d : nat) (r : option (scheme * R)) : Prop :=
  exists s tol k, r = Some (s, tol) /\ s_degree s = d /\ length k = nc /\ (tdeg k <= d)%nat /\
    c * tol < Rabs (apply (s_rule s) (mono k) - M (mono k)).
