(** What is claimed of a scheme constructor without parameters. *)
From Coq Require Import Reals List Arith.
From Verif Require Import Spec PyBase.
Import ListNotations.
Open Scope R_scope.

(** The call [r] returns a scheme that declares degree [d], all its points have [nc] coordinates, and its rule gives the
    value [M] for every monomial in [nc] variables of total degree at most [d]. *)
Definition delivers (M : (point -> R) -> R) (nc d : nat) (r : option scheme) : Prop :=
  exists s, r = Some s /\ s_degree s = d /\
    List.Forall (fun wp => length (snd wp) = nc) (s_rule s) /\
    forall k, length k = nc -> (tdeg k <= d)%nat -> apply (s_rule s) (mono k) = M (mono k).
