(** What a pyramid scheme given by decimal numbers promises. *)
From Coq Require Import Reals List Arith.
From Verif Require Import Spec PyBase GeomModel PyraModel IntegralSpec PyraSpec.
Import ListNotations.
Open Scope R_scope.

(** The call returns a scheme of declared degree [d] and a test_tolerance; for every pyramid o + x a + y b + z c with a
    parallelogram as base and every function [f] that is a polynomial [p] of degree at most [d] in x, y, z, the result of integrate
    differs from the integral by at most [k] * test_tolerance * |det (a, b, c)| * (the sum of the absolute values of the
    coefficients of [p]). *)
Definition reaches_pyramid (k : R) (d : nat) (r : option (scheme * R)) : Prop :=
  exists s tol, r = Some (s, tol) /\ s_degree s = d /\ 0 < tol /\
    forall o a b c p f, length a = 3%nat -> length b = 3%nat -> length c = 3%nat -> mp_ok 3 d p ->
      (forall xi, length xi = 3%nat -> f (affine o a b c xi) = mpeval p xi) ->
      Rabs (p3_integrate (s_rule s) f (pyramid_vertices o a b c) - pyramid_integral o a b c f)
        <= k * tol * Rabs (det 3 [a; b; c]) * Rsum (map (fun ck => Rabs (fst ck)) p).
