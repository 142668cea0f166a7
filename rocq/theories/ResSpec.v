(** Spherical harmonics as orthopy evaluates them (C90). *)
From Coq Require Import Reals List Arith.
From Verif Require Import Spec IntegralSpec SphereSpec ConvNdSpec.
Import ListNotations.
Open Scope R_scope.

(** What an evaluator yields one after the other: for each level a list of complex functions, as their real and imaginary parts. *)
Definition evaluator := nat -> list ((point -> R) * (point -> R)).
Definition parts (ev : evaluator) (k : nat) : list (point -> R) := flat_map (fun h => [fst h; snd h]) (ev k).
(** The contract: each level has functions, those of level 0 have the integral [int_p0] over the unit sphere and all the others 0, those of level k are
    polynomials of degree at most k on the sphere, and each monomial of degree k is there a linear combination of the functions up to level k. *)
Definition spherical_harmonics (ev : evaluator) (int_p0 : R) : Prop :=
  (forall k, ev k <> []) /\
  (forall h, In h (ev 0%nat) -> sphere_int 3 (fst h) = int_p0 /\ sphere_int 3 (snd h) = 0) /\
  (forall k g, (1 <= k)%nat -> In g (parts ev k) -> sphere_int 3 g = 0) /\
  (forall k g, In g (parts ev k) -> exists p, mp_ok 3 k p /\ forall x, on_sphere 3 x -> g x = mpeval p x) /\
  (forall e, length e = 3%nat -> exists cs, Forall (fun cg => exists j, (j <= tdeg e)%nat /\ In (snd cg) (parts ev j)) cs /\
     forall x, on_sphere 3 x -> mono e x = Rsum (map (fun cg => fst cg * snd cg x) cs)).
