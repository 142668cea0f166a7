(** C64, C67: the schemes for the unit sphere in three dimensions and their spherical coordinates.
    [delivers M n d r] (FixSpec.v): the call [r] returns a scheme which declares degree d and gives exactly the mean value M
    of every monomial in n variables of total degree at most d; [sphere_mean] is in SphereSpec.v, [sphere_point] and
    [on_unit_sphere] in SphericalSpec.v, [root_finder] (what mp.polyroots promises) in RootSpec.v. *)
From Coq Require Import Reals List Arith ZArith Lia Lra.
From Verif Require Import Spec IntegralSpec SphereSpec SphericalSpec RootSpec RootSat PyBase FixSpec RoundSpec RoundModel U3Model U3Proofs U3Cubic U3Sphere SphericalModel SphericalProofs PropRound.
Import ListNotations.
Set Bullet Behavior "Strict Subproofs".
Open Scope R_scope.

(* ------------------------------------------------------------------ C64 *)
Theorem C64_sphere : List.Forall (fun c => delivers (sphere_mean 3) 3 (fst c) (snd c))
    [(5, u3_albrecht_collatz_1); (5, u3_albrecht_collatz_2); (5, u3_albrecht_collatz_3); (5, u3_albrecht_collatz_4);
     (7, u3_albrecht_collatz_5); (3, u3_mclaren_01); (5, u3_mclaren_02); (9, u3_mclaren_05);
     (9, u3_mclaren_06); (9, u3_mclaren_07); (11, u3_mclaren_08); (11, u3_mclaren_09)]%nat.
Proof.
  constructor; [exact u3_albrecht_collatz_1_ok|].
  constructor; [exact u3_albrecht_collatz_2_ok|].
  constructor; [exact u3_albrecht_collatz_3_ok|].
  constructor; [exact u3_albrecht_collatz_4_ok|].
  constructor; [exact u3_albrecht_collatz_5_ok|].
  constructor; [exact u3_mclaren_01_ok|].
  constructor; [exact u3_mclaren_02_ok|].
  constructor; [exact u3_mclaren_05_ok|].
  constructor; [exact u3_mclaren_06_ok|].
  constructor; [exact u3_mclaren_07_ok|].
  constructor; [exact u3_mclaren_08_ok|].
  constructor; [exact u3_mclaren_09_ok|].
  constructor.
Qed.
Print Assumptions C64_sphere.
(** mclaren_03 and mclaren_04 take their coordinates from the roots of a cubic. *)
Theorem C64_mclaren_03 : forall roots, root_finder roots -> delivers (sphere_mean 3) 3 7 (u3_mclaren_03 roots).
Proof. exact u3_mclaren_03_ok. Qed.
Print Assumptions C64_mclaren_03.
Theorem C64_mclaren_04 : forall roots, root_finder roots -> delivers (sphere_mean 3) 3 8 (u3_mclaren_04 roots).
Proof. exact u3_mclaren_04_ok. Qed.
Print Assumptions C64_mclaren_04.
Example C64_ex : exists roots, delivers (sphere_mean 3) 3 7 (u3_mclaren_03 roots).
Proof. destruct root_finder_exists as [roots H]. exists roots. apply C64_mclaren_03; auto. Qed.

(* ------------------------------------------------------------------ C67 *)
(** The polar angle is in [0, PI], the azimuth in (-PI, PI], and they name the point they were computed from. *)
Theorem C67_coordinates : forall X, length X = 3%nat -> on_unit_sphere X ->
  0 <= fst (cartesian_to_spherical X) <= PI /\ - PI < snd (cartesian_to_spherical X) <= PI /\
  sphere_point (fst (cartesian_to_spherical X)) (snd (cartesian_to_spherical X)) = X.
Proof. intros X L H. split; [apply acos_range|]. split; [apply atan2_range|]. apply spherical_point; auto. Qed.
Print Assumptions C67_coordinates.
Example C67_ex_coordinates : on_unit_sphere [-3/5; 0; 4/5] /\ on_unit_sphere [0; 0; -1].
Proof. split; unfold on_unit_sphere; cbn; lra. Qed.
(** integrate_spherical(f) is integrate(g) on the unit sphere for the function g with g(x) = f(theta, phi). *)
Theorem C67_integrate_spherical : forall q f g,
  List.Forall (fun wp => length (snd wp) = 3%nat /\ on_unit_sphere (snd wp)) q ->
  (forall theta phi, 0 <= theta <= PI -> - PI < phi <= PI -> f theta phi = g (sphere_point theta phi)) ->
  u3_integrate_spherical q f = u3_integrate q g [0; 0; 0] 1.
Proof.
  intros q f g H E. rewrite <- integrate_spherical_ok by auto. unfold u3_integrate_spherical, theta_phi. f_equal. f_equal.
  apply map_ext_in. intros [w [th ph]] Hin. apply in_map_iff in Hin. destruct Hin as [[w' X] [Ei _]]. injection Ei as <- <- <-.
  cbn [fst snd]. f_equal. apply E; [apply acos_range|apply atan2_range].
Qed.
Print Assumptions C67_integrate_spherical.
(** So integrate_spherical is exact for every polynomial up to the degree of the rule. *)
Theorem C67_exact : forall d q p f, points_in_dim 3 q -> List.Forall (fun wp => on_unit_sphere (snd wp)) q ->
  (forall k, length k = 3%nat -> (tdeg k <= d)%nat -> apply q (mono k) = sphere_mean 3 (mono k)) -> mp_ok 3 d p ->
  (forall theta phi, f theta phi = mpeval p (sphere_point theta phi)) ->
  u3_integrate_spherical q f = sphere_int_at [0; 0; 0] 1 (mpeval p).
Proof.
  intros d q p f Hq U HM Hp Hf. rewrite (C67_integrate_spherical q f (mpeval p)); [|apply List.Forall_forall; intros wp Hin; split; [unfold points_in_dim in Hq; rewrite List.Forall_forall in Hq; apply Hq; auto|rewrite List.Forall_forall in U; apply U; auto]|auto].
  exact (C43_circle_and_sphere2 d q [0; 0; 0] 1 p 3 (or_intror eq_refl) Hq HM eq_refl Hp).
Qed.
Print Assumptions C67_exact.
(** The points of the schemes are on the unit sphere. *)
Theorem C67_on_sphere : List.Forall on_sphere
    [u3_albrecht_collatz_1; u3_albrecht_collatz_2; u3_albrecht_collatz_3; u3_albrecht_collatz_4;
     u3_albrecht_collatz_5; u3_mclaren_01; u3_mclaren_02; u3_mclaren_05;
     u3_mclaren_06; u3_mclaren_07; u3_mclaren_08; u3_mclaren_09].
Proof.
  constructor; [exact u3_albrecht_collatz_1_sphere|].
  constructor; [exact u3_albrecht_collatz_2_sphere|].
  constructor; [exact u3_albrecht_collatz_3_sphere|].
  constructor; [exact u3_albrecht_collatz_4_sphere|].
  constructor; [exact u3_albrecht_collatz_5_sphere|].
  constructor; [exact u3_mclaren_01_sphere|].
  constructor; [exact u3_mclaren_02_sphere|].
  constructor; [exact u3_mclaren_05_sphere|].
  constructor; [exact u3_mclaren_06_sphere|].
  constructor; [exact u3_mclaren_07_sphere|].
  constructor; [exact u3_mclaren_08_sphere|].
  constructor; [exact u3_mclaren_09_sphere|].
  constructor.
Qed.
Print Assumptions C67_on_sphere.
Theorem C67_on_sphere_roots : forall roots, root_finder roots -> on_sphere (u3_mclaren_03 roots) /\ on_sphere (u3_mclaren_04 roots).
Proof. intros roots H. split; [apply u3_mclaren_03_sphere|apply u3_mclaren_04_sphere]; auto. Qed.
Print Assumptions C67_on_sphere_roots.
