(** Moments of the closed-form schemes of quadpy/u3. *)
From Coq Require Import Reals List Arith ZArith Lia Lra String QArith Qreals.
From Verif Require Import Spec RsumLemmas IntegralSpec SphereSpec PyBase SymmModel OrbitModel SchemeTools Tower TowerSym TowerMoments FixSpec FixTools S2Model U3Model.
Import ListNotations.
Set Bullet Behavior "Strict Subproofs".
Open Scope R_scope.

(** Name the square roots of the orbits a2 and a3. *)
Ltac name_sqrt n :=
  let P := fresh "P" in let H := fresh "H" in let q := fresh "q" in
  pose proof (sqrt_pos n) as P; assert (H : sqrt n * sqrt n = n) by (apply sqrt_sqrt; lra); set (q := sqrt n) in *; clearbody q.
Ltac u3_go :=
  repeat fix_step;
  eapply delivers_run; [lazy -[Rplus Rmult Rminus Ropp Rdiv Rinv IZR pow sqrt PI cos sin]; reflexivity|];
  try name_sqrt 2; try name_sqrt 3;
  apply delivers_intro; [reflexivity|]; cbn [s_rule];
  let env := tw_env in tower_best 2%nat env (sphereQ 3); [intros; apply sphereQ_ok; auto].
Lemma u3_albrecht_collatz_1_ok : delivers (sphere_mean 3) 3 5 u3_albrecht_collatz_1.
Proof. unfold u3_albrecht_collatz_1. fix_step. bounds r (22/10) (23/10). u3_go. Qed.
Lemma u3_albrecht_collatz_2_ok : delivers (sphere_mean 3) 3 5 u3_albrecht_collatz_2.
Proof. unfold u3_albrecht_collatz_2. u3_go. Qed.
Lemma u3_albrecht_collatz_3_ok : delivers (sphere_mean 3) 3 5 u3_albrecht_collatz_3.
Proof. unfold u3_albrecht_collatz_3. u3_go. Qed.
Lemma u3_albrecht_collatz_4_ok : delivers (sphere_mean 3) 3 5 u3_albrecht_collatz_4.
Proof. unfold u3_albrecht_collatz_4. fix_step. bounds r (22/10) (23/10). u3_go. Qed.
Lemma u3_albrecht_collatz_5_ok : delivers (sphere_mean 3) 3 7 u3_albrecht_collatz_5.
Proof. unfold u3_albrecht_collatz_5. u3_go. Qed.
Lemma u3_mclaren_01_ok : delivers (sphere_mean 3) 3 3 u3_mclaren_01.
Proof. unfold u3_mclaren_01. u3_go. Qed.
Lemma u3_mclaren_02_ok : delivers (sphere_mean 3) 3 5 u3_mclaren_02.
Proof. unfold u3_mclaren_02. cbv zeta. u3_go. Qed.
Lemma u3_mclaren_05_ok : delivers (sphere_mean 3) 3 9 u3_mclaren_05.
Proof. unfold u3_mclaren_05. cbv zeta. fix_step. bounds r (22/10) (23/10). u3_go. Qed.
Lemma u3_mclaren_06_ok : delivers (sphere_mean 3) 3 9 u3_mclaren_06.
Proof. unfold u3_mclaren_06. cbv zeta. fix_step. bounds r (22/10) (23/10). u3_go. Qed.
Lemma u3_mclaren_07_ok : delivers (sphere_mean 3) 3 9 u3_mclaren_07.
Proof. unfold u3_mclaren_07. cbv zeta. fix_step. bounds r (22/10) (23/10). u3_go. Qed.
Lemma u3_mclaren_08_ok : delivers (sphere_mean 3) 3 11 u3_mclaren_08.
Proof. unfold u3_mclaren_08. cbv zeta. u3_go. Qed.
Lemma u3_mclaren_09_ok : delivers (sphere_mean 3) 3 11 u3_mclaren_09.
Proof. unfold u3_mclaren_09. cbv zeta. fix_step. bounds r (22/10) (23/10). u3_go. Qed.
