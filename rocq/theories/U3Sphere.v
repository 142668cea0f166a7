(** The points of the closed-form schemes of quadpy/u3 lie on the unit sphere. *)
From Coq Require Import Reals List Arith ZArith Lia Lra String QArith Qreals.
From Verif Require Import Spec RsumLemmas IntegralSpec SphereSpec SphericalSpec RootSpec PyBase SymmModel OrbitModel SchemeTools Tower TowerSym TowerMoments FixSpec FixTools S2Model U3Model U3Proofs U3Cubic.
Import ListNotations.
Set Bullet Behavior "Strict Subproofs".
Open Scope R_scope.

Ltac sph_step :=
  lazymatch goal with
  | |- on_sphere (bind (rsqrt ?x) _) =>
      let r := fresh "r" in let E := fresh "E" in let P := fresh "P" in let H := fresh "H" in let H' := fresh "H" in
      assert (H : 0 <= x);
      [fix_side | destruct (rsqrt_some x H) as (r & E & P & H'); clear H; rename H' into H; rewrite E; clear E; cbn [bind]]
  end.
Ltac sph_go :=
  repeat sph_step; eexists; split; [lazy -[Rplus Rmult Rminus Ropp Rdiv Rinv IZR pow sqrt PI cos sin]; reflexivity|];
  try name_sqrt 2; try name_sqrt 3; cbn [s_rule];
  let env := tw_env in
  repeat (apply List.Forall_cons; [unfold on_unit_sphere; cbn [snd map Rsum]; tower_eq env|]); apply List.Forall_nil.
Lemma u3_albrecht_collatz_1_sphere : on_sphere u3_albrecht_collatz_1.
Proof. unfold u3_albrecht_collatz_1. sph_step. bounds r (22/10) (23/10). sph_go. Qed.
Lemma u3_albrecht_collatz_2_sphere : on_sphere u3_albrecht_collatz_2.
Proof. unfold u3_albrecht_collatz_2. sph_go. Qed.
Lemma u3_albrecht_collatz_3_sphere : on_sphere u3_albrecht_collatz_3.
Proof. unfold u3_albrecht_collatz_3. sph_go. Qed.
Lemma u3_albrecht_collatz_4_sphere : on_sphere u3_albrecht_collatz_4.
Proof. unfold u3_albrecht_collatz_4. sph_step. bounds r (22/10) (23/10). sph_go. Qed.
Lemma u3_albrecht_collatz_5_sphere : on_sphere u3_albrecht_collatz_5.
Proof. unfold u3_albrecht_collatz_5. sph_go. Qed.
Lemma u3_mclaren_01_sphere : on_sphere u3_mclaren_01.
Proof. unfold u3_mclaren_01. sph_go. Qed.
Lemma u3_mclaren_02_sphere : on_sphere u3_mclaren_02.
Proof. unfold u3_mclaren_02. cbv zeta. sph_go. Qed.
Lemma u3_mclaren_05_sphere : on_sphere u3_mclaren_05.
Proof. unfold u3_mclaren_05. cbv zeta. sph_step. bounds r (22/10) (23/10). sph_go. Qed.
Lemma u3_mclaren_06_sphere : on_sphere u3_mclaren_06.
Proof. unfold u3_mclaren_06. cbv zeta. sph_step. bounds r (22/10) (23/10). sph_go. Qed.
Lemma u3_mclaren_07_sphere : on_sphere u3_mclaren_07.
Proof. unfold u3_mclaren_07. cbv zeta. sph_step. bounds r (22/10) (23/10). sph_go. Qed.
Lemma u3_mclaren_08_sphere : on_sphere u3_mclaren_08.
Proof. unfold u3_mclaren_08. cbv zeta. sph_go. Qed.
Lemma u3_mclaren_09_sphere : on_sphere u3_mclaren_09.
Proof. unfold u3_mclaren_09. cbv zeta. sph_step. bounds r (22/10) (23/10). sph_go. Qed.
Lemma u3_mclaren_03_sphere roots : root_finder roots -> on_sphere (u3_mclaren_03 roots).
Proof.
  intros Hf. destruct (cubic_pos roots (1/5) (1/105) (2/25) (1/2) Hf) as (a & b & c & E & Pa & Pb & Pc & S1 & S2 & S3); try lra.
  unfold u3_mclaren_03. rewrite E. repeat sph_step. eexists. split; [lazy -[Rplus Rmult Rminus Ropp Rdiv Rinv IZR pow sqrt PI cos sin]; reflexivity|].
  cbn [s_rule]. repeat (apply List.Forall_cons; [unfold on_unit_sphere; cbn [snd map Rsum]; nra|]). apply List.Forall_nil.
Qed.
Lemma u3_mclaren_04_sphere roots : root_finder roots -> on_sphere (u3_mclaren_04 roots).
Proof.
  intros Hf. destruct (cubic_pos roots (5/21) (5/441) (9/100) (1/2) Hf) as (a & b & c & E & Pa & Pb & Pc & S1 & S2 & S3); try lra.
  unfold u3_mclaren_04. rewrite E. repeat sph_step. eexists. split; [lazy -[Rplus Rmult Rminus Ropp Rdiv Rinv IZR pow sqrt PI cos sin]; reflexivity|].
  cbn [s_rule]. repeat (apply List.Forall_cons; [unfold on_unit_sphere; cbn [snd map Rsum]; nra|]). apply List.Forall_nil.
Qed.
