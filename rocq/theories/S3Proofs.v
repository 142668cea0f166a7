(** Moments of the closed-form schemes of quadpy/s3. *)
From Coq Require Import Reals List Arith ZArith Lia Lra String QArith Qreals.
From Verif Require Import Spec RsumLemmas IntegralSpec PyBase SymmModel SchemeTools Tower TowerMoments FixSpec FixTools S2Model S3Model.
Import ListNotations.
Set Bullet Behavior "Strict Subproofs".
Open Scope R_scope.

Ltac s3_go := repeat fix_step; fix_finish (ballQ 3) ltac:(apply ballQ_ok; auto).
Lemma s3_midpoint_ok : delivers (ball_mean 3) 3 1 s3_midpoint.
Proof. unfold s3_midpoint. s3_go. Qed.
Lemma s3_ditkin_2_ok : delivers (ball_mean 3) 3 5 s3_ditkin_2.
Proof. unfold s3_ditkin_2. cbv zeta. s3_go. Qed.
Lemma s3_ditkin_3_ok : delivers (ball_mean 3) 3 7 s3_ditkin_3.
Proof. unfold s3_ditkin_3. cbv zeta. s3_go. Qed.
Lemma s3_hammer_stroud_11_3_ok : delivers (ball_mean 3) 3 3 s3_hammer_stroud_11_3.
Proof. unfold s3_hammer_stroud_11_3. s3_go. Qed.
Lemma s3_hammer_stroud_12_3_ok : delivers (ball_mean 3) 3 5 s3_hammer_stroud_12_3.
Proof. unfold s3_hammer_stroud_12_3. s3_go. Qed.
Lemma s3_mysovskih_ok : delivers (ball_mean 3) 3 7 s3_mysovskih.
Proof. unfold s3_mysovskih. cbv zeta. s3_go. Qed.
Lemma s3_hammer_stroud_14_3_ok a : delivers (ball_mean 3) 3 5 (s3_hammer_stroud_14_3 a).
Proof.
  destruct a; unfold s3_hammer_stroud_14_3; cbv zeta iota; fix_step; bounds r (37/10) (38/10); fix_step; fix_step.
  - fix_step; [apply Rlt_le, Rdiv_lt_0_compat; lra|]. fix_finish (ballQ 3) ltac:(apply ballQ_ok; auto).
  - fix_step; [apply Rlt_le, Rdiv_lt_0_compat; lra|]. fix_finish (ballQ 3) ltac:(apply ballQ_ok; auto).
Qed.
Lemma s3_hammer_stroud_15_3_ok a : delivers (ball_mean 3) 3 7 (s3_hammer_stroud_15_3 a).
Proof.
  destruct a; unfold s3_hammer_stroud_15_3; cbv zeta iota; fix_step; bounds r (54/10) (55/10); fix_step; fix_step; fix_step; fix_step; fix_step; fix_step.
  - fix_step; [apply Rlt_le, Rdiv_lt_0_compat; lra|]. fix_finish (ballQ 3) ltac:(apply ballQ_ok; auto).
  - fix_step; [apply Rlt_le, Rdiv_lt_0_compat; lra|]. fix_finish (ballQ 3) ltac:(apply ballQ_ok; auto).
Qed.
Lemma rsqrt_pm a : rsqrt (1 - (- a) ^ 2) = rsqrt (1 - a ^ 2).
Proof. f_equal. ring. Qed.
Lemma pi_weight a b : a * b * (PI / 4) / (4 / 3 * PI) = a * b * (3 / 16).
Proof. field. apply PI_neq0. Qed.
Lemma four_roots a b ra rb : rsqrt (1 - a ^ 2) = Some ra -> rsqrt (1 - b ^ 2) = Some rb ->
  opt_all (map (fun x => rsqrt (1 - x ^ 2)) [- a; - b; b; a]) = Some [ra; rb; rb; ra].
Proof. intros Ha Hb. cbn [map opt_all]. rewrite !rsqrt_pm, Ha, Hb. reflexivity. Qed.
Lemma s3_stroud_7_4_ok : delivers (ball_mean 3) 3 7 s3_stroud_7_4.
Proof.
  unfold s3_stroud_7_4. cbv zeta. fix_step. bounds r (83/10) (84/10). fix_step. fix_step. fix_step. bounds r2 (54/10) (55/10). fix_step. fix_step. fix_step. bounds r5 (14/10) (15/10). fix_step. fix_step.
  destruct (rsqrt_some (1 - r3 ^ 2)) as (su & E1 & P8 & H8); [simpl; lra|].
  destruct (rsqrt_some (1 - r4 ^ 2)) as (su' & E2 & P9 & H9); [simpl; lra|].
  destruct (rsqrt_some (1 - r6 ^ 2)) as (sv & E3 & P10 & H10); [simpl; lra|].
  destruct (rsqrt_some (1 - r7 ^ 2)) as (sv' & E4 & P11 & H11); [simpl; lra|].
  rewrite (four_roots _ _ _ _ E1 E2), (four_roots _ _ _ _ E3 E4). clear E1 E2 E3 E4. cbn [bind].
  eapply delivers_run; [lazy -[Rplus Rmult Rminus Ropp Rdiv Rinv IZR pow sqrt PI cos sin]; reflexivity|].
  apply delivers_intro; [reflexivity|]; cbn [s_rule]. rewrite !pi_weight.
  let env := tw_env in tower_best 0%nat env (ballQ 3). intros; apply ballQ_ok; auto.
Qed.
