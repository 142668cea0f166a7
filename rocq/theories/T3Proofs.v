(** Moments of the closed-form schemes of quadpy/t3. *)
From Coq Require Import Reals List Arith ZArith Lia Lra String QArith Qreals.
From Verif Require Import Spec RsumLemmas IntegralSpec PyBase SymmModel OrbitModel SchemeTools Tower TowerSym TowerMoments FixSpec FixTools T3Model.
Import ListNotations.
Set Bullet Behavior "Strict Subproofs".
Open Scope R_scope.

Ltac t3_go := cbv zeta iota; repeat fix_step; fix_finish_h 1%nat (simplexQ 3) ltac:(apply simplexQ_ok; auto).
Lemma t3_hammer_marlowe_stroud_1_ok : delivers (simplex_mean 3) 4 2 t3_hammer_marlowe_stroud_1.
Proof. unfold t3_hammer_marlowe_stroud_1. t3_go. Qed.
Lemma t3_hammer_marlowe_stroud_2_ok : delivers (simplex_mean 3) 4 2 t3_hammer_marlowe_stroud_2.
Proof. unfold t3_hammer_marlowe_stroud_2. t3_go. Qed.
Lemma t3_hammer_marlowe_stroud_3_ok : delivers (simplex_mean 3) 4 3 t3_hammer_marlowe_stroud_3.
Proof. unfold t3_hammer_marlowe_stroud_3. t3_go. Qed.
Lemma t3_liu_vinokur_01_ok : delivers (simplex_mean 3) 4 1 t3_liu_vinokur_01.
Proof. unfold t3_liu_vinokur_01. t3_go. Qed.
Lemma t3_liu_vinokur_02_ok : delivers (simplex_mean 3) 4 1 t3_liu_vinokur_02.
Proof. unfold t3_liu_vinokur_02. t3_go. Qed.
Lemma t3_liu_vinokur_03_ok : delivers (simplex_mean 3) 4 2 t3_liu_vinokur_03.
Proof. unfold t3_liu_vinokur_03. t3_go. Qed.
Lemma t3_liu_vinokur_04_ok : delivers (simplex_mean 3) 4 2 t3_liu_vinokur_04.
Proof. unfold t3_liu_vinokur_04. t3_go. Qed.
Lemma t3_liu_vinokur_05_ok : delivers (simplex_mean 3) 4 3 t3_liu_vinokur_05.
Proof. unfold t3_liu_vinokur_05. t3_go. Qed.
Lemma t3_liu_vinokur_06_ok : delivers (simplex_mean 3) 4 3 t3_liu_vinokur_06.
Proof. unfold t3_liu_vinokur_06. t3_go. Qed.
Lemma t3_liu_vinokur_07_ok : delivers (simplex_mean 3) 4 4 t3_liu_vinokur_07.
Proof. unfold t3_liu_vinokur_07. t3_go. Qed.
Lemma t3_liu_vinokur_08_ok : delivers (simplex_mean 3) 4 4 t3_liu_vinokur_08.
Proof. unfold t3_liu_vinokur_08. t3_go. Qed.
Lemma t3_liu_vinokur_09_ok : delivers (simplex_mean 3) 4 4 t3_liu_vinokur_09.
Proof. unfold t3_liu_vinokur_09. t3_go. Qed.
Lemma t3_liu_vinokur_10_ok : delivers (simplex_mean 3) 4 4 t3_liu_vinokur_10.
Proof. unfold t3_liu_vinokur_10. t3_go. Qed.
Lemma t3_liu_vinokur_11_ok : delivers (simplex_mean 3) 4 4 t3_liu_vinokur_11.
Proof. unfold t3_liu_vinokur_11. t3_go. Qed.
Lemma t3_liu_vinokur_13_ok : delivers (simplex_mean 3) 4 5 t3_liu_vinokur_13.
Proof. unfold t3_liu_vinokur_13. t3_go. Qed.
Lemma t3_liu_vinokur_14_ok : delivers (simplex_mean 3) 4 5 t3_liu_vinokur_14.
Proof. unfold t3_liu_vinokur_14. t3_go. Qed.
