(** Moments of the closed-form schemes of quadpy/c2. *)
From Coq Require Import Reals List Arith Lia Lra String QArith Qreals.
From Verif Require Import Spec RsumLemmas IntegralSpec PyBase SymmModel SchemeTools Tower TowerMoments FixSpec FixTools C2Model.
Import ListNotations.
Set Bullet Behavior "Strict Subproofs".
Open Scope R_scope.

Ltac c2_go := repeat fix_step; fix_finish cubeQ ltac:(apply cubeQ_ok; auto).
Lemma c2_albrecht_collatz_1_ok : delivers (cube_mean 2) 2 3 c2_albrecht_collatz_1.
Proof. unfold c2_albrecht_collatz_1. c2_go. Qed.
Lemma c2_albrecht_collatz_2_ok : delivers (cube_mean 2) 2 5 c2_albrecht_collatz_2.
Proof. unfold c2_albrecht_collatz_2. c2_go. Qed.
Lemma c2_albrecht_collatz_3_ok : delivers (cube_mean 2) 2 5 c2_albrecht_collatz_3.
Proof. unfold c2_albrecht_collatz_3. repeat fix_step. elim_conj r1 r2 (1/3). c2_go. Qed.
Lemma c2_albrecht_collatz_4_ok : delivers (cube_mean 2) 2 5 c2_albrecht_collatz_4.
Proof. unfold c2_albrecht_collatz_4. c2_go. Qed.
Lemma c2_burnside_ok : delivers (cube_mean 2) 2 5 c2_burnside.
Proof. unfold c2_burnside. c2_go. Qed.
Lemma c2_cohen_gismalla_1_ok : delivers (cube_mean 2) 2 3 c2_cohen_gismalla_1.
Proof. unfold c2_cohen_gismalla_1. c2_go. Qed.
Lemma c2_franke_6_ok : delivers (cube_mean 2) 2 7 c2_franke_6.
Proof. unfold c2_franke_6. c2_go. Qed.
Lemma c2_hammer_stroud_1_2_ok : delivers (cube_mean 2) 2 3 c2_hammer_stroud_1_2.
Proof. unfold c2_hammer_stroud_1_2. c2_go. Qed.
Lemma c2_hammer_stroud_2_2_ok : delivers (cube_mean 2) 2 5 c2_hammer_stroud_2_2.
Proof. unfold c2_hammer_stroud_2_2. c2_go. Qed.
Lemma c2_irwin_1_ok : delivers (cube_mean 2) 2 3 c2_irwin_1.
Proof. unfold c2_irwin_1. c2_go. Qed.
Lemma c2_irwin_2_ok : delivers (cube_mean 2) 2 5 c2_irwin_2.
Proof. unfold c2_irwin_2. c2_go. Qed.
Lemma c2_maxwell_ok : delivers (cube_mean 2) 2 7 c2_maxwell.
Proof. unfold c2_maxwell. c2_go. Qed.
Lemma c2_meister_ok : delivers (cube_mean 2) 2 7 c2_meister.
Proof. unfold c2_meister. c2_go. Qed.
Lemma c2_miller_ok : delivers (cube_mean 2) 2 1 c2_miller.
Proof. unfold c2_miller. c2_go. Qed.
Lemma c2_phillips_ok : delivers (cube_mean 2) 2 7 c2_phillips.
Proof. unfold c2_phillips. c2_go. Qed.
Lemma c2_stroud_1_1_ok : delivers (cube_mean 2) 2 1 c2_stroud_1_1.
Proof. unfold c2_stroud_1_1. c2_go. Qed.
Lemma c2_stroud_3_1_ok : delivers (cube_mean 2) 2 3 c2_stroud_3_1.
Proof. unfold c2_stroud_3_1. c2_go. Qed.
Lemma c2_stroud_5_4_ok : delivers (cube_mean 2) 2 5 c2_stroud_5_4.
Proof. unfold c2_stroud_5_4. c2_go. Qed.
Lemma c2_stroud_7_4_ok : delivers (cube_mean 2) 2 1 c2_stroud_7_4.
Proof. unfold c2_stroud_7_4. c2_go. Qed.
Lemma c2_tyler_1_ok : delivers (cube_mean 2) 2 5 c2_tyler_1.
Proof. unfold c2_tyler_1. c2_go. Qed.
Lemma c2_tyler_2_ok : delivers (cube_mean 2) 2 7 c2_tyler_2.
Proof. unfold c2_tyler_2. c2_go. Qed.
Lemma c2_tyler_3_ok : delivers (cube_mean 2) 2 7 c2_tyler_3.
Proof. unfold c2_tyler_3. c2_go. Qed.
Lemma c2_dunavant_00_ok : delivers (cube_mean 2) 2 1 c2_dunavant_00.
Proof. unfold c2_dunavant_00. c2_go. Qed.
Lemma c2_dunavant_01_ok : delivers (cube_mean 2) 2 3 c2_dunavant_01.
Proof. unfold c2_dunavant_01. c2_go. Qed.
Lemma c2_dunavant_02_ok : delivers (cube_mean 2) 2 5 c2_dunavant_02.
Proof. unfold c2_dunavant_02. c2_go. Qed.
