(** Moments of the closed-form schemes of quadpy/t2. *)
From Coq Require Import Reals List Arith ZArith Lia Lra String QArith Qreals.
From Verif Require Import Spec RsumLemmas IntegralSpec PyBase SymmModel OrbitModel SchemeTools Tower TowerSym TowerMoments FixSpec FixTools T2Model.
Import ListNotations.
Set Bullet Behavior "Strict Subproofs".
Open Scope R_scope.

Ltac t2_go := cbv zeta iota; repeat fix_step; fix_finish_h 1%nat (simplexQ 2) ltac:(apply simplexQ_ok; auto).
Lemma t2_albrecht_collatz_ok : delivers (simplex_mean 2) 3 3 t2_albrecht_collatz.
Proof. unfold t2_albrecht_collatz. t2_go. Qed.
Lemma t2_centroid_ok : delivers (simplex_mean 2) 3 1 t2_centroid.
Proof. unfold t2_centroid. t2_go. Qed.
Lemma t2_vertex_ok : delivers (simplex_mean 2) 3 1 t2_vertex.
Proof. unfold t2_vertex. t2_go. Qed.
Lemma t2_seven_point_ok : delivers (simplex_mean 2) 3 3 t2_seven_point.
Proof. unfold t2_seven_point. t2_go. Qed.
Lemma t2_hammer_marlowe_stroud_1_ok : delivers (simplex_mean 2) 3 1 t2_hammer_marlowe_stroud_1.
Proof. unfold t2_hammer_marlowe_stroud_1. t2_go. Qed.
Lemma t2_hammer_marlowe_stroud_2_ok : delivers (simplex_mean 2) 3 2 t2_hammer_marlowe_stroud_2.
Proof. unfold t2_hammer_marlowe_stroud_2. t2_go. Qed.
Lemma t2_hammer_marlowe_stroud_3_ok : delivers (simplex_mean 2) 3 2 t2_hammer_marlowe_stroud_3.
Proof. unfold t2_hammer_marlowe_stroud_3. t2_go. Qed.
Lemma t2_hammer_marlowe_stroud_4_ok : delivers (simplex_mean 2) 3 3 t2_hammer_marlowe_stroud_4.
Proof. unfold t2_hammer_marlowe_stroud_4. t2_go. Qed.
Lemma t2_hammer_marlowe_stroud_5_ok : delivers (simplex_mean 2) 3 5 t2_hammer_marlowe_stroud_5.
Proof. unfold t2_hammer_marlowe_stroud_5. t2_go. Qed.
Lemma t2_hillion_01_ok : delivers (simplex_mean 2) 3 1 t2_hillion_01.
Proof. unfold t2_hillion_01. t2_go. Qed.
Lemma t2_hillion_02_ok : delivers (simplex_mean 2) 3 2 t2_hillion_02.
Proof. unfold t2_hillion_02. t2_go. Qed.
Lemma t2_hillion_03_ok : delivers (simplex_mean 2) 3 2 t2_hillion_03.
Proof. unfold t2_hillion_03. t2_go. Qed.
Lemma t2_hillion_04_ok : delivers (simplex_mean 2) 3 2 t2_hillion_04.
Proof. unfold t2_hillion_04. t2_go. Qed.
Lemma t2_hillion_05_ok : delivers (simplex_mean 2) 3 2 t2_hillion_05.
Proof. unfold t2_hillion_05. t2_go. Qed.
Lemma t2_hillion_06_ok : delivers (simplex_mean 2) 3 2 t2_hillion_06.
Proof. unfold t2_hillion_06. cbv zeta iota. repeat fix_step. elim_conj r0 r1 1. t2_go. Qed.
Lemma t2_hillion_07_ok : delivers (simplex_mean 2) 3 3 t2_hillion_07.
Proof. unfold t2_hillion_07. cbv zeta iota. fix_step. bounds r (14142/10000) (14143/10000). do 2 fix_step. elim_conj r0 r1 6. t2_go. Qed.
Lemma t2_hillion_08_ok : delivers (simplex_mean 2) 3 3 t2_hillion_08.
Proof. unfold t2_hillion_08. t2_go. Qed.
Lemma t2_hillion_09_ok : delivers (simplex_mean 2) 3 3 t2_hillion_09.
Proof. unfold t2_hillion_09. t2_go. Qed.
Lemma t2_hillion_10_ok : delivers (simplex_mean 2) 3 3 t2_hillion_10.
Proof. unfold t2_hillion_10. t2_go. Qed.
Lemma t2_liu_vinokur_03_ok : delivers (simplex_mean 2) 3 2 t2_liu_vinokur_03.
Proof. unfold t2_liu_vinokur_03. t2_go. Qed.
Lemma t2_liu_vinokur_04_ok : delivers (simplex_mean 2) 3 2 t2_liu_vinokur_04.
Proof. unfold t2_liu_vinokur_04. t2_go. Qed.
Lemma t2_liu_vinokur_05_ok : delivers (simplex_mean 2) 3 3 t2_liu_vinokur_05.
Proof. unfold t2_liu_vinokur_05. t2_go. Qed.
Lemma t2_liu_vinokur_06_ok : delivers (simplex_mean 2) 3 3 t2_liu_vinokur_06.
Proof. unfold t2_liu_vinokur_06. t2_go. Qed.
Lemma t2_liu_vinokur_08_ok : delivers (simplex_mean 2) 3 4 t2_liu_vinokur_08.
Proof. unfold t2_liu_vinokur_08. t2_go. Qed.
Lemma t2_liu_vinokur_09_ok : delivers (simplex_mean 2) 3 4 t2_liu_vinokur_09.
Proof. unfold t2_liu_vinokur_09. t2_go. Qed.
Lemma t2_liu_vinokur_10_ok : delivers (simplex_mean 2) 3 4 t2_liu_vinokur_10.
Proof. unfold t2_liu_vinokur_10. t2_go. Qed.
Lemma t2_liu_vinokur_11_ok : delivers (simplex_mean 2) 3 4 t2_liu_vinokur_11.
Proof. unfold t2_liu_vinokur_11. t2_go. Qed.
Lemma t2_liu_vinokur_12_ok : delivers (simplex_mean 2) 3 5 t2_liu_vinokur_12.
Proof. unfold t2_liu_vinokur_12. t2_go. Qed.
Lemma t2_liu_vinokur_13_ok : delivers (simplex_mean 2) 3 5 t2_liu_vinokur_13.
Proof. unfold t2_liu_vinokur_13. t2_go. Qed.
Lemma t2_lyness_jespersen_01_ok : delivers (simplex_mean 2) 3 2 t2_lyness_jespersen_01.
Proof. unfold t2_lyness_jespersen_01. t2_go. Qed.
Lemma t2_lyness_jespersen_02_ok : delivers (simplex_mean 2) 3 2 t2_lyness_jespersen_02.
Proof. unfold t2_lyness_jespersen_02. t2_go. Qed.
Lemma t2_lyness_jespersen_03_ok : delivers (simplex_mean 2) 3 3 t2_lyness_jespersen_03.
Proof. unfold t2_lyness_jespersen_03. t2_go. Qed.
Lemma t2_lyness_jespersen_06_ok : delivers (simplex_mean 2) 3 4 t2_lyness_jespersen_06.
Proof. unfold t2_lyness_jespersen_06. t2_go. Qed.
Lemma t2_lyness_jespersen_07_ok : delivers (simplex_mean 2) 3 4 t2_lyness_jespersen_07.
Proof. unfold t2_lyness_jespersen_07. t2_go. Qed.
Lemma t2_lyness_jespersen_08_ok : delivers (simplex_mean 2) 3 5 t2_lyness_jespersen_08.
Proof. unfold t2_lyness_jespersen_08. t2_go. Qed.
Lemma t2_lyness_jespersen_09_ok : delivers (simplex_mean 2) 3 5 t2_lyness_jespersen_09.
Proof. unfold t2_lyness_jespersen_09. t2_go. Qed.
Lemma t2_lyness_jespersen_11_ok : delivers (simplex_mean 2) 3 6 t2_lyness_jespersen_11.
Proof. unfold t2_lyness_jespersen_11. t2_go. Qed.
Lemma t2_walkington_p5_ok : delivers (simplex_mean 2) 3 5 t2_walkington_p5.
Proof. unfold t2_walkington_p5. t2_go. Qed.
