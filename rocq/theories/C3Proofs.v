(** Moments of the closed-form schemes of quadpy/c3. *)
From Coq Require Import Reals List Arith Lia Lra String QArith Qreals.
From Verif Require Import Spec RsumLemmas IntegralSpec PyBase SymmModel SchemeTools Tower TowerMoments FixSpec FixTools C3Model.
Import ListNotations.
Set Bullet Behavior "Strict Subproofs".
Open Scope R_scope.

Ltac c3_go := cbv zeta iota; repeat fix_step; fix_finish cubeQ ltac:(apply cubeQ_ok; auto).
Lemma c3_midpoint_ok : delivers (cube_mean 3) 3 1 c3_midpoint.
Proof. unfold c3_midpoint. c3_go. Qed.
Lemma c3_vertex_ok : delivers (cube_mean 3) 3 1 c3_vertex.
Proof. unfold c3_vertex. c3_go. Qed.
Lemma c3_face_midpoint_ok : delivers (cube_mean 3) 3 3 c3_face_midpoint.
Proof. unfold c3_face_midpoint. c3_go. Qed.
Lemma c3_albrecht_collatz_ok : delivers (cube_mean 3) 3 3 c3_albrecht_collatz.
Proof. unfold c3_albrecht_collatz. c3_go. Qed.
Lemma c3_hammer_stroud_1_3_ok : delivers (cube_mean 3) 3 3 c3_hammer_stroud_1_3.
Proof. unfold c3_hammer_stroud_1_3. c3_go. Qed.
Lemma c3_hammer_stroud_2_3_ok : delivers (cube_mean 3) 3 5 c3_hammer_stroud_2_3.
Proof. unfold c3_hammer_stroud_2_3. c3_go. Qed.
Lemma c3_hammer_stroud_4_3_ok : delivers (cube_mean 3) 3 5 c3_hammer_stroud_4_3.
Proof. unfold c3_hammer_stroud_4_3. c3_go. Qed.
Lemma c3_hammer_stroud_5_3a_ok : delivers (cube_mean 3) 3 7 c3_hammer_stroud_5_3a.
Proof. unfold c3_hammer_stroud_5_3a, c3_hammer_stroud_5_3. c3_go. Qed.
Lemma c3_hammer_stroud_5_3b_ok : delivers (cube_mean 3) 3 7 c3_hammer_stroud_5_3b.
Proof. unfold c3_hammer_stroud_5_3b, c3_hammer_stroud_5_3. c3_go. Qed.
Lemma c3_mustard_lyness_blatt_1_ok : delivers (cube_mean 3) 3 3 c3_mustard_lyness_blatt_1.
Proof. unfold c3_mustard_lyness_blatt_1. c3_go. Qed.
Lemma c3_mustard_lyness_blatt_2_ok : delivers (cube_mean 3) 3 3 c3_mustard_lyness_blatt_2.
Proof. unfold c3_mustard_lyness_blatt_2. c3_go. Qed.
Lemma c3_mustard_lyness_blatt_3_ok : delivers (cube_mean 3) 3 3 c3_mustard_lyness_blatt_3.
Proof. unfold c3_mustard_lyness_blatt_3. c3_go. Qed.
Lemma c3_mustard_lyness_blatt_4_ok : delivers (cube_mean 3) 3 5 c3_mustard_lyness_blatt_4.
Proof. unfold c3_mustard_lyness_blatt_4. c3_go. Qed.
Lemma c3_mustard_lyness_blatt_5_ok : delivers (cube_mean 3) 3 5 c3_mustard_lyness_blatt_5.
Proof. unfold c3_mustard_lyness_blatt_5. c3_go. Qed.
Lemma c3_mustard_lyness_blatt_6_ok : delivers (cube_mean 3) 3 5 c3_mustard_lyness_blatt_6.
Proof. unfold c3_mustard_lyness_blatt_6. c3_go. Qed.
Lemma c3_mustard_lyness_blatt_7_ok : delivers (cube_mean 3) 3 5 c3_mustard_lyness_blatt_7.
Proof. unfold c3_mustard_lyness_blatt_7. c3_go. Qed.
Lemma c3_sadowsky_ok : delivers (cube_mean 3) 3 5 c3_sadowsky.
Proof. unfold c3_sadowsky. c3_go. Qed.
Lemma c3_stroud_3_2_ok : delivers (cube_mean 3) 3 3 c3_stroud_3_2.
Proof. unfold c3_stroud_3_2. c3_go. Qed.
Lemma c3_stroud_1967_ok : delivers (cube_mean 3) 3 5 c3_stroud_1967.
Proof.
  unfold c3_stroud_1967. cbv zeta. do 2 fix_step. bounds r (4358898/1000000) (4358899/1000000). bounds r0 (317945/1000) (317946/1000).
  repeat fix_step.
  elim_conj r1 r3 ((418 + 61 * r + (r - 2) * r0) / 3285). { nra. }
  elim_conj r2 r4 ((-418 - 61 * r + (r - 2) * r0) / 3285). { nra. }
  c3_go.
Qed.
Lemma c3_tyler_1_ok : delivers (cube_mean 3) 3 3 c3_tyler_1.
Proof. unfold c3_tyler_1. c3_go. Qed.
Lemma c3_tyler_2_ok : delivers (cube_mean 3) 3 5 c3_tyler_2.
Proof. unfold c3_tyler_2. c3_go. Qed.
