(** The schemes of quadpy/s2 and quadpy/s3 with a parameter alpha: the weight |x|^alpha. *)
From Coq Require Import Reals List Arith ZArith Lia Lra String QArith Qreals Permutation.
From Verif Require Import Spec RsumLemmas IntegralSpec SphereSpec PowerBallSpec PowerBall PyBase SymmModel SymmProofs SchemeTools Tower TowerMoments FixSpec FixTools C2Param RingTools RingFix S2Model S2Proofs S3Model.
Import ListNotations.
Set Bullet Behavior "Strict Subproofs".
Open Scope R_scope.
Local Notation length := List.length.

Lemma div_nonneg a b : 0 <= a -> 0 < b -> 0 <= a / b.
Proof. intros. apply Rmult_le_pos; [auto|apply Rlt_le, Rinv_0_lt_compat; auto]. Qed.
Lemma al_bound al n : (- n < al)%Z -> - IZR n + 1 <= IZR al.
Proof. intros H. rewrite <- opp_IZR, <- plus_IZR. apply IZR_le. lia. Qed.
Lemma hp2 al s : h_power al 2 s = (2 + IZR al) / (2 + IZR al + IZR (Z.of_nat s)).
Proof. unfold h_power. rewrite (INR_IZR_INZ s). replace (INR 2) with 2 by (cbn; ring). auto. Qed.
Lemma hp3 al s : h_power al 3 s = (3 + IZR al) / (3 + IZR al + IZR (Z.of_nat s)).
Proof. unfold h_power. rewrite (INR_IZR_INZ s). replace (INR 3) with 3 by (cbn; ring). auto. Qed.
(** One step of the constructor with a given proof of the side condition. *)
Ltac pstep tac :=
  lazymatch goal with
  | |- delivers _ _ _ (bind (rsqrt ?x) _) =>
      let r := fresh "r" in let E := fresh "E" in let P := fresh "P" in let H := fresh "H" in let H' := fresh "H" in
      assert (H : 0 <= x) by tac; destruct (rsqrt_some x H) as (r & E & P & H'); clear H; rename H' into H; rewrite E; clear E; cbn [bind]
  | |- delivers _ _ _ (bind (rdiv ?a ?b) _) =>
      let H := fresh "N" in assert (H : b <> 0) by tac; rewrite (rdiv_ok a b H); clear H; cbn [bind]
  end.
Ltac nz2 := apply Rmult_integral_contrapositive; split; [lra|apply pow_nonzero; lra].
Theorem s2_mysovskih_1_ok alpha : (-2 < alpha)%Z -> delivers (power_ball_mean alpha 2) 2 4 (s2_mysovskih_1 alpha).
Proof.
  intros Ha. pose proof (al_bound alpha 2 Ha) as B. unfold s2_mysovskih_1. cbv zeta.
  pstep lra. pstep ltac:(apply div_nonneg; lra). pstep ltac:(apply pow_nonzero; lra). pstep nz2.
  set (a := IZR alpha) in *.
  eapply (s2_rings_ok (power_ball_mean alpha 2) (h_power alpha 2) _ _ _ [mk_ring (4 / (a + 4) ^ 2) 1 0 0; mk_ring ((a + 2) * (a + 6) / (5 * (a + 4) ^ 2)) 5 r 0]);
  [intros c e _; rewrite power_ball_val by (auto; lia); do 2 f_equal; unfold tdeg; cbn; lia | reflexivity | repeat constructor; discriminate
  | repeat constructor; intros cols Ec; injection Ec as <-; reflexivity
  | cbn [flat_map]; rewrite ?ring_centre; lazy -[Rplus Rmult Rminus Ropp Rdiv Rinv IZR pow cos sin]; reflexivity
  | reflexivity | | | repeat constructor; intros; try discriminate; reflexivity].
  - cbn [filter Nat.even seq]. repeat apply List.Forall_cons; try apply List.Forall_nil; rewrite hp2; fold a; cbn [map Rsum rg_w rg_K rg_rho zK Z.of_nat Pos.of_succ_nat Pos.succ]; unfold zK; cbn [rg_K Z.of_nat Pos.of_succ_nat Pos.succ].
    + field. lra.
    + replace (r ^ 2) with ((a + 4) / (a + 6)) by (rewrite <- H; ring). field. lra.
    + replace (r ^ 4) with ((a + 4) / (a + 6) * ((a + 4) / (a + 6))) by (rewrite <- H; ring). field. lra.
  - cbv. apply List.Forall_nil.
Qed.
Ltac power_moment hp :=
  rewrite power_ball_val by (auto; lia); rewrite hp; rewrite sphereQ_ok by (auto; lia);
  (lazymatch goal with |- _ = _ * Q2R ?q => let v := eval vm_compute in q in change q with v end); rewrite Q2R_frac;
  unfold tdeg; cbn [list_sum fold_right Nat.add Z.of_nat Pos.of_succ_nat Pos.succ]; unfold apply; cbn [map Rsum fst snd mono].
Theorem s2_radon_ok alpha : (-2 < alpha)%Z -> delivers (power_ball_mean alpha 2) 2 5 (s2_radon alpha).
Proof.
  intros Ha. pose proof (al_bound alpha 2 Ha) as B. unfold s2_radon. cbv zeta.
  pstep lra. pstep ltac:(apply div_nonneg; lra). pstep lra. pstep ltac:(apply div_nonneg; lra). pstep lra. pstep ltac:(apply div_nonneg; lra).
  pstep ltac:(apply pow_nonzero; lra). pstep nz2.
  eapply delivers_run; [lazy -[Rplus Rmult Rminus Ropp Rdiv Rinv IZR pow]; reflexivity|].
  apply delivers_intro; [reflexivity|]. cbn [s_rule]. apply enum_exact; [repeat constructor|].
  set (a := IZR alpha) in *. set (v := (a + 4) / (4 * (a + 6))) in *.
  assert (H' : r * r = 4 * v) by (rewrite H; unfold v; field; lra). assert (H1' : r1 * r1 = 3 * v) by (rewrite H1; unfold v; field; lra).
  set (A := 4 / (a + 4) ^ 2). set (W := (a + 2) * (a + 6) / (6 * (a + 4) ^ 2)).
  assert (F0 : (2 + a) / (2 + a + 0) = A + 6 * W) by (unfold A, W; field; lra).
  assert (F2 : (2 + a) / (2 + a + 2) = 24 * W * v) by (unfold W, v; field; lra).
  assert (F4 : (2 + a) / (2 + a + 4) = 96 * W * v ^ 2) by (unfold W, v; field; lra). clear H H1.
  all_moments 2%nat 5%nat; power_moment hp2; fold a; rewrite ?F0, ?F2, ?F4; clear F0 F2 F4; clearbody A W v.
  all: first [field; fail | field [H' H0 H1']; fail | unfold Rdiv; ring].
Qed.
Theorem s3_ditkin_1_ok alpha : (-3 < alpha)%Z -> delivers (power_ball_mean alpha 3) 3 5 (s3_ditkin_1 alpha).
Proof.
  intros Ha. pose proof (al_bound alpha 3 Ha) as B. unfold s3_ditkin_1. cbv zeta.
  pstep ltac:(apply pow_nonzero; lra). pstep nz2.
  pstep lra. bounds r (22/10) (23/10). pstep lra. pstep lra.
  pstep ltac:(apply div_nonneg; [unfold Rdiv; repeat apply Rmult_le_pos; lra|lra]). pstep ltac:(apply div_nonneg; [unfold Rdiv; repeat apply Rmult_le_pos; lra|lra]).
  eapply delivers_run; [lazy -[Rplus Rmult Rminus Ropp Rdiv Rinv IZR pow]; reflexivity|].
  apply delivers_intro; [reflexivity|]. cbn [s_rule]. apply enum_exact; [repeat constructor|].
  set (a := IZR alpha) in *. set (v := (a + 5) / (10 * (a + 7))) in *.
  assert (H0' : r0 * r0 = v * (5 + r)) by (rewrite H0; unfold v; field; lra). assert (H1' : r1 * r1 = v * (5 - r)) by (rewrite H1; unfold v; field; lra).
  set (A := 4 / (a + 5) ^ 2). set (W := (a + 3) * (a + 7) / (12 * (a + 5) ^ 2)).
  assert (F0 : (3 + a) / (3 + a + 0) = A + 12 * W) by (unfold A, W; field; lra).
  assert (F2 : (3 + a) / (3 + a + 2) = 120 * W * v) by (unfold W, v; field; lra).
  assert (F4 : (3 + a) / (3 + a + 4) = 1200 * W * v ^ 2) by (unfold W, v; field; lra). clear H0 H1.
  all_moments 3%nat 5%nat; power_moment hp3; fold a; rewrite ?F0, ?F2, ?F4; clear F0 F2 F4; clearbody A W v.
  all: first [field; fail | field [H H0' H1']; fail | unfold Rdiv; ring].
Qed.
