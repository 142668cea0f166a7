(** Rounding of particular numbers. *)
From Coq Require Import Reals List ZArith Bool Lia Lra Psatz.
From Flocq Require Import Core.
From Verif Require Import FloatSpec FloatModel FloatProofs.
Set Bullet Behavior "Strict Subproofs".
Open Scope R_scope.

Lemma rnd_eval k x n : (-1021 <= k)%Z -> bpow radix2 (k - 1) <= x < bpow radix2 k -> ZnearestE (x * bpow radix2 (53 - k)) = n -> rnd x = IZR n * bpow radix2 (k - 53).
Proof.
  intros Hk Hx E. unfold rnd, round, scaled_mantissa, cexp. assert (P := bpow_gt_0 radix2 (k - 1)).
  assert (M : mag radix2 x = k :> Z) by (apply mag_unique; rewrite Rabs_right by lra; exact Hx). rewrite M. unfold fexp64, FLT_exp. rewrite Z.max_l by lia.
  replace (- (k - 53))%Z with (53 - k)%Z by lia. rewrite E. reflexivity.
Qed.
Lemma near_strict x n : Rabs (x - IZR n) < 1 / 2 -> ZnearestE x = n.
Proof. intros H. apply Znearest_imp. lra. Qed.
Lemma near_tie x n : Z.even n = true -> x = IZR n - 1 / 2 -> ZnearestE x = n.
Proof.
  intros E ->. assert (F : Zfloor (IZR n - 1 / 2) = (n - 1)%Z). { apply Zfloor_imp. rewrite plus_IZR, minus_IZR. lra. }
  unfold Znearest. rewrite F, minus_IZR. rewrite Rcompare_Eq by lra. replace (Z.even (n - 1)) with false.
  - cbn [negb]. apply Zceil_imp. rewrite minus_IZR. lra.
  - rewrite Z.even_sub, E. reflexivity.
Qed.
(** p / 2^j as a float *)
Lemma float_dyadic n j : (Z.abs n < 2 ^ 53)%Z -> (j <= 1074)%nat -> float64 (IZR n / 2 ^ j).
Proof.
  intros H Hj. unfold float64, fexp64. apply generic_format_FLT. apply (FLT_spec radix2 (-1074) 53 _ (Float radix2 n (- Z.of_nat j))).
  - unfold F2R. cbn [Fnum Fexp]. rewrite bpow_neg. reflexivity.
  - exact H.
  - cbn. lia.
Qed.
Definition x10 : R := 7791798111744755 / 2 ^ 53.
Definition a10 : R := 4844865976379216 / 2 ^ 52.
Definition b10 : R := 4844865976379217 / 2 ^ 52.
Ltac pows := repeat (rewrite bpow_neg || match goal with |- context [bpow radix2 ?k] => first
  [let j := eval compute in (Z.to_nat (- k)) in match eval compute in (k <? 0)%Z with true => replace (bpow radix2 k) with (/ 2 ^ j) by (symmetry; apply (bpow_neg j)) end
  |replace (bpow radix2 k) with (IZR (Zpower radix2 k)) by (apply IZR_Zpower; lia); let z := eval compute in (Zpower radix2 k) in change (Zpower radix2 k) with z] end).
Lemma pt10 : fl_point a10 b10 x10 = 4844865976379218 / 2 ^ 52.
Proof.
  assert (E1 : rnd (1 - x10) = 4861604571984948 / 2 ^ 55). { rewrite (rnd_eval (-2) _ 4861604571984948); [pows; cbn [pow]; lra|lia| |apply near_strict]; unfold x10; pows; cbn [pow]; [lra|]. apply Rabs_def1; lra. }
  assert (E2 : rnd (1 + x10) = 8399498683242874 / 2 ^ 52). { rewrite (rnd_eval 1 _ 8399498683242874); [pows; cbn [pow]; lra|lia| |apply near_tie; [reflexivity|]]; unfold x10; pows; cbn [pow]; lra. }
  assert (E3 : rnd (0.5 * (4861604571984948 / 2 ^ 55)) = 4861604571984948 / 2 ^ 56). { replace (0.5 * (4861604571984948 / 2 ^ 55)) with (4861604571984948 / 2 ^ 56) by (cbn [pow]; lra). apply rnd_float, float_dyadic; lia. }
  assert (E4 : rnd (0.5 * (8399498683242874 / 2 ^ 52)) = 8399498683242874 / 2 ^ 53). { replace (0.5 * (8399498683242874 / 2 ^ 52)) with (8399498683242874 / 2 ^ 53) by (cbn [pow]; lra). apply rnd_float, float_dyadic; lia. }
  assert (E5 : rnd (a10 * (4861604571984948 / 2 ^ 56)) = 5229999229565577 / 2 ^ 56). { rewrite (rnd_eval (-3) _ 5229999229565577); [pows; cbn [pow]; lra|lia| |apply near_strict]; unfold a10; pows; cbn [pow]; [lra|]. apply Rabs_def1; lra. }
  assert (E6 : rnd (b10 * (8399498683242874 / 2 ^ 53)) = 4517991024531369 / 2 ^ 52). { rewrite (rnd_eval 1 _ 4517991024531369); [pows; cbn [pow]; lra|lia| |apply near_strict]; unfold b10; pows; cbn [pow]; [lra|]. apply Rabs_def1; lra. }
  unfold fl_point. rewrite E1, E2, E3, E4, E5, E6. rewrite (rnd_eval 1 _ 4844865976379218); [pows; cbn [pow]; lra|lia| |apply near_strict]; pows; cbn [pow]; [lra|]. apply Rabs_def1; lra.
Qed.
Lemma tiny_square : rnd (/ 2 ^ 538 * / 2 ^ 538) = 0.
Proof.
  rewrite <- Rinv_mult, <- pow_add. change (538 + 538)%nat with 1076%nat. rewrite <- (bpow_neg 1076). apply round_N_small with (ex := (-1075)%Z).
  - rewrite Rabs_right by (apply Rle_ge, bpow_ge_0). split; [right; reflexivity|]. apply bpow_lt. lia.
  - unfold fexp64, FLT_exp. lia.
Qed.
Lemma short_length a b : a <= b <= a + / 2 ^ 538 -> fl_length a b = 0.
Proof.
  intros H. assert (P : 0 < / 2 ^ 538) by (apply Rinv_0_lt_compat, pow_lt; lra). assert (FL : float64 (/ 2 ^ 538)) by (replace (/ 2 ^ 538) with (1 / 2 ^ 538) by (unfold Rdiv; ring); apply float_dyadic; lia).
  assert (D : 0 <= rnd (b - a) <= / 2 ^ 538) by (split; [rewrite <- rnd_0|rewrite <- (rnd_float _ FL)]; apply rnd_le; lra). unfold fl_length. set (d := rnd (b - a)) in *.
  assert (Q : rnd (d * d) = 0) by (apply Rle_antisym; [rewrite <- tiny_square|rewrite <- rnd_0]; apply rnd_le; nra). rewrite Q, sqrt_0. apply rnd_0.
Qed.
