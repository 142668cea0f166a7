(** C56, C57, C60, C61: the schemes for the disk and the ball.
    [delivers M n d r] (FixSpec.v): the call [r] returns a scheme which declares degree d and gives exactly the mean value M
    of every monomial in n variables of total degree at most d; [ball_mean n] is the mean over the unit ball
    (IntegralSpec.v) and [power_ball_mean alpha n] the mean with respect to the weight |x|^alpha (PowerBallSpec.v). *)
From Coq Require Import Reals List Arith ZArith Lia Lra.
From Verif Require Import Spec Spec1 IntegralSpec SphereSpec PowerBallSpec PowerBall LegSpec PyBase FixSpec C1Model GwModel GwSpec RootSpec RootSat S2Model S2Proofs AlbProofs S2Families S3Model S3Proofs S23Param PropGw.
Import ListNotations.
Set Bullet Behavior "Strict Subproofs".
Open Scope R_scope.

(* ------------------------------------------------------------------ C56 *)
(** s2.radon(alpha), s2.mysovskih_1(alpha) and s3.ditkin_1(alpha): exact for the weight |x|^alpha, for every integer alpha
    for which the weight is integrable. *)
Theorem C56_radon : forall alpha, (-2 < alpha)%Z -> delivers (power_ball_mean alpha 2) 2 5 (s2_radon alpha).
Proof. exact s2_radon_ok. Qed.
Print Assumptions C56_radon.
Theorem C56_mysovskih_1 : forall alpha, (-2 < alpha)%Z -> delivers (power_ball_mean alpha 2) 2 4 (s2_mysovskih_1 alpha).
Proof. exact s2_mysovskih_1_ok. Qed.
Print Assumptions C56_mysovskih_1.
Theorem C56_ditkin_1 : forall alpha, (-3 < alpha)%Z -> delivers (power_ball_mean alpha 3) 3 5 (s3_ditkin_1 alpha).
Proof. exact s3_ditkin_1_ok. Qed.
Print Assumptions C56_ditkin_1.
Example C56_ex_radon : delivers (power_ball_mean 3 2) 2 5 (s2_radon 3). Proof. apply C56_radon. lia. Qed.
Example C56_ex_singular : delivers (power_ball_mean (-1) 2) 2 4 (s2_mysovskih_1 (-1)). Proof. apply C56_mysovskih_1. lia. Qed.
Example C56_ex_ditkin_1 : delivers (power_ball_mean (-2) 3) 3 5 (s3_ditkin_1 (-2)). Proof. apply C56_ditkin_1. lia. Qed.

(* ------------------------------------------------------------------ C57 *)
(** s2.peirce_1957(m) and s2.lether(n), of every order. *)
Theorem C57_peirce_1957 : forall leggauss m, leggauss_ok leggauss -> delivers (ball_mean 2) 2 (4 * m + 3) (s2_peirce_1957 leggauss m).
Proof. exact peirce_1957_ok. Qed.
Print Assumptions C57_peirce_1957.
Theorem C57_lether : forall leggauss n, leggauss_ok leggauss -> (1 <= n)%nat -> delivers (ball_mean 2) 2 (2 * n - 1) (s2_lether leggauss n).
Proof. exact lether_ok. Qed.
Print Assumptions C57_lether.
Theorem C57_lether_0 : forall leggauss, s2_lether leggauss 0 = None.
Proof. exact lether_0. Qed.
Print Assumptions C57_lether_0.
(** Such Gauss rules exist. *)
Example C57_leggauss_exists : exists leggauss, leggauss_ok leggauss.
Proof.
  destruct C33_solver_exists as [eigh HE].
  exists (fun n => match gauss_legendre eigh n with Some s => (map snd (c1_rule s), map fst (c1_rule s)) | None => ([], []) end).
  intros n Hn. destruct (C33_gauss_legendre eigh n HE Hn) as [s [E [_ [L [_ X]]]]]. rewrite E. cbn [fst snd]. rewrite !map_length.
  split; [exact L|]. split; [exact L|]. replace (combine (map fst (c1_rule s)) (map snd (c1_rule s))) with (c1_rule s); [exact X|].
  clear. induction (c1_rule s) as [|[w x] l IH]; [reflexivity|]. cbn [map combine fst snd]. rewrite <- IH. reflexivity.
Qed.

(* ------------------------------------------------------------------ C60 *)
Theorem C60_disk : List.Forall (fun c => delivers (ball_mean 2) 2 (fst c) (snd c))
    [(3, s2_albrecht_1); (3, s2_albrecht_collatz); (1, s2_midpoint); (5, s2_hammer_stroud_12_2);
     (7, s2_peirce_1956_1); (5, s2_albrecht_2); (7, s2_albrecht_3); (9, s2_albrecht_4);
     (7, s2_hammer_stroud_18); (11, s2_mysovskih_2); (11, s2_peirce_1956_3); (9, s2_peirce_1956_2);
     (9, s2_stroud_9_3)]%nat.
Proof.
  constructor; [exact s2_albrecht_1_ok|].
  constructor; [exact s2_albrecht_collatz_ok|].
  constructor; [exact s2_midpoint_ok|].
  constructor; [exact s2_hammer_stroud_12_2_ok|].
  constructor; [exact s2_peirce_1956_1_ok|].
  constructor; [exact s2_albrecht_2_ok|].
  constructor; [exact s2_albrecht_3_ok|].
  constructor; [exact s2_albrecht_4_ok|].
  constructor; [exact s2_hammer_stroud_18_ok|].
  constructor; [exact s2_mysovskih_2_ok|].
  constructor; [exact s2_peirce_1956_3_ok|].
  constructor; [exact s2_peirce_1956_2_ok|].
  constructor; [exact s2_stroud_9_3_ok|].
  constructor.
Qed.
Print Assumptions C60_disk.
(** The radii of these four are the roots of a cubic or quartic polynomial (np.roots) and their weights the solution of a
    Vandermonde system (np.linalg.solve): exact whenever these two do their work. *)
Theorem C60_disk_albrecht : forall roots solve, root_finder roots -> linear_solver solve ->
  List.Forall (fun c => delivers (ball_mean 2) 2 (fst c) (snd c))
    [(11, s2_albrecht_5 roots solve); (13, s2_albrecht_6 roots solve); (15, s2_albrecht_7 roots solve); (17, s2_albrecht_8 roots solve)]%nat.
Proof.
  intros roots solve HR HS.
  constructor; [exact (s2_albrecht_5_ok roots solve HR HS)|].
  constructor; [exact (s2_albrecht_6_ok roots solve HR HS)|].
  constructor; [exact (s2_albrecht_7_ok roots solve HR HS)|].
  constructor; [exact (s2_albrecht_8_ok roots solve HR HS)|].
  constructor.
Qed.
Print Assumptions C60_disk_albrecht.
(** Such oracles exist. *)
Example C60_oracles : exists roots solve, root_finder roots /\ linear_solver solve.
Proof. destruct root_finder_exists as [r Hr]. destruct linear_solver_exists as [s Hs]. exists r, s. auto. Qed.

(* ------------------------------------------------------------------ C61 *)
Theorem C61_ball : List.Forall (fun c => delivers (ball_mean 3) 3 (fst c) (snd c))
    [(1, s3_midpoint); (5, s3_ditkin_2); (7, s3_ditkin_3); (3, s3_hammer_stroud_11_3);
     (5, s3_hammer_stroud_12_3); (7, s3_mysovskih); (7, s3_stroud_7_4)]%nat.
Proof.
  constructor; [exact s3_midpoint_ok|].
  constructor; [exact s3_ditkin_2_ok|].
  constructor; [exact s3_ditkin_3_ok|].
  constructor; [exact s3_hammer_stroud_11_3_ok|].
  constructor; [exact s3_hammer_stroud_12_3_ok|].
  constructor; [exact s3_mysovskih_ok|].
  constructor; [exact s3_stroud_7_4_ok|].
  constructor.
Qed.
Print Assumptions C61_ball.
(** The two variants of the two schemes that come with a sign. *)
Theorem C61_variants : forall variant_a, delivers (ball_mean 3) 3 5 (s3_hammer_stroud_14_3 variant_a) /\ delivers (ball_mean 3) 3 7 (s3_hammer_stroud_15_3 variant_a).
Proof. intros a. split; [apply s3_hammer_stroud_14_3_ok|apply s3_hammer_stroud_15_3_ok]. Qed.
Print Assumptions C61_variants.
