(** sn.dobrodeev_1978 for every configured dimension. *)
From Coq Require Import Reals ZArith List Arith Lia Lra Permutation Bool.
From Verif Require Import Spec RsumLemmas CombModel CombProofs CombProofs2 Moments SymExact
  IntegralSpec IntegralProofs PyBase SymmModel SymmProofs MiscModel CnModel SchemeTools CnTools CnProofs IntegralProofs2 CnProofs2 CnProofs4
  TrigSums CnProofs5 Dobrodeev SphereSpec SphereInt RadialInt RadialTools UnModel UnProofs NsimplexProofs RadialDob SnModel.
Import ListNotations.
Set Bullet Behavior "Strict Subproofs".
Open Scope R_scope.

Lemma ndim_nball_val n k : length k = n -> ndim_nball n k = bal0 n * rmoment (h_ball n) k.
Proof. intros <-. unfold ndim_nball. rewrite ball_int_k by auto. apply bal_closed. Qed.
Lemma bal0_nz n : bal0 n <> 0.
Proof. apply Rgt_not_eq, bal0_pos. Qed.
Definition sn_dob_defined (n : nat) (t : R) (i j k : nat) := forall z, z <> 0 ->
  exists r, compute_dobrodeev n z (z * (1 / (INR n + 2))) (z * (1 / ((INR n + 2) * (INR n + 4)))) (z * (3 / ((INR n + 2) * (INR n + 4)))) t i j k = Some r.
Ltac sn_dob_case n t i j k ul uh wh ph qh L M :=
  let H := fresh in
  let nn := eval cbv in (Z.of_nat n) in
  assert (H : sn_dob_defined n t i j k);
  [intros z Hz; inr_lits; dob_def (1 / (IZR nn + 2)) (1 / ((IZR nn + 2) * (IZR nn + 4))) (3 / ((IZR nn + 2) * (IZR nn + 4))) n t i j k ul uh wh ph qh L M|exact H].
Lemma sn_dob_2 : sn_dob_defined 2 (-1) 1 1 1.
Proof. sn_dob_case 2%nat (-1) 1%nat 1%nat 1%nat (51031/500000) (102063/1000000) (1633/8000) (15493/62500) (15493/62500) 4 8. Qed.
Lemma sn_dob_3 : sn_dob_defined 3 (-1) 1 1 1.
Proof. sn_dob_case 3%nat (-1) 1%nat 1%nat 1%nat (43643/1000000) (10911/250000) (6983/40000) (108367/1000000) (108367/1000000) 6 24. Qed.
Lemma sn_dob_4 : sn_dob_defined 4 (-1) 4 1 1.
Proof. sn_dob_case 4%nat (-1) 4%nat 1%nat 1%nat (1701/50000) (34021/1000000) (102063/1000000) (26377/1000000) (26377/1000000) 16 48. Qed.
Lemma sn_dob_5 : sn_dob_defined 5 1 3 1 1.
Proof. sn_dob_case 5%nat 1 3%nat 1%nat 1%nat (42591/1000000) (1331/31250) (1331/31250) (71517/1000000) (71517/1000000) 80 80. Qed.
Lemma sn_dob_6 : sn_dob_defined 6 1 3 1 1.
Proof. sn_dob_case 6%nat 1 3%nat 1%nat 1%nat (37267/1000000) (9317/250000) (27951/1000000) (25983/1000000) (25983/1000000) 160 120. Qed.
Lemma sn_dob_7 : sn_dob_defined 7 1 7 1 1.
Proof. sn_dob_case 7%nat 1 7%nat 1%nat 1%nat (4421/200000) (11053/500000) (29013/1000000) (6913/125000) (6913/125000) 128 168. Qed.
Lemma sn_dob_8 : sn_dob_defined 8 1 8 1 1.
Proof. sn_dob_case 8%nat 1 8%nat 1%nat 1%nat (21821/1000000) (10911/500000) (3819/200000) (28411/500000) (28411/500000) 256 224. Qed.
Lemma sn_dob_9 : sn_dob_defined 9 1 9 1 1.
Proof. sn_dob_case 9%nat 1 9%nat 1%nat 1%nat (5603/250000) (22413/1000000) (12607/1000000) (63443/1000000) (63443/1000000) 512 288. Qed.
Lemma sn_dob_10 : sn_dob_defined 10 1 9 1 2.
Proof. sn_dob_case 10%nat 1 9%nat 1%nat 2%nat (18781/1000000) (9391/500000) (2113/200000) (104779/1000000) (5239/100000) 5120 2880. Qed.
Lemma sn_dob_11 : sn_dob_defined 11 1 5 1 2.
Proof. sn_dob_case 11%nat 1 5%nat 1%nat 2%nat (23141/1000000) (11571/500000) (6199/1000000) (54609/1000000) (5461/200000) 14784 3960. Qed.
Lemma sn_dob_12 : sn_dob_defined 12 1 12 1 2.
Proof. sn_dob_case 12%nat 1 12%nat 1%nat 2%nat (227/25000) (9081/1000000) (5853/500000) (4737/125000) (4737/250000) 4096 5280. Qed.
Lemma sn_dob_13 : sn_dob_defined 13 1 13 1 2.
Proof. sn_dob_case 13%nat 1 13%nat 1%nat 2%nat (4899/500000) (9799/1000000) (821/100000) (1213/25000) (1213/50000) 8192 6864. Qed.
Lemma sn_dob_14 : sn_dob_defined 14 1 14 1 2.
Proof. sn_dob_case 14%nat 1 14%nat 1%nat 2%nat (10783/1000000) (337/31250) (23/4000) (61187/1000000) (15297/500000) 16384 8736. Qed.
Lemma sn_dob_15 : sn_dob_defined 15 1 15 1 2.
Proof. sn_dob_case 15%nat 1 15%nat 1%nat 2%nat (12071/1000000) (1509/125000) (4023/1000000) (75837/1000000) (37919/1000000) 32768 10920. Qed.
Lemma sn_dob_16 : sn_dob_defined 16 (-1) 15 1 4.
Proof. sn_dob_case 16%nat (-1) 15%nat 1%nat 4%nat (5379/1000000) (269/50000) (1793/250000) (32207/1000000) (2013/250000) 524288 698880. Qed.
Lemma sn_dob_17 : sn_dob_defined 17 1 17 1 3.
Proof. sn_dob_case 17%nat 1 17%nat 1%nat 3%nat (5167/1000000) (323/62500) (3003/500000) (4007/125000) (5343/500000) 131072 152320. Qed.
Lemma sn_dob_18 : sn_dob_defined 18 1 18 1 3.
Proof. sn_dob_case 18%nat 1 18%nat 1%nat 3%nat (5813/1000000) (2907/500000) (543/125000) (46231/1000000) (15411/1000000) 262144 195840. Qed.
Lemma sn_dob_19 : sn_dob_defined 19 1 19 1 3.
Proof. sn_dob_case 19%nat 1 19%nat 1%nat 3%nat (6623/1000000) (207/31250) (1567/500000) (3819/62500) (1273/62500) 524288 248064. Qed.
Lemma sn_dob_20 : sn_dob_defined 20 1 20 1 3.
Proof. sn_dob_case 20%nat 1 20%nat 1%nat 3%nat (763/100000) (7631/1000000) (2257/1000000) (77633/1000000) (12939/500000) 1048576 310080. Qed.
Lemma sn_dob_good n t i j k : (2 <= n)%nat -> (i <= n)%nat -> (j + k <= n)%nat -> t * t = 1 ->
  sn_dobrodeev_config n = Some (t, i, j, k) -> sn_dob_defined n t i j k -> good_scheme n 5 (ballI n) (sn_dobrodeev_1978 n).
Proof.
  intros Hn Hi Hjk Ht Hc Hd. unfold sn_dobrodeev_1978. rewrite Hc. cbn [bind]. cbv zeta. inr_pos n.
  assert (V : forall l m, (length l + m = n)%nat -> ndim_nball n (l ++ repeat 0%nat m) = bal0 n * rmoment (h_ball n) l).
  { intros l m Hl. rewrite ndim_nball_val by (rewrite ?app_length, ?repeat_length; lia). rewrite rmoment_zeros. auto. }
  assert (V0 := V [] n ltac:(cbn; lia)). assert (V2 := V [2%nat] (n - 1)%nat ltac:(cbn; lia)). assert (V4 := V [4%nat] (n - 1)%nat ltac:(cbn; lia)).
  assert (V22 := V [2%nat; 2%nat] (n - 2)%nat ltac:(cbn; lia)). cbn [app] in V0, V2, V4, V22.
  rewrite rm_0, h_ball_0, Rmult_1_r in V0. rewrite rm_2 in V2. rewrite rm_4 in V4. rewrite rm_22 in V22.
  assert (Z := bal0_nz n).
  assert (h1 : h_ball n 1 = 1 / (INR n + 2)) by (unfold h_ball; cbn [rise]; field; lra).
  assert (h2 : h_ball n 2 = 1 / ((INR n + 2) * (INR n + 4))) by (unfold h_ball; cbn [rise]; field; lra).
  assert (h3 : 3 * h_ball n 2 = 3 / ((INR n + 2) * (INR n + 4))) by (rewrite h2; field; lra).
  apply (dob_good n _ (h_ball n) (bal0 n)); auto.
  - apply ball_fs.
  - apply h_ball_0.
  - rewrite h3, h1, h2. apply Hd. auto.
Qed.
Theorem sn_dobrodeev_1978_exact n : (2 <= n <= 20)%nat -> good_scheme n 5 (ballI n) (sn_dobrodeev_1978 n).
Proof.
  intros H. do 2 (destruct n as [|n]; [lia|]).
  destruct n as [|n]; [apply (sn_dob_good 2 (-1) 1 1 1); try lia; [lra|reflexivity|apply sn_dob_2]|].
  destruct n as [|n]; [apply (sn_dob_good 3 (-1) 1 1 1); try lia; [lra|reflexivity|apply sn_dob_3]|].
  destruct n as [|n]; [apply (sn_dob_good 4 (-1) 4 1 1); try lia; [lra|reflexivity|apply sn_dob_4]|].
  destruct n as [|n]; [apply (sn_dob_good 5 1 3 1 1); try lia; [lra|reflexivity|apply sn_dob_5]|].
  destruct n as [|n]; [apply (sn_dob_good 6 1 3 1 1); try lia; [lra|reflexivity|apply sn_dob_6]|].
  destruct n as [|n]; [apply (sn_dob_good 7 1 7 1 1); try lia; [lra|reflexivity|apply sn_dob_7]|].
  destruct n as [|n]; [apply (sn_dob_good 8 1 8 1 1); try lia; [lra|reflexivity|apply sn_dob_8]|].
  destruct n as [|n]; [apply (sn_dob_good 9 1 9 1 1); try lia; [lra|reflexivity|apply sn_dob_9]|].
  destruct n as [|n]; [apply (sn_dob_good 10 1 9 1 2); try lia; [lra|reflexivity|apply sn_dob_10]|].
  destruct n as [|n]; [apply (sn_dob_good 11 1 5 1 2); try lia; [lra|reflexivity|apply sn_dob_11]|].
  destruct n as [|n]; [apply (sn_dob_good 12 1 12 1 2); try lia; [lra|reflexivity|apply sn_dob_12]|].
  destruct n as [|n]; [apply (sn_dob_good 13 1 13 1 2); try lia; [lra|reflexivity|apply sn_dob_13]|].
  destruct n as [|n]; [apply (sn_dob_good 14 1 14 1 2); try lia; [lra|reflexivity|apply sn_dob_14]|].
  destruct n as [|n]; [apply (sn_dob_good 15 1 15 1 2); try lia; [lra|reflexivity|apply sn_dob_15]|].
  destruct n as [|n]; [apply (sn_dob_good 16 (-1) 15 1 4); try lia; [lra|reflexivity|apply sn_dob_16]|].
  destruct n as [|n]; [apply (sn_dob_good 17 1 17 1 3); try lia; [lra|reflexivity|apply sn_dob_17]|].
  destruct n as [|n]; [apply (sn_dob_good 18 1 18 1 3); try lia; [lra|reflexivity|apply sn_dob_18]|].
  destruct n as [|n]; [apply (sn_dob_good 19 1 19 1 3); try lia; [lra|reflexivity|apply sn_dob_19]|].
  destruct n as [|n]; [apply (sn_dob_good 20 1 20 1 3); try lia; [lra|reflexivity|apply sn_dob_20]|].
  lia.
Qed.
