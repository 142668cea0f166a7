(** Dobrodeev's equal-weight rules for radial weights, and the sphere variant in un/_dobrodeev_1978.py. *)
From Coq Require Import Reals List Arith Lia Lra Permutation Bool.
From Verif Require Import Spec RsumLemmas CombModel CombProofs CombProofs2 Moments SymExact
  IntegralSpec IntegralProofs PyBase SymmModel SymmProofs MiscModel CnModel SchemeTools CnTools CnProofs Dobrodeev CnProofs2
  SphereSpec SphereInt RadialInt RadialTools UnModel UnProofs.
Import ListNotations.
Set Bullet Behavior "Strict Subproofs".
Open Scope R_scope.

Lemma fsd_ok n l : (list_sum (map snd l) <= n)%nat -> exists p, Rfsd n l = Some p.
Proof. intros H. unfold Rfsd, fsd. rewrite (proj2 (Nat.leb_le _ _) H). eexists. reflexivity. Qed.

Lemma dob_good n I h z I0 I2 I22 I4 t i j k : fs_functional n I (rmoment h) -> h 0%nat = 1 -> z <> 0 ->
  (2 <= n)%nat -> (i <= n)%nat -> (j + k <= n)%nat -> t * t = 1 ->
  I0 = z -> I2 = z * h 1%nat -> I22 = z * h 2%nat -> I4 = z * (3 * h 2%nat) ->
  (exists r, compute_dobrodeev n z (z * h 1%nat) (z * h 2%nat) (z * (3 * h 2%nat)) t i j k = Some r) ->
  good_scheme n 5 I (let! (G, a, b, c) := compute_dobrodeev n I0 I2 I22 I4 t i j k in
      let! p1 := Rfsd n [(a, i)] in
      let! p2 := Rfsd n [(b, j); (c, k)] in
      Some (from_data n [(G, p1); (G, p2)] 5)).
Proof.
  intros HI H0 Hz Hn Hi Hjk Ht -> -> -> -> [[[[G a] b] c] Hr]. rewrite Hr. cbn [bind].
  assert (E := Hr). apply (dobrodeev_exact n I (rmoment h)) in E; auto.
  - apply bind_fsd; [cbn; lia|]. apply bind_fsd; [cbn; lia|]. cbn [map fst snd list_sum fold_right app]. rewrite !Nat.add_0_r.
    exact (from_data_good n [(G, [([a; - a], i); ([0], (n - i)%nat)]); (G, [([b; - b], j); ([c; - c], k); ([0], (n - (j + k))%nat)])] 5 I E).
  - rewrite rm_0. auto.
  - rewrite rm_2. field. auto.
  - rewrite rm_4. field. auto.
  - rewrite rm_22. field. auto.
Qed.

(** "TODO prove F==0 analytically": on the sphere F = 0, so that the sphere variant agrees with the general one. *)
Lemma un_dobrodeev_is_general n I0 I2 I22 I4 t i j k : (1 <= n)%nat -> I0 <> 0 -> 0 < INR (comb n i) ->
  0 < INR (fact n / (fact j * fact k * fact (n - j - k)))  ->
  I22 / I0 - I2 ^ 2 / I0 ^ 2 + (I4 / I0 - I22 / I0) / INR n = 0 ->
  comb n i = (fact n / (fact i * fact (n - i)))%nat ->
  un_compute_dobrodeev n I0 I2 I22 I4 t i j k = compute_dobrodeev n I0 I2 I22 I4 t i j k.
Proof.
  intros Hn H0 HL HM HF Hc. unfold un_compute_dobrodeev, compute_dobrodeev. cbv zeta. rewrite <- Hc.
  set (L := INR (comb n i) * 2 ^ i). set (M := INR (fact n / (fact j * fact k * fact (n - j - k))) * 2 ^ (j + k)).
  assert (PL : 0 < L) by (apply Rmult_lt_0_compat; [auto|apply pow_lt; lra]).
  assert (PM : 0 < M) by (apply Rmult_lt_0_compat; [auto|apply pow_lt; lra]).
  inr_pos n. assert (I0 ^ 2 <> 0) by (apply pow_nonzero; auto).
  rewrite (rdiv_ok I22), (rdiv_ok (I2 ^ 2)), (rdiv_ok I4) by auto. cbn [bind].
  rewrite (rdiv_ok (I4 / I0 - _)) by lra. cbn [bind]. rewrite HF.
  destruct (rdiv (INR j + INR k - INR i) (INR i)) as [jki|]; [cbn [bind]|reflexivity].
  rewrite !(rdiv_ok _ (INR n)) by lra. cbn [bind]. 
  destruct (rdiv 1 (INR i)) as [ji|]; [cbn [bind]|reflexivity].
  rewrite (rdiv_ok L M), (rdiv_ok M L), (rdiv_ok I2 I0) by (auto; lra). cbn [bind]. rewrite !Rmult_0_r. rewrite !rsqrt_ok with (x := 0) by lra. rewrite sqrt_0. cbn [bind].
  rewrite (rdiv_ok 1 (L + M)) by lra. cbn [bind].
  rewrite !Rmult_0_r, !Rplus_0_r. unfold Rminus. rewrite !Ropp_0, !Rplus_0_r.
  reflexivity.
Qed.

Lemma ndim_nsphere_val n k : (1 <= n)%nat -> length k = n -> ndim_nsphere n k = sph0 n * rmoment (h_sphere n) k.
Proof. intros Hn Hk. unfold ndim_nsphere. destruct n as [|n]; [lia|]. rewrite sphere_int_k, sph_closed, Hk by (auto; intros ->; discriminate). auto. Qed.
Lemma comb_fact n i : (i <= n)%nat -> comb n i = (fact n / (fact i * fact (n - i)))%nat.
Proof.
  intros H. assert (E := multinomial2 n i 0 ltac:(lia)). rewrite Nat.sub_0_r, Nat.add_0_r in E. change (fact 0) with 1%nat in E. rewrite Nat.mul_1_r in E.
  apply INR_eq. rewrite E, INR_comb. cbn [INR]. field. apply INR_fact_neq_0.
Qed.

(** compute_dobrodeev is defined: the square roots are enclosed by rational bounds. *)
Ltac dob_def m2 f22 f4 n t i j k ul uh wh ph qh L M :=
  apply (compute_dobrodeev_defined n _ m2 f22 f4 t i j k L M ul uh wh ph qh);
    [assumption|lia|lia|lia|lia|
     rewrite INR_comb; fact_lits; cbn [ffR]; inr_lits; field|
     rewrite multinomial2 by lia; fact_lits; cbn [ffR Nat.add]; inr_lits; field|
     lra|lra|first [left; lra|right; lra]|lra|lra|lra|lra|lra|
     inr_lits; lra|inr_lits; split; lra|inr_lits; lra|
     inr_lits; intros ? ? Q; unfold Q; repeat split; lra|
     intros; lra|intros; lra].

Definition un_dob_defined (n : nat) (t : R) (i j k : nat) := forall z, z <> 0 ->
  exists r, compute_dobrodeev n z (z * (1 / INR n)) (z * (1 / (INR n * (INR n + 2)))) (z * (3 / (INR n * (INR n + 2)))) t i j k = Some r.
Ltac un_dob_case n t i j k ul uh wh ph qh L M :=
  let H := fresh in
  let nn := eval cbv in (Z.of_nat n) in
  assert (H : un_dob_defined n t i j k);
  [intros z Hz; inr_lits; dob_def (1 / IZR nn) (1 / (IZR nn * (IZR nn + 2))) (3 / (IZR nn * (IZR nn + 2))) n t i j k ul uh wh ph qh L M|exact H].
Lemma un_dob_5 : un_dob_defined 5 1 5 1 1.
Proof. un_dob_case 5%nat 1 5%nat 1%nat 1%nat 0 0 0 (40001/1000000) (40001/1000000) 32 80. Qed.
Lemma un_dob_6 : un_dob_defined 6 1 5 1 1.
Proof. un_dob_case 6%nat 1 5%nat 1%nat 1%nat 0 0 0 (92797/1000000) (92797/1000000) 192 120. Qed.
Lemma un_dob_8 : un_dob_defined 8 1 8 1 1.
Proof. un_dob_case 8%nat 1 8%nat 1%nat 1%nat 0 0 0 0 0 256 224. Qed.
Lemma un_dob_9 : un_dob_defined 9 1 9 1 1.
Proof. un_dob_case 9%nat 1 9%nat 1%nat 1%nat 0 0 0 (7701/200000) (7701/200000) 512 288. Qed.
Lemma un_dob_10 : un_dob_defined 10 1 10 1 1.
Proof. un_dob_case 10%nat 1 10%nat 1%nat 1%nat 0 0 0 (29721/500000) (29721/500000) 1024 360. Qed.
Lemma un_dob_11 : un_dob_defined 11 1 11 1 1.
Proof. un_dob_case 11%nat 1 11%nat 1%nat 1%nat 0 0 0 (19859/250000) (19859/250000) 2048 440. Qed.
Lemma un_dob_12 : un_dob_defined 12 1 5 1 1.
Proof. un_dob_case 12%nat 1 5%nat 1%nat 1%nat 0 0 0 (9317/125000) (9317/125000) 25344 528. Qed.
Lemma un_dob_13 : un_dob_defined 13 1 13 1 2.
Proof. un_dob_case 13%nat 1 13%nat 1%nat 2%nat 0 0 0 (10969/500000) (10969/1000000) 8192 6864. Qed.
Lemma un_dob_14 : un_dob_defined 14 1 14 1 2.
Proof. un_dob_case 14%nat 1 14%nat 1%nat 2%nat 0 0 0 (469/10000) (469/20000) 16384 8736. Qed.
Lemma un_dob_15 : un_dob_defined 15 1 15 1 2.
Proof. un_dob_case 15%nat 1 15%nat 1%nat 2%nat 0 0 0 (67849/1000000) (1357/40000) 32768 10920. Qed.
Lemma un_dob_16 : un_dob_defined 16 1 16 1 2.
Proof. un_dob_case 16%nat 1 16%nat 1%nat 2%nat 0 0 0 (17887/200000) (22359/500000) 65536 13440. Qed.
Lemma un_dob_17 : un_dob_defined 17 1 17 1 2.
Proof. un_dob_case 17%nat 1 17%nat 1%nat 2%nat 0 0 0 (113477/1000000) (56739/1000000) 131072 16320. Qed.
Lemma un_dob_18 : un_dob_defined 18 1 18 1 3.
Proof. un_dob_case 18%nat 1 18%nat 1%nat 3%nat 0 0 0 (15641/500000) (2607/250000) 262144 195840. Qed.
Lemma un_dob_19 : un_dob_defined 19 1 19 1 3.
Proof. un_dob_case 19%nat 1 19%nat 1%nat 3%nat 0 0 0 (52701/1000000) (17567/1000000) 524288 248064. Qed.
Lemma un_dob_20 : un_dob_defined 20 1 20 1 3.
Proof. un_dob_case 20%nat 1 20%nat 1%nat 3%nat 0 0 0 (73161/1000000) (24387/1000000) 1048576 310080. Qed.

Lemma sph0_nz n : (1 <= n)%nat -> sph0 n <> 0.
Proof. intros H. destruct n; [lia|]. apply Rgt_not_eq, sph0_pos. Qed.
Lemma repeat_sub {A} (a : A) n k : (k <= n)%nat -> length (repeat a (n - k)) = (n - k)%nat.
Proof. intros. apply repeat_length. Qed.

Lemma un_dob_good n t i j k : (2 <= n)%nat -> (1 <= i <= n)%nat -> (1 <= j)%nat -> (j + k <= n)%nat -> t = 1 ->
  un_dobrodeev_config n = Some (t, i, j, k) ->
  un_dob_defined n t i j k -> good_scheme n 5 (sphereI n) (un_dobrodeev_1978 n).
Proof.
  intros Hn Hi Hj Hjk Ht Hc Hd. unfold un_dobrodeev_1978. rewrite Hc. cbn [bind].
  destruct i as [|i']; [lia|]. destruct j as [|j']; [lia|]. cbv zeta. inr_pos n.
  set (i := S i') in *. set (j := S j') in *.
  assert (V : forall l m, (length l + m = n)%nat -> ndim_nsphere n (l ++ repeat 0%nat m) = sph0 n * rmoment (h_sphere n) l).
  { intros l m Hl. rewrite ndim_nsphere_val by (rewrite ?app_length, ?repeat_length; lia). rewrite rmoment_zeros. auto. }
  assert (V0 := V [] n ltac:(cbn; lia)). assert (V2 := V [2%nat] (n - 1)%nat ltac:(cbn; lia)). assert (V4 := V [4%nat] (n - 1)%nat ltac:(cbn; lia)).
  assert (V22 := V [2%nat; 2%nat] (n - 2)%nat ltac:(cbn; lia)). cbn [app] in V0, V2, V4, V22.
  rewrite rm_0, h_sphere_0, Rmult_1_r in V0. rewrite rm_2 in V2. rewrite rm_4 in V4. rewrite rm_22 in V22.
  assert (Z := sph0_nz n ltac:(lia)).
  assert (h1 : h_sphere n 1 = 1 / INR n) by (unfold h_sphere; cbn [rise]; field; lra).
  assert (h2 : h_sphere n 2 = 1 / (INR n * (INR n + 2))) by (unfold h_sphere; cbn [rise]; field; lra).
  assert (h3 : 3 * h_sphere n 2 = 3 / (INR n * (INR n + 2))) by (rewrite h2; field; lra).
  rewrite un_dobrodeev_is_general.
  - apply (dob_good n _ (h_sphere n) (sph0 n)); auto; try lia.
    + apply sphere_fs. lia.
    + apply h_sphere_0.
    + rewrite Ht; lra.
    + rewrite h3, h1, h2. apply Hd. auto.
  - lia.
  - rewrite V0. auto.
  - rewrite INR_comb. assert (X := fact_ffR i n ltac:(lia)). pose proof (lt_0_INR _ (lt_O_fact n)). pose proof (lt_0_INR _ (lt_O_fact (n - i))). pose proof (lt_0_INR _ (lt_O_fact i)).
    apply Rdiv_lt_0_compat; auto. apply (Rmult_lt_reg_r (INR (fact (n - i)))); auto. rewrite Rmult_0_l, <- X. auto.
  - rewrite multinomial2 by auto. assert (X := fact_ffR (j + k) n ltac:(lia)). pose proof (lt_0_INR _ (lt_O_fact n)). pose proof (lt_0_INR _ (lt_O_fact (n - (j + k)))). pose proof (lt_0_INR _ (lt_O_fact j)). pose proof (lt_0_INR _ (lt_O_fact k)).
    apply Rdiv_lt_0_compat; [|apply Rmult_lt_0_compat; auto]. apply (Rmult_lt_reg_r (INR (fact (n - (j + k))))); auto. rewrite Rmult_0_l, <- X. auto.
  - rewrite V0, V2, V4, V22. rewrite h1, h2. field. repeat split; lra.
  - apply comb_fact. lia.
Qed.

(* n = 4, 7: one orbit *)
Lemma un_gen_i n i : (1 <= i <= n)%nat -> (2 <= n)%nat -> 3 * INR i = INR n + 2 -> good_scheme n 5 (sphereI n)
  (let! (G, a) := un_generate_i n i in let! p := Rfsd n [(a, i)] in Some (from_data n [(G, p)] 5)).
Proof.
  intros Hi Hn Hc. unfold un_generate_i. cbv zeta. inr_pos n.
  assert (EL : INR (fact n / fact i / fact (n - i)) = INR (comb n i)).
  { f_equal. rewrite comb_fact, Nat.div_div by (try lia; apply fact_neq_0). auto. }
  rewrite EL. assert (PL : 0 < INR (comb n i) * 2 ^ i).
  { apply Rmult_lt_0_compat; [|apply pow_lt; lra]. rewrite INR_comb. assert (X := fact_ffR i n ltac:(lia)). pose proof (lt_0_INR _ (lt_O_fact n)). pose proof (lt_0_INR _ (lt_O_fact (n - i))). pose proof (lt_0_INR _ (lt_O_fact i)).
    apply Rdiv_lt_0_compat; auto. apply (Rmult_lt_reg_r (INR (fact (n - i)))); auto. rewrite Rmult_0_l, <- X. auto. }
  rewrite rdiv_ok by lra. cbn [bind]. assert (P3 : 0 < 3 / (INR n + 2)) by (apply Rdiv_lt_0_compat; lra).
  rewrite rsqrt_ok by lra. cbn [bind]. set (a := sqrt _). assert (Qa : a * a = 3 / (INR n + 2)) by (apply sqrt_sqrt; lra).
  apply bind_fsd; [cbn; lia|]. cbn [map fst snd list_sum fold_right app]. rewrite !Nat.add_0_r.
  set (G := 1 / (INR (comb n i) * 2 ^ i)).
  apply (from_data_good n [(G, [([a; - a], i); ([0], (n - i)%nat)])] 5).
  assert (Fs := sphere_fs n ltac:(lia)).
  apply (fs_exact_even _ _ _ _ _ Fs); [ok_groups|even_groups|]. intros l Hl Hl2. cbn [map fst snd Rsum].
  rewrite (gnum_c G n i 0 [a; - a]) by lia. cbn [length]. replace (INR 2) with 2 by (simpl; lra). unfold G.
  assert (Hi1 : 1 <= INR i) by (apply (le_INR 1); lia).
  assert (INR (comb n i) <> 0) by (intros E; rewrite E in PL; lra). assert (P2 := pow2_nz i).
  assert (EN : INR n = 3 * INR i - 2) by lra.
  assert (2 <= INR n) by (apply (le_INR 2); lia).
  split_parts Hl; exp_avg; red_means; rad_rhs; rewrite ?Qa, ?EN; field; repeat split; try lra; auto.
Qed.
Lemma pow1_INR m : INR 1 ^ m = 1.
Proof. cbn [INR]. apply pow1. Qed.
(* n = 2, 3: one orbit with two values *)
Lemma un_gen_jk n : (2 <= n <= 3)%nat -> good_scheme n 5 (sphereI n)
  (let! (G, b, c) := un_generate_jk n 1 1 1 in let! p := Rfsd n [(b, 1%nat); (c, 1%nat)] in Some (from_data n [(G, p)] 5)).
Proof.
  intros Hn. unfold un_generate_jk. cbv zeta. cbn [INR Nat.add]. 
  assert (EM : INR (fact n / fact 1 / fact 1 / fact (n - 1 - 1)) * 2 ^ 2 = 4 * (INR n * (INR n - 1))).
  { assert (n = 2 \/ n = 3)%nat as [-> | ->] by lia; cbn; lra. }
  inr_pos n. assert (HN : 2 <= INR n <= 3) by (split; [apply (le_INR 2); lia|replace 3 with (INR 3) by (simpl; lra); apply le_INR; lia]).
  rewrite EM. rewrite rdiv_ok by nra. cbn [bind]. rewrite rdiv_ok by lra. cbn [bind]. rewrite rdiv_ok by lra. cbn [bind].
  assert (P : 0 <= 3 * (1 + 1) / (INR n + 2) - 1 <= 1/2).
  { assert (E : 3 * (1 + 1) / (INR n + 2) - 1 = (4 - INR n) / (INR n + 2)) by (field; lra). rewrite E. split; [apply Rlt_le, Rdiv_lt_0_compat; lra|].
    apply (Rmult_le_reg_r (INR n + 2)); [lra|]. unfold Rdiv at 1. rewrite Rmult_assoc, Rinv_l by lra. lra. }
  apply bind_sqrt; [lra|]. intros d Pd Qd. assert (d <= 1) by nra. 
  apply bind_sqrt; [nra|]. intros b Pb Qb. apply bind_sqrt; [nra|]. intros c Pc Qc. cbn [bind].
  apply bind_fsd; [cbn; lia|]. cbn [map fst snd list_sum fold_right app]. rewrite !Nat.add_0_r.
  set (G := 1 / (4 * (INR n * (INR n - 1)))).
  apply (from_data_good n [(G, [([b; - b], 1%nat); ([c; - c], 1%nat); ([0], (n - 2)%nat)])] 5).
  assert (EN : INR n = (4 - 2 * (d * d)) / (1 + d * d)).
  { assert (X : d * d + 1 = 6 / (INR n + 2)) by (rewrite Qd; field; lra). apply (Rmult_eq_reg_r (1 + d * d)); [|lra]. 
    unfold Rdiv. rewrite Rmult_assoc, Rinv_l by lra. rewrite (Rplus_comm 1), X. replace (d * d) with (6 / (INR n + 2) - 1) by lra. field. lra. }
  assert (D2 : 0 <= d * d <= 1 / 2) by lra. unfold G. clear Qd P HN EM. 
  un_even n. all: rad_pre n; rewrite ?Qb, ?Qc; rewrite pow1_INR; inr_lits; rewrite EN; field; repeat split; try lra; try nra.
Qed.
Theorem un_dobrodeev_1978_exact n : (2 <= n <= 20)%nat -> good_scheme n 5 (sphereI n) (un_dobrodeev_1978 n).
Proof.
  intros H. do 2 (destruct n as [|n]; [lia|]).
  destruct n as [|n]; [apply un_gen_jk; lia|]. destruct n as [|n]; [apply un_gen_jk; lia|].
  destruct n as [|n]; [apply (un_gen_i 4 2); [lia|lia|simpl; lra]|].
  destruct n as [|n]; [apply (un_dob_good 5 1 5 1 1); try lia; [reflexivity|reflexivity|apply un_dob_5]|].
  destruct n as [|n]; [apply (un_dob_good 6 1 5 1 1); try lia; [reflexivity|reflexivity|apply un_dob_6]|].
  destruct n as [|n]; [apply (un_gen_i 7 3); [lia|lia|simpl; lra]|].
  destruct n as [|n]; [apply (un_dob_good 8 1 8 1 1); try lia; [reflexivity|reflexivity|apply un_dob_8]|].
  destruct n as [|n]; [apply (un_dob_good 9 1 9 1 1); try lia; [reflexivity|reflexivity|apply un_dob_9]|].
  destruct n as [|n]; [apply (un_dob_good 10 1 10 1 1); try lia; [reflexivity|reflexivity|apply un_dob_10]|].
  destruct n as [|n]; [apply (un_dob_good 11 1 11 1 1); try lia; [reflexivity|reflexivity|apply un_dob_11]|].
  destruct n as [|n]; [apply (un_dob_good 12 1 5 1 1); try lia; [reflexivity|reflexivity|apply un_dob_12]|].
  destruct n as [|n]; [apply (un_dob_good 13 1 13 1 2); try lia; [reflexivity|reflexivity|apply un_dob_13]|].
  destruct n as [|n]; [apply (un_dob_good 14 1 14 1 2); try lia; [reflexivity|reflexivity|apply un_dob_14]|].
  destruct n as [|n]; [apply (un_dob_good 15 1 15 1 2); try lia; [reflexivity|reflexivity|apply un_dob_15]|].
  destruct n as [|n]; [apply (un_dob_good 16 1 16 1 2); try lia; [reflexivity|reflexivity|apply un_dob_16]|].
  destruct n as [|n]; [apply (un_dob_good 17 1 17 1 2); try lia; [reflexivity|reflexivity|apply un_dob_17]|].
  destruct n as [|n]; [apply (un_dob_good 18 1 18 1 3); try lia; [reflexivity|reflexivity|apply un_dob_18]|].
  destruct n as [|n]; [apply (un_dob_good 19 1 19 1 3); try lia; [reflexivity|reflexivity|apply un_dob_19]|].
  destruct n as [|n]; [apply (un_dob_good 20 1 20 1 3); try lia; [reflexivity|reflexivity|apply un_dob_20]|].
  lia.
Qed.
