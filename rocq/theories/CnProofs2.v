(** Further cube schemes: equal weights, set-deduplicated orbits, product rules, embedded faces, trigonometric. *)
From Coq Require Import Reals List Arith Lia Lra Permutation Bool.
From Verif Require Import Spec RsumLemmas CombModel CombProofs CombProofs2 Moments SymExact
  IntegralSpec IntegralProofs IntegralProofs2 PyBase SymmModel SymmProofs MiscModel CnModel SchemeTools CnTools
  CnProofs Dobrodeev.
Import ListNotations.
Open Scope R_scope.

(* ------------------------------------------------------- Dobrodeev 1978 *)
Lemma dobrodeev_1978_config_ok n t i j k : dobrodeev_1978_config n = Some (t, i, j, k) ->
  (2 <= n <= 20)%nat /\ (i <= n)%nat /\ (j + k <= n)%nat /\ t * t = 1.
Proof.
  intros H. unfold dobrodeev_1978_config, tI, tII in H.
  do 21 (destruct n as [|n]; [try discriminate; injection H as <- <- <- <-; repeat split; try lia; lra|]).
  discriminate.
Qed.

Theorem dobrodeev_1978_exact n s : dobrodeev_1978 n = Some s ->
  s_dim s = n /\ s_degree s = 5%nat /\ exact n 5 (cubeI n) (s_rule s).
Proof.
  intros H. unfold dobrodeev_1978 in H. inv_opt. destruct v as [[[t i] j] k].
  apply dobrodeev_1978_config_ok in E. destruct E as [Hn [Hi [Hjk Ht]]].
  inv_opt. destruct v as [[[G a] b] c]. inv_opt. subst s. cbn [s_dim s_degree s_rule from_data].
  split; auto. split; auto.
  apply Rfsd_inv in E0, E1. destruct E0 as [_ ->], E1 as [_ ->].
  cbn [map fst snd list_sum fold_right app]. rewrite !Nat.add_0_r.
  match goal with |- exact _ _ _ (mk_rule (untangle ?d)) =>
    change d with (gdata [(G, [([a; - a], i); ([0], (n - i)%nat)]);
                         (G, [([b; - b], j); ([c; - c], k); ([0], (n - (j + k))%nat)])]) end.
  rewrite mk_rule_gdata.
  set (lim := repeat (-1, 1) n) in *.
  assert (X : forall l, (length l <= n)%nat -> integrate_monomial_over_ncube lim (l ++ repeat 0%nat (n - length l)) = 2 ^ n * cube_moment l).
  { intros l Hl. assert (El : length (l ++ repeat 0%nat (n - length l)) = n) by (rewrite app_length, repeat_length; lia).
    unfold lim. rewrite <- El at 1. rewrite ncube_cube_moment, El, cube_moment_zeros. auto. }
  assert (X0 := X [] ltac:(simpl; lia)). assert (X2 := X [2%nat] ltac:(simpl; lia)).
  assert (X4 := X [4%nat] ltac:(simpl; lia)). assert (X22 := X [2%nat; 2%nat] ltac:(simpl; lia)).
  cbn [length app] in X0, X2, X4, X22. rewrite Nat.sub_0_r in X0. rewrite X0, X2, X4, X22 in E.
  assert (P := pow2_nz n).
  apply (dobrodeev_exact n (cubeI n) cube_moment _ _ _ _ t i j k G a b c (cube_fs n)) in E; auto; try lia; clear.
  all: unfold cube_moment; cbn [map Rprod Nat.even]; inr_lits; field; apply pow2_nz.
Qed.

(* ------------------------------------------------------- dobrodeev_1978 is defined for 2 <= n <= 20 *)
Lemma sq_le x b : 0 <= b -> x * x <= b * b -> x <= b.
Proof. intros. nra. Qed.
Lemma sq_ge x b : 0 <= x -> 0 <= b -> b * b <= x * x -> b <= x.
Proof. intros. nra. Qed.

Lemma compute_dobrodeev_defined n z m2 f22 f4 t i j k L M ul uh wh ph qh :
  z <> 0 -> (1 <= n)%nat -> (1 <= i)%nat -> (1 <= j)%nat -> (1 <= k)%nat ->
  INR (comb n i) * 2 ^ i = L -> INR (fact n / (fact j * fact k * fact (n - j - k))) * 2 ^ (j + k) = M ->
  0 < L -> 0 < M -> (t = 1 \/ t = -1) ->
  0 <= ul -> 0 <= uh -> 0 <= wh -> 0 <= ph -> 0 <= qh ->
  0 <= f22 - m2 * m2 + (f4 - f22) / INR n ->
  ul * ul <= L / M * (f22 - m2 * m2 + (f4 - f22) / INR n) <= uh * uh ->
  M / L * (f22 - m2 * m2 + (f4 - f22) / INR n) <= wh * wh ->
  (forall u, ul <= u <= uh ->
     let Q := L / M * (- ((INR j + INR k - INR i) / INR i) * (m2 * m2) + (INR j + INR k - 1) / INR n * f4 - (INR n - 1) / INR n * f22) +
      1 / INR i * ((INR j + INR k - INR i) * (m2 * m2) + (INR j + INR k) / INR n * ((INR i - 1) * f4 - (INR n - 1) * f22)) -
      t * 2 * m2 * ((INR j + INR k - INR i) / INR i) * u in
     0 <= Q /\ INR k / INR j * Q <= ph * ph /\ INR j / INR k * Q <= qh * qh) ->
  (t = 1 -> 0 <= m2 /\ 0 <= m2 - uh - qh) -> (t = -1 -> 0 <= m2 - wh /\ 0 <= m2 + ul - ph) ->
  exists r, compute_dobrodeev n z (z * m2) (z * f22) (z * f4) t i j k = Some r.
Proof.
  intros Hz Hn Hi Hj Hk EL EM HL HM Ht Hul Huh Hwh Hph Hqh HF Hu Hw HQ HP HI.
  unfold compute_dobrodeev. cbv zeta. rewrite EL, EM.
  assert (n0 : 0 < INR n) by (apply (lt_INR 0); lia). assert (i0 : 0 < INR i) by (apply (lt_INR 0); lia).
  assert (j0 : 0 < INR j) by (apply (lt_INR 0); lia). assert (k0 : 0 < INR k) by (apply (lt_INR 0); lia).
  assert (z2 : z ^ 2 <> 0) by (apply pow_nonzero; auto).
  set (P := fun r : option (R * R * R * R) => exists x, r = Some x). change (exists r, ?c = Some r) with (P c).
  apply bind_div; auto. intros F1 E1. apply bind_div; auto. intros F2 E2. apply bind_div; auto. intros F3 E3.
  replace (z * f22 / z) with f22 in E1 by (field; auto). replace (z * f4 / z) with f4 in E3 by (field; auto).
  replace ((z * m2) ^ 2 / z ^ 2) with (m2 * m2) in E2 by (field; auto). subst F1 F2 F3.
  apply bind_div; [lra|]. intros F4 E4. apply bind_div; [lra|]. intros jki Ejki.
  apply bind_div; [lra|]. intros c1 Ec1. apply bind_div; [lra|]. intros c2 Ec2.
  apply bind_div; [lra|]. intros ji Eji. apply bind_div; [lra|]. intros jkn Ejkn.
  apply bind_div; [lra|]. intros LM ELM. apply bind_div; auto. intros mm Emm.
  replace (z * m2 / z) with m2 in Emm by (field; auto). subst mm F4 jki c1 c2 ji jkn LM.
  assert (HLM : 0 < L / M) by (apply Rdiv_lt_0_compat; auto). assert (HML : 0 < M / L) by (apply Rdiv_lt_0_compat; auto).
  apply bind_sqrt. { apply Rmult_le_pos; lra. }
  intros u Pu Qu. rewrite <- Qu in Hu.
  assert (Bu : ul <= u <= uh) by (split; [apply sq_ge|apply sq_le]; lra).
  specialize (HQ u Bu). cbv zeta in HQ. set (Q := _ - t * 2 * m2 * _ * u) in HQ. destruct HQ as [Q0 [Qp Qq]].
  apply bind_div; [lra|]. intros G EG. apply bind_div; [lra|]. intros ML EML. subst ML.
  apply bind_sqrt. { apply Rmult_le_pos; lra. }
  intros w Pw Qw. rewrite <- Qw in Hw.
  assert (Bw : w <= wh) by (apply sq_le; lra).
  apply bind_div; [lra|]. intros ni Eni. assert (Hni : 0 < ni) by (subst; apply Rdiv_lt_0_compat; auto).
  apply bind_sqrt. { apply Rmult_le_pos; [lra|]. destruct Ht as [-> | ->]; [specialize (HP eq_refl)|specialize (HI eq_refl)]; lra. }
  intros a Pa Qa. apply bind_div; [lra|]. intros njk Enjk. assert (Hnjk : 0 < njk) by (subst; apply Rdiv_lt_0_compat; lra).
  apply bind_div; [lra|]. intros kj Ekj. assert (Hkj : 0 < kj) by (subst; apply Rdiv_lt_0_compat; lra).
  apply bind_sqrt. { apply Rmult_le_pos; [lra|exact Q0]. }
  intros p Pp EP. fold Q in EP. rewrite <- Ekj, <- EP in Qp. assert (Bp : p <= ph) by (apply sq_le; lra).
  apply bind_sqrt. { apply Rmult_le_pos; [lra|]. destruct Ht as [-> | ->]; [specialize (HP eq_refl)|specialize (HI eq_refl)]; lra. }
  intros b Pb Qb. 
  apply bind_div; [lra|]. intros jk Ejk. assert (Hjk : 0 < jk) by (subst; apply Rdiv_lt_0_compat; lra).
  apply bind_sqrt. { apply Rmult_le_pos; [lra|exact Q0]. }
  intros q Pq EQ. fold Q in EQ. rewrite <- Ejk, <- EQ in Qq. assert (Bq : q <= qh) by (apply sq_le; lra).
  apply bind_sqrt. { apply Rmult_le_pos; [lra|]. destruct Ht as [-> | ->]; [specialize (HP eq_refl)|specialize (HI eq_refl)]; lra. }
  intros c Pc Qc. eexists. reflexivity.
Qed.

Lemma fact_S_R i : INR (fact (S i)) = INR (S i) * INR (fact i).
Proof. change (fact (S i)) with (S i * fact i)%nat. apply mult_INR. Qed.
Ltac fact_lits := rewrite ?fact_S_R; change (INR (fact 0)) with 1.

Lemma dobrodeev_1978_defined_if n t i j k r : dobrodeev_1978_config n = Some (t, i, j, k) ->
  compute_dobrodeev n (2 ^ n) (2 ^ n * (1/3)) (2 ^ n * (1/9)) (2 ^ n * (1/5)) t i j k = Some r ->
  exists s, dobrodeev_1978 n = Some s.
Proof.
  intros H Hr. unfold dobrodeev_1978. rewrite H. cbn [bind].
  apply dobrodeev_1978_config_ok in H. destruct H as [Hn [Hi [Hjk Ht]]].
  set (lim := repeat (-1, 1) n) in *.
  assert (X : forall l, (length l <= n)%nat -> integrate_monomial_over_ncube lim (l ++ repeat 0%nat (n - length l)) = 2 ^ n * cube_moment l).
  { intros l Hl. assert (El : length (l ++ repeat 0%nat (n - length l)) = n) by (rewrite app_length, repeat_length; lia).
    unfold lim. rewrite <- El at 1. rewrite ncube_cube_moment, El, cube_moment_zeros. auto. }
  assert (X0 := X [] ltac:(simpl; lia)). assert (X2 := X [2%nat] ltac:(simpl; lia)).
  assert (X4 := X [4%nat] ltac:(simpl; lia)). assert (X22 := X [2%nat; 2%nat] ltac:(simpl; lia)).
  cbn [length app] in X0, X2, X4, X22. rewrite Nat.sub_0_r in X0. rewrite X0, X2, X4, X22.
  unfold cube_moment. cbn [map Rprod Nat.even].
  replace (2 ^ n * 1) with (2 ^ n) by ring.
  replace (1 / INR 3 * 1) with (1/3) by (simpl; field). replace (1 / INR 5 * 1) with (1/5) by (simpl; field).
  replace (1 / INR 3 * (1 / 3)) with (1/9) by (simpl; field).
  rewrite Hr. destruct r as [[[G a] b] c]. cbn [bind].
  unfold Rfsd, fsd. cbn [map fst snd list_sum fold_right]. rewrite !Nat.add_0_r.
  rewrite (proj2 (Nat.leb_le i n) Hi), (proj2 (Nat.leb_le (j + k) n) Hjk). cbn [bind]. eexists. reflexivity.
Qed.

Ltac dob_case n t i j k ul uh wh ph qh L M :=
  let H := fresh in
  assert (H : exists r, compute_dobrodeev n (2 ^ n) (2 ^ n * (1/3)) (2 ^ n * (1/9)) (2 ^ n * (1/5)) t i j k = Some r);
  [ apply (compute_dobrodeev_defined n (2 ^ n) (1/3) (1/9) (1/5) t i j k L M ul uh wh ph qh);
    [apply pow2_nz|lia|lia|lia|lia|
     rewrite INR_comb; fact_lits; cbn [ffR]; inr_lits; field|
     rewrite multinomial2 by lia; fact_lits; cbn [ffR Nat.add]; inr_lits; field|
     lra|lra|first [left; lra|right; lra]|lra|lra|lra|lra|lra|
     inr_lits; lra|inr_lits; split; lra|inr_lits; lra|
     inr_lits; intros u Hu Q; unfold Q; repeat split; lra|
     intros; lra|intros; lra]
  | destruct H as [r Hr]; exact (dobrodeev_1978_defined_if n t i j k r eq_refl Hr) ].

Theorem dobrodeev_1978_defined n : (2 <= n <= 20)%nat -> exists s, dobrodeev_1978 n = Some s.
Proof.
  intros H.
  do 2 (destruct n as [|n]; [lia|]).
  destruct n as [|n]; [dob_case 2%nat (-1) 1%nat 1%nat 1%nat (149071/1000000) (9317/62500) (298143/1000000) (64383/250000) (64383/250000) 4 8|].
  destruct n as [|n]; [dob_case 3%nat 1 3%nat 1%nat 1%nat (4969/50000) (99381/1000000) (298143/1000000) (92973/500000) (92973/500000) 8 24|].
  destruct n as [|n]; [dob_case 4%nat 1 4%nat 1%nat 1%nat (43033/500000) (86067/1000000) (258199/1000000) (29511/250000) (29511/250000) 16 48|].
  destruct n as [|n]; [dob_case 5%nat 1 5%nat 1%nat 1%nat (84327/1000000) (10541/125000) (210819/1000000) (51307/1000000) (51307/1000000) 32 80|].
  destruct n as [|n]; [dob_case 6%nat 1 5%nat 1%nat 1%nat (3849/25000) (153961/1000000) (48113/500000) (76099/500000) (76099/500000) 192 120|].
  destruct n as [|n]; [dob_case 7%nat 1 6%nat 1%nat 2%nat (16459/200000) (10287/125000) (2411/15625) (100199/1000000) (5011/100000) 448 840|].
  destruct n as [|n]; [dob_case 8%nat 1 7%nat 1%nat 2%nat (11501/125000) (92009/1000000) (60381/500000) (22983/200000) (14367/250000) 1024 1344|].
  destruct n as [|n]; [dob_case 9%nat 1 6%nat 1%nat 2%nat (10143/62500) (162289/1000000) (60859/1000000) (15851/125000) (31707/500000) 5376 2016|].
  destruct n as [|n]; [dob_case 10%nat 1 6%nat 1%nat 9%nat (27003/250000) (108013/1000000) (10287/125000) (276523/500000) (15367/250000) 13440 10240|].
  destruct n as [|n]; [dob_case 11%nat 1 6%nat 1%nat 10%nat (20597/200000) (51493/500000) (39233/500000) (23653/200000) (2369/200000) 29568 22528|].
  destruct n as [|n]; [dob_case 12%nat 1 7%nat 1%nat 11%nat (123603/1000000) (30901/250000) (59929/1000000) (489531/1000000) (44521/1000000) 101376 49152|].
  destruct n as [|n]; [dob_case 13%nat 1 8%nat 2%nat 2%nat (45291/250000) (36233/200000) (37743/1000000) (57529/1000000) (57529/1000000) 329472 68640|].
  destruct n as [|n]; [dob_case 14%nat 1 8%nat 1%nat 13%nat (1167/8000) (36469/250000) (1741/40000) (84349/500000) (3249/250000) 768768 229376|].
  destruct n as [|n]; [dob_case 15%nat 1 9%nat 1%nat 14%nat (175769/1000000) (17577/100000) (6743/200000) (203711/250000) (29111/500000) 2562560 491520|].
  destruct n as [|n]; [dob_case 16%nat 1 10%nat 2%nat 3%nat (90267/500000) (36107/200000) (30773/1000000) (39933/250000) (21299/200000) 8200192 1397760|].
  destruct n as [|n]; [dob_case 17%nat 1 10%nat 2%nat 3%nat (229317/1000000) (114659/500000) (11401/500000) (26167/500000) (2181/62500) 19914752 1980160|].
  destruct n as [|n]; [dob_case 18%nat 1 15%nat 3%nat 3%nat (4659/62500) (14909/200000) (33123/500000) (3343/62500) (3343/62500) 26738688 23761920|].
  destruct n as [|n]; [dob_case 19%nat (-1) 9%nat 1%nat 18%nat (1863/12500) (149041/1000000) (3139/100000) (7361/31250) (6553/500000) 47297536 9961472|].
  destruct n as [|n]; [dob_case 20%nat 1 9%nat 1%nat 18%nat (43799/1000000) (219/5000) (101473/1000000) (268087/500000) (29807/1000000) 85995520 199229440|].
  lia.
Qed.
