(** Clenshaw-Curtis and Fejer rules: the spectra and the degrees. *)
From Coq Require Import Reals List Arith ZArith Lia Lra Bool.
From Coquelicot Require Import Coquelicot.
From Verif Require Import Spec Spec1 RsumLemmas IntegralProofs IntegralPoly SphereInt C1Tools TrigSums TrigPoly Interp AdaptModel PyBase UnModel C1Model C1Proofs C1Cc.
Import ListNotations.
Set Bullet Behavior "Strict Subproofs".
Open Scope R_scope.

Definition ccoef (i : nat) : R := 2 / (1 - 4 * INR i * INR i).
Lemma odd_nz i : 1 - 4 * INR i * INR i <> 0.
Proof.
  destruct i as [|i]; [cbn; lra|]. assert (1 <= INR (S i)) by (rewrite S_INR; assert (0 <= INR i) by apply pos_INR; lra). nra.
Qed.
Lemma cosint_even i : cosint (2 * i) = ccoef i.
Proof.
  unfold cosint, ccoef. replace (Nat.odd (2 * i)) with false by (symmetry; rewrite Nat.odd_mul; auto). rewrite mult_INR. cbn [INR]. f_equal. ring.
Qed.
Lemma cosint_odd i : cosint (2 * i + 1) = 0.
Proof. unfold cosint. replace (Nat.odd (2 * i + 1)) with true; auto. symmetry. apply Nat.odd_spec. exists i. lia. Qed.
Definition wald_u (N i : nat) : R :=
  if (i <? N / 2)%nat then 2 / INR (2 * i + 1) / (INR (2 * i + 1) - 2) else if (i =? N / 2)%nat then 1 / INR (2 * (N / 2 - 1) + 1) else 0.
Lemma wald_u_small N i : (i < N / 2)%nat -> wald_u N i = - ccoef i.
Proof.
  intros H. unfold wald_u. apply Nat.ltb_lt in H. rewrite H. unfold ccoef. rewrite plus_INR, mult_INR. cbn [INR]. replace (1 + 1) with 2 by ring.
  assert (Z := odd_nz i). assert (0 <= INR i) by apply pos_INR. field. repeat split; try lra. intros E. apply Z. replace (1 - 4 * INR i * INR i) with (- (2 * INR i + 1) * (2 * INR i + 1 - 2)) by ring. rewrite E. ring.
Qed.
Lemma wald_u_big N i : (N / 2 < i)%nat -> wald_u N i = 0.
Proof. intros H. unfold wald_u. destruct (Nat.ltb_spec i (N / 2)); [lia|]. destruct (Nat.eqb_spec i (N / 2)); [lia|auto]. Qed.
Lemma wald_u_mid N : (2 <= N)%nat -> wald_u N (N / 2) = 1 / (2 * INR (N / 2) - 1).
Proof.
  intros H. unfold wald_u. rewrite Nat.ltb_irrefl, Nat.eqb_refl. assert (1 <= N / 2)%nat by (apply (Nat.div_le_mono 2 N 2); lia). f_equal. rewrite plus_INR, mult_INR, minus_INR by lia. cbn [INR]. ring.
Qed.
Lemma half_ge N : (2 <= N)%nat -> (1 <= N / 2)%nat /\ (2 * (N / 2) <= N)%nat /\ (N <= 2 * (N / 2) + 1)%nat.
Proof. intros H. assert (D := Nat.div_mod N 2 ltac:(lia)). assert (B := Nat.mod_upper_bound N 2 ltac:(lia)). lia. Qed.
Lemma wald_v0_map N : (2 <= N)%nat -> waldvogel_v0 N = Some (map (wald_u N) (seq 0 (N + 1))).
Proof.
  intros H. destruct (half_ge N H) as [H1 [H2 H3]]. unfold waldvogel_v0. assert (E : exists t, rev (odds_below N) = INR (2 * (N / 2 - 1) + 1) :: t).
  { unfold odds_below. replace (seq 0 (N / 2)) with (seq 0 (N / 2 - 1 + 1)) by (f_equal; lia). rewrite seq_app, map_app, rev_app_distr. cbn [seq map rev app Nat.add]. eexists. reflexivity. }
  destruct E as [t E]. rewrite E. f_equal. unfold odds_below. rewrite map_length, seq_length, map_map.
  replace (seq 0 (N + 1)) with (seq 0 (N / 2 + (1 + (N - N / 2)))) by (f_equal; lia). rewrite (seq_app (N / 2)), (seq_app 1), !map_app. f_equal; [|f_equal].
  - apply map_ext_in. intros i Hi. apply in_seq in Hi. unfold wald_u. destruct (Nat.ltb_spec i (N / 2)); [auto|lia].
  - cbn [seq map Nat.add]. unfold wald_u. rewrite Nat.ltb_irrefl, Nat.eqb_refl. auto.
  - rewrite <- (seq_length (N - N / 2) (0 + N / 2 + 1)) at 1. rewrite repeat_map. apply map_ext_in. intros i Hi. apply in_seq in Hi. rewrite wald_u_big by lia. auto.
Qed.
Definition wald_v (N i : nat) : R := - wald_u N i - wald_u N (N - i).
Lemma wald_v2_map N : waldvogel_v2 (map (wald_u N) (seq 0 (N + 1))) = map (wald_v N) (seq 0 N).
Proof. unfold waldvogel_v2. rewrite removelast_map_seq, rev_tl_map_seq, combine_map2, map_map. reflexivity. Qed.
Lemma wald_v_sym N : spectrum_sym N (wald_v N).
Proof. intros i H. unfold wald_v. replace (N - (N - i))%nat with i by lia. ring. Qed.
Lemma wald_v_small N i : (2 <= N)%nat -> (i < N / 2)%nat -> wald_v N i = ccoef i.
Proof. intros H Hi. destruct (half_ge N H) as [H1 [H2 H3]]. unfold wald_v. rewrite wald_u_small, wald_u_big by lia. ring. Qed.
Lemma telescope L : (1 <= L)%nat -> Rsum (map ccoef (seq 0 L)) = 1 + 1 / (2 * INR L - 1).
Proof.
  induction L as [|L IH]; intros H; [lia|]. destruct L as [|L].
  - cbn. unfold ccoef. cbn. field.
  - replace (S (S L)) with (S L + 1)%nat at 1 by lia. rewrite seq_app, map_app, Rsum_app, IH by lia. cbn [seq map Rsum Nat.add]. unfold ccoef. assert (P : 0 <= INR L) by apply pos_INR. rewrite !S_INR. field. repeat split; nra.
Qed.
Lemma wald_v_sum N : (2 <= N)%nat -> Rsum (map (wald_v N) (seq 0 N)) = 0.
Proof.
  intros H. destruct (half_ge N H) as [H1 [H2 H3]].
  assert (T : Rsum (map (wald_u N) (seq 0 (N + 1))) = -1).
  { replace (seq 0 (N + 1)) with (seq 0 (N / 2 + (1 + (N - N / 2)))) by (f_equal; lia). rewrite (seq_app (N / 2)), (seq_app 1), !map_app, !Rsum_app.
    rewrite (Rsum_map_ext (wald_u N) (fun i => -1 * ccoef i) (seq 0 (N / 2))) by (intros i Hi; apply in_seq in Hi; rewrite wald_u_small by lia; ring).
    rewrite Rsum_map_scal, telescope by auto. rewrite (Rsum_map_zero _ (seq (0 + N / 2 + 1) (N - N / 2))) by (intros i Hi; apply in_seq in Hi; apply wald_u_big; lia).
    cbn [seq map Rsum Nat.add]. rewrite wald_u_mid by auto. ring. }
  unfold wald_v. rewrite Rsum_map_minus, (Rsum_map_ext (fun i => - wald_u N i) (fun i => -1 * wald_u N i)), Rsum_map_scal by (intros; ring).
  assert (A : Rsum (map (wald_u N) (seq 0 N)) = -1). { rewrite seq_app, map_app, Rsum_app in T. cbn [seq map Rsum Nat.add] in T. rewrite (wald_u_big N N) in T by lia. lra. }
  assert (B : Rsum (map (fun i => wald_u N (N - i)) (seq 0 N)) = 1).
  { rewrite Rsum_reverse. replace (N + 1)%nat with (S N) in T by lia. cbn [seq map Rsum] in T. rewrite wald_u_small in T by lia. unfold ccoef in T. cbn [INR] in T.
    replace (2 / (1 - 4 * 0 * 0)) with 2 in T by field. rewrite <- seq_shift, map_map in T. rewrite (Rsum_map_ext _ (fun i => wald_u N (S i))); [lra|]. intros i Hi. apply in_seq in Hi. f_equal. lia. }
  rewrite A, B. ring.
Qed.
(* ------------------------------------------------------------------ quadrature on the angles k pi / N *)
Definition arc (N : nat) (k : nat) : R := PI * INR k / INR N.
Lemma arc_even N a i : (1 <= N)%nat -> (i < N)%nat -> spectrum_sym N a ->
  Rsum (map (fun k => wcos N a k * cos (INR (2 * i) * arc N k)) (seq 0 (N + 1))) = a i + wcos N a 0.
Proof.
  intros HN Hi Hs. assert (P : INR N <> 0) by (apply not_0_INR; lia). rewrite seq_app, map_app, Rsum_app. f_equal.
  - rewrite <- (wcos_sum N a i Hi Hs). apply Rsum_map_ext. intros k _. do 2 f_equal. unfold arc. rewrite mult_INR. cbn [INR]. field. auto.
  - cbn [seq map Rsum Nat.add]. rewrite <- (wcos_sym N a N) by lia. rewrite Nat.sub_diag. unfold arc. replace (INR (2 * i) * (PI * INR N / INR N)) with (INR (2 * i) * PI) by (field; auto). rewrite cos_INR_PI, pow_m1_even. ring.
Qed.
Lemma arc_odd N a i : (1 <= N)%nat -> Rsum (map (fun k => wcos N a k * cos (INR (2 * i + 1) * arc N k)) (seq 0 (N + 1))) = 0.
Proof.
  intros HN. assert (P : INR N <> 0) by (apply not_0_INR; lia). assert (E := Rsum_reverse 0 (N + 1) (fun k => wcos N a k * cos (INR (2 * i + 1) * arc N k))). cbn beta in E.
  rewrite (Rsum_map_ext (fun k => wcos N a (2 * 0 + (N + 1) - 1 - k) * cos (INR (2 * i + 1) * arc N (2 * 0 + (N + 1) - 1 - k))) (fun k => -1 * (wcos N a k * cos (INR (2 * i + 1) * arc N k)))) in E.
  - rewrite Rsum_map_scal in E. lra.
  - intros k Hk. apply in_seq in Hk. replace (2 * 0 + (N + 1) - 1 - k)%nat with (N - k)%nat by lia. rewrite wcos_sym by lia. unfold arc. rewrite minus_INR by lia.
    replace (INR (2 * i + 1) * (PI * (INR N - INR k) / INR N)) with (- (INR (2 * i + 1) * (PI * INR k / INR N)) + PI + 2 * INR i * PI) by (rewrite plus_INR, mult_INR; cbn [INR]; field; auto).
    rewrite cos_period, neg_cos, cos_neg. ring.
Qed.
(** the angle sums of a rule determine exactness, in both directions *)
Lemma cos_is_poly j : exists f, pol (S j) f /\ forall t, f (- cos t) = cos (INR j * t).
Proof.
  assert (G : (exists f, pol (S j) f /\ forall t, f (- cos t) = cos (INR j * t)) /\ (exists f, pol (S (S j)) f /\ forall t, f (- cos t) = cos (INR (S j) * t))); [|tauto].
  induction j as [|j [IH1 IH2]].
  - split.
    + exists (fun _ => 1). split; [apply pol_const; lia|]. intros t. cbn [INR]. rewrite Rmult_0_l, cos_0. auto.
    + exists (fun x => -1 * x). split; [apply (pol_scal 2), (pol_ext _ (fun x => x ^ 1)); [intros; ring|apply pol_pow; lia]|]. intros t. cbn [INR]. rewrite Rmult_1_l. ring.
  - split; [exact IH2|]. destruct IH1 as [f [Pf Ef]], IH2 as [g [Pg Eg]]. exists (fun x => (-2) * (x * g x) + (-1) * f x). split.
    + apply pol_add; [apply pol_scal|apply pol_scal; apply (pol_le (S j)); auto; lia]. destruct Pg as [c [Lc Ec]]. exists (0 :: c). split; [cbn; lia|]. intros x. cbn. rewrite Ec. ring.
    + intros t. rewrite Ef, Eg. assert (C := cos_step j t). lra.
Qed.
Theorem cheb_exact_conv q d : exact1 d (map (fun wt => (fst wt, - cos (snd wt))) q) -> forall j, (j <= d)%nat -> angle_sum q (fun t => cos (INR j * t)) = cosint j.
Proof.
  intros H j Hj. destruct (cos_is_poly j) as [f [Pf Ef]]. assert (A : apply1 (map (fun wt => (fst wt, - cos (snd wt))) q) f = angle_sum q (fun t => cos (INR j * t))).
  { unfold apply1, angle_sum. rewrite map_map. apply Rsum_map_ext. intros. cbn [fst snd]. rewrite Ef. auto. }
  rewrite <- A, (exact1_pol d) by (auto; apply (pol_le (S j)); auto; lia). destruct Pf as [c [Lc Ec]]. rewrite (RInt_ext f (peval c)) by (intros; apply Ec).
  assert (I1 : is_RInt (fun t => cos (INR j * t) * sin t) 0 PI (Rsum (map (fun i => nth i c 0 * pow_int i) (seq 0 (length c))))).
  { apply (is_RInt_ext (fun t => Rsum (map (fun i => nth i c 0 * ((- cos t) ^ i * sin t)) (seq 0 (length c))))).
    - intros t _. rewrite <- Ef, Ec, peval_nth, <- Rsum_map_scal_r. apply Rsum_map_ext. intros. ring.
    - apply (is_RInt_Rsum (fun i t => nth i c 0 * ((- cos t) ^ i * sin t)) (fun i => nth i c 0 * pow_int i)). intros i _. apply is_RInt_scalR. apply is_RInt_pow_cos. }
  rewrite (RInt_uniq _ _ _ _ _ (is_RInt_cos_sin j) I1). rewrite (is_RInt_unique _ _ _ _ (is_RInt_peval c (-1) 1)). apply Rsum_map_ext. intros i _. f_equal.
  unfold pow_int. rewrite pow_m1, pow1. destruct (Nat.even i); field; apply not_0_INR; lia.
Qed.

(* ------------------------------------------------------------------ Fejer 2 *)
Lemma even_odd_cases j : (exists i, j = 2 * i)%nat \/ (exists i, j = 2 * i + 1)%nat.
Proof. destruct (Nat.Even_or_Odd j) as [[i ->]|[i ->]]; [left|right]; exists i; auto. Qed.
Lemma half_even i : (2 * i / 2 = i)%nat.
Proof. rewrite Nat.mul_comm. apply Nat.div_mul. lia. Qed.
Lemma half_odd i : ((2 * i + 1) / 2 = i)%nat.
Proof. rewrite Nat.add_comm, Nat.mul_comm, Nat.div_add by lia. auto. Qed.
Definition fejer2_q (n : nat) : list (R * R) := map (fun k => (wcos (n + 1) (wald_v (n + 1)) k, arc (n + 1) k)) (seq 1 n).
Lemma fejer2_w0 N : (2 <= N)%nat -> wcos N (wald_v N) 0 = 0.
Proof.
  intros H. unfold wcos. rewrite (Rsum_map_ext _ (wald_v N)); [rewrite wald_v_sum by auto; ring|]. intros m _. cbn [INR]. replace (2 * PI * INR m * 0 / INR N) with 0 by (field; apply not_0_INR; lia). rewrite cos_0. ring.
Qed.
Lemma fejer2_run n : (1 <= n)%nat -> fejer_2 n = Some (mk_c1 (Z.of_nat n) (map (fun wt => (fst wt, - cos (snd wt))) (fejer2_q n))).
Proof.
  intros H. assert (P : INR n + 1 <> 0) by (assert (0 <= INR n) by apply pos_INR; lra). unfold fejer_2.
  rewrite (opt_list_map _ (fun k => - cos (arc (n + 1) k))).
  2:{ intros k _. rewrite rdiv_ok by auto. cbn [bind]. unfold arc. rewrite plus_INR. reflexivity. }
  cbn [bind]. rewrite wald_v0_map by lia. cbn [bind]. rewrite wald_v2_map, ihfft_checked_map by (try lia; apply wald_v_sym). cbn [bind]. rewrite mirror_map by lia. unfold c1_scheme_of, fejer2_q. do 2 f_equal.
  rewrite tl_map_seq. rewrite (removelast_map_seq (wcos (n + 1) (wald_v (n + 1))) 1 n), combine_map2, map_map. reflexivity.
Qed.
Lemma fejer2_full n f : (1 <= n)%nat -> angle_sum (fejer2_q n) f = Rsum (map (fun k => wcos (n + 1) (wald_v (n + 1)) k * f (arc (n + 1) k)) (seq 0 (n + 1 + 1))).
Proof.
  intros H. unfold angle_sum, fejer2_q. rewrite map_map. cbn [fst snd]. rewrite seq_app, map_app, Rsum_app. replace (seq 0 (n + 1)) with (0%nat :: seq 1 n) by (replace (n + 1)%nat with (S n) by lia; reflexivity). cbn [seq map Rsum Nat.add].
  rewrite fejer2_w0 by lia. assert (E : wcos (n + 1) (wald_v (n + 1)) (n + 1) = 0); [|rewrite E; ring].
  rewrite <- (wcos_sym (n + 1) _ (n + 1)), Nat.sub_diag by lia. apply fejer2_w0. lia.
Qed.
Lemma fejer2_even n i : (1 <= n)%nat -> (i <= n)%nat -> angle_sum (fejer2_q n) (fun t => cos (INR (2 * i) * t)) = wald_v (n + 1) i.
Proof. intros H Hi. rewrite fejer2_full by auto. rewrite arc_even by (try lia; apply wald_v_sym). rewrite fejer2_w0 by lia. ring. Qed.
Lemma fejer2_odd n i : (1 <= n)%nat -> angle_sum (fejer2_q n) (fun t => cos (INR (2 * i + 1) * t)) = 0.
Proof. intros H. rewrite fejer2_full by auto. apply arc_odd. lia. Qed.
Theorem fejer2_exact n : (1 <= n)%nat -> exact1 (if Nat.odd n then n else n - 1) (map (fun wt => (fst wt, - cos (snd wt))) (fejer2_q n)).
Proof.
  intros H. apply cheb_exact. intros j Hj. destruct (even_odd_cases j) as [[i ->]|[i ->]]; [|rewrite fejer2_odd, cosint_odd by auto; auto].
  assert (Hi : (i < (n + 1) / 2)%nat).
  { destruct (even_odd_cases n) as [[m ->]|[m ->]].
    - rewrite Nat.odd_mul in Hj. cbn [Nat.odd Nat.even negb andb] in Hj. rewrite half_odd. lia.
    - replace (2 * m + 1 + 1)%nat with (2 * (m + 1))%nat by lia. rewrite half_even. replace (Nat.odd (2 * m + 1)) with true in Hj by (symmetry; apply Nat.odd_spec; exists m; auto). lia. }
  assert (D := half_ge (n + 1) ltac:(lia)). rewrite fejer2_even, cosint_even, wald_v_small by lia. auto.
Qed.
Theorem fejer2_not_exact n : (2 <= n)%nat -> Nat.even n = true -> ~ exact1 n (map (fun wt => (fst wt, - cos (snd wt))) (fejer2_q n)).
Proof.
  intros H He Hx. apply Nat.even_spec in He. destruct He as [m ->]. assert (E := cheb_exact_conv _ _ Hx (2 * m)%nat ltac:(lia)). rewrite fejer2_even, cosint_even in E by lia.
  assert (M := wald_u_mid (2 * m + 1) ltac:(lia)). unfold wald_v, ccoef in E. rewrite half_odd in M. rewrite M, wald_u_big in E by (rewrite half_odd; lia).
  assert (1 <= INR m) by (apply (le_INR 1); lia). assert (E' : 1 / (2 * INR m - 1) = 2 / (4 * INR m * INR m - 1)).
  { replace (2 / (4 * INR m * INR m - 1)) with (- (2 / (1 - 4 * INR m * INR m))) by (field; split; nra). lra. }
  apply (f_equal (fun z => z * (4 * INR m * INR m - 1))) in E'. replace (1 / (2 * INR m - 1) * (4 * INR m * INR m - 1)) with (2 * INR m + 1) in E' by (field; nra). replace (2 / (4 * INR m * INR m - 1) * (4 * INR m * INR m - 1)) with 2 in E' by (field; nra). nra.
Qed.
(* ------------------------------------------------------------------ Clenshaw-Curtis *)
Definition cc_den (N : nat) : R := INR N ^ 2 - 1 + INR (N mod 2).
Definition cc_gfun (N i : nat) : R := (-1 + (if (i =? N / 2)%nat then INR N else 0) + (if (i =? N - N / 2)%nat then INR N else 0)) / cc_den N.
Definition cc_a (N i : nat) : R := wald_v N i + cc_gfun N i.
Lemma cc_den_pos N : (2 <= N)%nat -> 0 < cc_den N.
Proof. intros H. unfold cc_den. assert (2 <= INR N) by (apply (le_INR 2); auto). assert (0 <= INR (N mod 2)) by apply pos_INR. nra. Qed.
Lemma cc_a_sym N : (2 <= N)%nat -> spectrum_sym N (cc_a N).
Proof.
  intros H i Hi. unfold cc_a. rewrite wald_v_sym by auto. f_equal. destruct (half_ge N H) as [H1 [H2 H3]]. unfold cc_gfun.
  destruct (Nat.eqb_spec (N - i) (N / 2)), (Nat.eqb_spec (N - i) (N - N / 2)), (Nat.eqb_spec i (N / 2)), (Nat.eqb_spec i (N - N / 2)); try lia; f_equal; ring.
Qed.
Lemma cc_w0 N : (2 <= N)%nat -> wcos N (cc_a N) 0 = / cc_den N.
Proof.
  intros H. assert (P : INR N <> 0) by (apply not_0_INR; lia). destruct (half_ge N H) as [H1 [H2 H3]]. assert (D := cc_den_pos N H). unfold wcos. rewrite (Rsum_map_ext _ (cc_a N)).
  2:{ intros m _. cbn [INR]. replace (2 * PI * INR m * 0 / INR N) with 0 by (field; auto). rewrite cos_0. ring. }
  unfold cc_a. rewrite Rsum_map_plus, wald_v_sum by auto. unfold cc_gfun.
  rewrite (Rsum_map_ext _ (fun i => / cc_den N * ((-1 + (if (i =? N / 2)%nat then INR N else 0)) + (if (i =? N - N / 2)%nat then INR N else 0)))) by (intros; unfold Rdiv; ring).
  rewrite Rsum_map_scal, !Rsum_map_plus. rewrite (Rsum_pick 0 N (N / 2) (fun _ => INR N)), (Rsum_pick 0 N (N - N / 2) (fun _ => INR N)) by lia.
  rewrite Rsum_map_const, seq_length. field. split; auto. lra.
Qed.
Lemma cc_a_val N i : (2 <= N)%nat -> (i <= N / 2)%nat -> cc_a N i + / cc_den N = ccoef i.
Proof.
  intros H Hi. destruct (half_ge N H) as [H1 [H2 H3]]. assert (D := cc_den_pos N H). unfold cc_a, cc_gfun. destruct (Nat.eq_dec i (N / 2)) as [-> | Hne].
  - assert (M := wald_u_mid N H). unfold wald_v, cc_den in *. rewrite M, Nat.eqb_refl. unfold ccoef. destruct (even_odd_cases N) as [[m E]|[m E]].
    + assert (Hh : (N / 2 = m)%nat) by (rewrite E; apply half_even). rewrite Hh in *. replace (N - m)%nat with m by lia. rewrite Nat.eqb_refl. rewrite M. replace (N mod 2)%nat with 0%nat in * by (rewrite E, Nat.mul_comm; symmetry; apply Nat.mod_mul; lia).
      rewrite E in *. rewrite mult_INR in *. cbn [INR] in *. assert (1 <= INR m) by (apply (le_INR 1); lia). field. repeat split; nra.
    + assert (Hh : (N / 2 = m)%nat) by (rewrite E; apply half_odd). rewrite Hh in *. replace (N - m)%nat with (m + 1)%nat by lia. rewrite wald_u_big by lia. destruct (Nat.eqb_spec m (m + 1)); [lia|].
      replace (N mod 2)%nat with 1%nat in * by (rewrite E, Nat.add_comm, Nat.mul_comm, Nat.mod_add by lia; auto). rewrite E in *. rewrite plus_INR, mult_INR in *. cbn [INR] in *. assert (1 <= INR m) by (apply (le_INR 1); lia). field. repeat split; nra.
  - rewrite wald_v_small by lia. destruct (Nat.eqb_spec i (N / 2)); [lia|]. destruct (Nat.eqb_spec i (N - N / 2)); [lia|]. field. lra.
Qed.
Definition cc_q (N : nat) : list (R * R) := map (fun k => (wcos N (cc_a N) k, arc N k)) (seq 0 (N + 1)).
Lemma cc_run n : (3 <= n)%nat -> clenshaw_curtis n = Some (mk_c1 (Z.of_nat n) (map (fun wt => (fst wt, - cos (snd wt))) (cc_q (n - 1)))).
Proof.
  intros H. assert (P : INR n - 1 <> 0) by (assert (3 <= INR n) by (apply (le_INR 3) in H; cbn in H; lra); lra). unfold clenshaw_curtis.
  rewrite (opt_list_map _ (fun k => - cos (arc (n - 1) k))).
  2:{ intros k _. rewrite rdiv_ok by auto. cbn [bind]. unfold arc. rewrite minus_INR by lia. reflexivity. }
  cbn [bind]. replace (n =? 2)%nat with false by (symmetry; apply Nat.eqb_neq; lia). rewrite wald_v0_map by lia. cbn [bind]. rewrite wald_v2_map. unfold cc_g. rewrite combine_map2, map_map. cbn [fst snd].
  change (map _ (seq 0 (n - 1))) with (map (cc_a (n - 1)) (seq 0 (n - 1))). rewrite ihfft_checked_map by (try lia; apply cc_a_sym; lia). cbn [bind]. rewrite mirror_map by lia. unfold c1_scheme_of, cc_q. do 2 f_equal.
  replace (n - 1 + 1)%nat with n by lia. rewrite combine_map2, map_map. reflexivity.
Qed.
Lemma cc_even N i : (2 <= N)%nat -> (i < N)%nat -> angle_sum (cc_q N) (fun t => cos (INR (2 * i) * t)) = cc_a N i + / cc_den N.
Proof. intros H Hi. unfold angle_sum, cc_q. rewrite map_map. cbn [fst snd]. rewrite arc_even by (try lia; apply cc_a_sym; auto). rewrite cc_w0 by lia. ring. Qed.
Lemma cc_odd N i : (2 <= N)%nat -> angle_sum (cc_q N) (fun t => cos (INR (2 * i + 1) * t)) = 0.
Proof. intros H. unfold angle_sum, cc_q. rewrite map_map. cbn [fst snd]. apply arc_odd. lia. Qed.
Theorem cc_exact N : (2 <= N)%nat -> exact1 (if Nat.even N then N + 1 else N) (map (fun wt => (fst wt, - cos (snd wt))) (cc_q N)).
Proof.
  intros H. apply cheb_exact. intros j Hj. destruct (even_odd_cases j) as [[i ->]|[i ->]]; [|rewrite cc_odd, cosint_odd by auto; auto].
  assert (Hi : (i <= N / 2)%nat).
  { destruct (even_odd_cases N) as [[m ->]|[m ->]].
    - rewrite Nat.even_mul in Hj. cbn [Nat.even orb] in Hj. rewrite half_even. lia.
    - rewrite half_odd. replace (Nat.even (2 * m + 1)) with false in Hj by (symmetry; rewrite <- Nat.negb_odd; apply negb_false_iff; apply Nat.odd_spec; exists m; auto). lia. }
  assert (D := half_ge N H). rewrite cc_even, cosint_even, cc_a_val by lia. auto.
Qed.
Theorem cc_not_exact N : (2 <= N)%nat -> Nat.odd N = true -> ~ exact1 (N + 1) (map (fun wt => (fst wt, - cos (snd wt))) (cc_q N)).
Proof.
  intros H Ho Hx. apply Nat.odd_spec in Ho. destruct Ho as [m E]. assert (F := cheb_exact_conv _ _ Hx (2 * (m + 1))%nat ltac:(lia)). rewrite cc_even, cosint_even in F by lia.
  replace (m + 1)%nat with (N - m)%nat in F at 1 by lia. rewrite (cc_a_sym N H m), cc_a_val in F by (try rewrite E, half_odd; lia). unfold ccoef in F. rewrite plus_INR in F. cbn [INR] in F.
  assert (1 <= INR m) by (apply (le_INR 1); lia). apply (f_equal (fun z => z * ((1 - 4 * INR m * INR m) * (1 - 4 * (INR m + 1) * (INR m + 1))))) in F. field_simplify in F; nra.
Qed.
