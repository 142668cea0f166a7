From Coq Require Import Reals List ZArith Lia Lra Permutation Psatz.
From Flocq Require Import Core Plus_error Relative.
From Verif Require Import Spec Spec1 RsumLemmas AdaptModel FloatSpec FloatModel.
Import ListNotations.
Set Bullet Behavior "Strict Subproofs".
Open Scope R_scope.

#[local] Instance prec64 : Prec_gt_0 53. Proof. reflexivity. Qed.
#[local] Instance valid64 : Valid_exp fexp64. Proof. apply FLT_exp_valid. exact prec64. Qed.

Lemma bpow_neg n : bpow radix2 (- Z.of_nat n) = / 2 ^ n.
Proof. rewrite bpow_opp. f_equal. rewrite <- IZR_Zpower by lia. rewrite <- pow_IZR. reflexivity. Qed.
Lemma u64_eq : / 2 * bpow radix2 (- (53) + 1) = u64.
Proof. change (- (53) + 1)%Z with (1 + - Z.of_nat 53)%Z. rewrite bpow_plus, bpow_neg. unfold u64. replace (bpow radix2 1) with 2 by reflexivity. lra. Qed.
Lemma eta64_eq : / 2 * bpow radix2 (-1074) = eta64.
Proof. change (-1074)%Z with (1 + - Z.of_nat 1075)%Z. rewrite bpow_plus, bpow_neg. unfold eta64. replace (bpow radix2 1) with 2 by reflexivity. lra. Qed.
Lemma u64_pos : 0 < u64. Proof. apply Rinv_0_lt_compat, pow_lt. lra. Qed.
Lemma u64_small : u64 <= 1 / 2 ^ 20.
Proof. unfold u64. unfold Rdiv. rewrite Rmult_1_l. apply Rinv_le; [apply pow_lt; lra|]. apply Rle_pow; [lra|lia]. Qed.
Lemma eta64_pos : 0 < eta64. Proof. apply Rinv_0_lt_compat, pow_lt. lra. Qed.
Lemma float_rnd x : float64 (rnd x).
Proof. apply generic_format_round; [exact valid64|apply valid_rnd_N]. Qed.
Lemma float_0 : float64 0. Proof. apply generic_format_0. Qed.
Lemma rnd_float x : float64 x -> rnd x = x.
Proof. intros H. apply round_generic; [apply valid_rnd_N|exact H]. Qed.
Lemma rnd_le x y : x <= y -> rnd x <= rnd y.
Proof. intros H. apply round_le; [exact valid64|apply valid_rnd_N|exact H]. Qed.
Lemma rnd_0 : rnd 0 = 0. Proof. apply rnd_float, float_0. Qed.
(** every operation *)
Lemma rnd_err x : Rabs (rnd x - x) <= u64 * Rabs x + eta64.
Proof.
  assert (U := u64_pos). assert (E := eta64_pos). destruct (Rle_or_lt (bpow radix2 (-1074 + 53 - 1)) (Rabs x)) as [H|H].
  - assert (K := relative_error_N_FLT radix2 (-1074) 53 prec64 (fun x => negb (Z.even x)) x H). rewrite u64_eq in K. eapply Rle_trans; [exact K|lra].
  - assert (K := error_le_half_ulp radix2 fexp64 (fun x => negb (Z.even x)) x). unfold fexp64 in K at 2. rewrite ulp_FLT_small in K; [|exact prec64|].
    + rewrite eta64_eq in K. assert (P := Rabs_pos x). assert (0 <= u64 * Rabs x) by (apply Rmult_le_pos; lra). eapply Rle_trans; [exact K|lra].
    + eapply Rlt_le_trans; [exact H|]. apply bpow_le. lia.
Qed.
(** results that do not underflow *)
Lemma rnd_err_normal x : / 2 ^ 1022 <= Rabs x -> Rabs (rnd x - x) <= u64 * Rabs x.
Proof.
  intros H. assert (K := relative_error_N_FLT radix2 (-1074) 53 prec64 (fun x => negb (Z.even x)) x). rewrite u64_eq in K. apply K.
  change (-1074 + 53 - 1)%Z with (- Z.of_nat 1022)%Z. rewrite bpow_neg. exact H.
Qed.
(** sums of two numbers never lose anything to underflow *)
Lemma rnd_add x y : float64 x -> float64 y -> Rabs (rnd (x + y) - (x + y)) <= u64 * Rabs (x + y).
Proof.
  intros Fx Fy. destruct (FLT_plus_error_N_ex radix2 (-1074) 53 (fun x => negb (Z.even x)) x y Fx Fy) as (eps & He & E). change (rnd (x + y)) with (round radix2 (FLT_exp (-1074) 53) ZnearestE (x + y)). rewrite E.
  replace ((x + y) * (1 + eps) - (x + y)) with (eps * (x + y)) by ring. rewrite Rabs_mult. apply Rmult_le_compat_r; [apply Rabs_pos|]. eapply Rle_trans; [exact He|].
  unfold u_ro. rewrite u64_eq. assert (U := u64_pos). apply Rmult_le_reg_r with (1 + u64); [lra|]. unfold Rdiv. rewrite Rmult_assoc, Rinv_l, Rmult_1_r by lra. nra.
Qed.
Lemma rnd_sub x y : float64 x -> float64 y -> Rabs (rnd (x - y) - (x - y)) <= u64 * Rabs (x - y).
Proof. intros Fx Fy. change (x - y) with (x + - y). apply rnd_add; auto. apply generic_format_opp. exact Fy. Qed.

(** *** growth *)
Lemma gamma_0 : gamma 0 = 0. Proof. unfold gamma. cbn. ring. Qed.
Lemma gamma_1 : gamma 1 = u64. Proof. unfold gamma. cbn. ring. Qed.
Lemma gamma_S k : gamma (S k) = gamma k + u64 * (1 + gamma k).
Proof. unfold gamma. cbn [pow]. ring. Qed.
Lemma gamma_plus j k : (1 + gamma j) * (1 + gamma k) = 1 + gamma (j + k).
Proof. unfold gamma. rewrite pow_add. ring. Qed.
Lemma gamma_nonneg k : 0 <= gamma k.
Proof. unfold gamma. assert (U := u64_pos). assert (1 <= (1 + u64) ^ k) by (apply pow_R1_Rle; lra). lra. Qed.
Lemma gamma_mono j k : (j <= k)%nat -> gamma j <= gamma k.
Proof. intros H. unfold gamma. assert (U := u64_pos). assert ((1 + u64) ^ j <= (1 + u64) ^ k) by (apply Rle_pow; lra || lia). lra. Qed.
Lemma gamma_bound k : INR k * u64 <= 1 / 2 -> gamma k <= 2 * INR k * u64.
Proof.
  assert (U := u64_pos). induction k as [|k IH]; intros H; [rewrite gamma_0; cbn; lra|]. rewrite S_INR in *. assert (P := pos_INR k).
  assert (K : gamma k <= 2 * INR k * u64) by (apply IH; nra). rewrite gamma_S. nra.
Qed.
(** *** np.dot *)
Definition prods (l : list (R * R)) : list R := map (fun e => fst e * snd e) l.
Definition abs_prods (l : list (R * R)) : list R := map (fun e => Rabs (fst e * snd e)) l.
Lemma Rabs_tri2 x y : Rabs (x + y) <= Rabs x + Rabs y. Proof. apply Rabs_triang. Qed.
Lemma sum_abs l : Rabs (Rsum (prods l)) <= Rsum (abs_prods l).
Proof. unfold prods, abs_prods. induction l as [|e l IH]; cbn; [rewrite Rabs_R0; lra|]. eapply Rle_trans; [apply Rabs_triang|]. lra. Qed.
Lemma abs_prods_nonneg l : 0 <= Rsum (abs_prods l).
Proof. unfold abs_prods. apply Rsum_nonneg. intros x Hx. apply in_map_iff in Hx. destruct Hx as (e & <- & _). apply Rabs_pos. Qed.
Lemma fl_dot_float l s : fl_dot l s -> float64 s.
Proof. intros [| | |]; try apply float_rnd. apply float_0. Qed.
Lemma fl_dot_empty s : fl_dot [] s -> s = 0.
Proof.
  intros H. remember [] as l eqn:E. induction H as [|x y|l l1 l2 s1 s2 P H1 IH1 H2 IH2|l l1 x y s1 P H1 IH1]; auto; try discriminate.
  - subst. apply Permutation_nil in P. apply app_eq_nil in P. destruct P as [-> ->]. rewrite (IH1 eq_refl), (IH2 eq_refl), Rplus_0_r. apply rnd_0.
  - subst. apply Permutation_nil in P. discriminate.
Qed.
Lemma dot_error l s : fl_dot l s -> Rabs (s - Rsum (prods l)) <= gamma (length l) * Rsum (abs_prods l) + INR (length l) * (1 + gamma (length l)) * eta64.
Proof.
  assert (U := u64_pos). assert (ET := eta64_pos). induction 1 as [|x y|l l1 l2 s1 s2 P H1 IH1 H2 IH2|l l1 x y s1 P H1 IH1].
  - cbn. rewrite Rminus_0_r, Rabs_R0, gamma_0. lra.
  - cbn [length prods abs_prods map Rsum fst snd INR]. rewrite gamma_1, !Rplus_0_r. assert (K := rnd_err (x * y)). nra.
  - assert (PP : Rsum (prods l) = Rsum (prods l1) + Rsum (prods l2)) by (unfold prods; rewrite (Rsum_map_perm _ _ _ P), map_app, Rsum_app; auto).
    assert (PA : Rsum (abs_prods l) = Rsum (abs_prods l1) + Rsum (abs_prods l2)) by (unfold abs_prods; rewrite (Rsum_map_perm _ _ _ P), map_app, Rsum_app; auto).
    assert (F1 := fl_dot_float _ _ H1). assert (F2 := fl_dot_float _ _ H2).
    destruct l1 as [|e1 l1].
    { rewrite (fl_dot_empty _ H1), Rplus_0_l, rnd_float by auto. cbn in P. assert (L := Permutation_length P). rewrite L, PP, PA. cbn [prods abs_prods map Rsum]. rewrite !Rplus_0_l. exact IH2. }
    destruct l2 as [|e2 l2].
    { rewrite (fl_dot_empty _ H2), Rplus_0_r, rnd_float by auto. rewrite app_nil_r in P. assert (L := Permutation_length P). rewrite L, PP, PA. cbn [prods abs_prods map Rsum]. rewrite !Rplus_0_r. exact IH1. }
    set (L1 := e1 :: l1) in *. set (L2 := e2 :: l2) in *. assert (L := Permutation_length P). rewrite app_length in L.
    set (n1 := length L1) in *. set (n2 := length L2) in *. assert (N1 : (1 <= n1)%nat) by (unfold n1, L1; cbn; lia). assert (N2 : (1 <= n2)%nat) by (unfold n2, L2; cbn; lia).
    rewrite PP, PA, L. set (T1 := Rsum (abs_prods L1)) in *. set (T2 := Rsum (abs_prods L2)) in *. set (S1 := Rsum (prods L1)) in *. set (S2 := Rsum (prods L2)) in *.
    assert (A1 : Rabs S1 <= T1) by apply sum_abs. assert (A2 : Rabs S2 <= T2) by apply sum_abs. assert (P1 : 0 <= T1) by apply abs_prods_nonneg. assert (P2 : 0 <= T2) by apply abs_prods_nonneg.
    destruct (n1 + n2)%nat as [|k] eqn:EK; [lia|]. assert (M1 := gamma_mono n1 k ltac:(lia)). assert (M2 := gamma_mono n2 k ltac:(lia)). assert (G := gamma_nonneg k). assert (G1 := gamma_nonneg n1). assert (G2 := gamma_nonneg n2).
    assert (EI : INR (S k) = INR n1 + INR n2) by (rewrite <- EK, plus_INR; auto). assert (I1 := pos_INR n1). assert (I2 := pos_INR n2).
    assert (B1 : Rabs (s1 - S1) <= gamma k * T1 + INR n1 * (1 + gamma k) * eta64). { eapply Rle_trans; [exact IH1|]. apply Rplus_le_compat; [apply Rmult_le_compat_r; auto|]. apply Rmult_le_compat_r; [lra|]. apply Rmult_le_compat_l; lra. }
    assert (B2 : Rabs (s2 - S2) <= gamma k * T2 + INR n2 * (1 + gamma k) * eta64). { eapply Rle_trans; [exact IH2|]. apply Rplus_le_compat; [apply Rmult_le_compat_r; auto|]. apply Rmult_le_compat_r; [lra|]. apply Rmult_le_compat_l; lra. }
    assert (K := rnd_add s1 s2 F1 F2).
    assert (AB : Rabs (s1 + s2) <= Rabs (s1 - S1) + Rabs (s2 - S2) + (T1 + T2)).
    { replace (s1 + s2) with ((s1 - S1) + (s2 - S2) + (S1 + S2)) by ring. eapply Rle_trans; [apply Rabs_triang|]. apply Rplus_le_compat; [apply Rabs_triang|]. eapply Rle_trans; [apply Rabs_triang|]. lra. }
    replace (rnd (s1 + s2) - (S1 + S2)) with ((rnd (s1 + s2) - (s1 + s2)) + ((s1 - S1) + (s2 - S2))) by ring. eapply Rle_trans; [apply Rabs_triang|].
    eapply Rle_trans; [apply Rplus_le_compat; [exact K|apply Rabs_triang]|]. rewrite gamma_S, EI.
    apply Rle_trans with (u64 * (T1 + T2) + (1 + u64) * (Rabs (s1 - S1) + Rabs (s2 - S2))); [nra|].
    apply Rle_trans with (u64 * (T1 + T2) + (1 + u64) * ((gamma k * T1 + INR n1 * (1 + gamma k) * eta64) + (gamma k * T2 + INR n2 * (1 + gamma k) * eta64))); [nra|]. right. ring.
  - assert (PP : Rsum (prods l) = x * y + Rsum (prods l1)) by (unfold prods; rewrite (Rsum_map_perm _ _ _ P); auto).
    assert (PA : Rsum (abs_prods l) = Rabs (x * y) + Rsum (abs_prods l1)) by (unfold abs_prods; rewrite (Rsum_map_perm _ _ _ P); auto).
    assert (L := Permutation_length P). cbn [length] in L. rewrite PP, PA, L. set (k := length l1) in *. set (T1 := Rsum (abs_prods l1)) in *. set (S1 := Rsum (prods l1)) in *.
    assert (A1 : Rabs S1 <= T1) by apply sum_abs. assert (P1 : 0 <= T1) by apply abs_prods_nonneg. assert (G := gamma_nonneg k). assert (K := rnd_err (s1 + x * y)). assert (I1 := pos_INR k).
    assert (AB : Rabs (s1 + x * y) <= Rabs (s1 - S1) + (T1 + Rabs (x * y))).
    { replace (s1 + x * y) with ((s1 - S1) + (S1 + x * y)) by ring. eapply Rle_trans; [apply Rabs_triang|]. apply Rplus_le_compat_l. eapply Rle_trans; [apply Rabs_triang|]. lra. }
    replace (rnd (s1 + x * y) - (x * y + S1)) with ((rnd (s1 + x * y) - (s1 + x * y)) + (s1 - S1)) by ring. eapply Rle_trans; [apply Rabs_triang|].
    rewrite gamma_S, S_INR. set (A := Rabs (x * y)) in *. assert (PA' : 0 <= A) by apply Rabs_pos.
    apply Rle_trans with (u64 * (T1 + A) + eta64 + (1 + u64) * Rabs (s1 - S1)); [nra|].
    apply Rle_trans with (u64 * (T1 + A) + eta64 + (1 + u64) * (gamma k * T1 + INR k * (1 + gamma k) * eta64)); [nra|].
    assert (0 <= gamma k * A) by nra. assert (0 <= gamma k * A * u64) by nra. assert (0 <= gamma k * eta64 * (1 + u64)) by (apply Rmult_le_pos; [nra|lra]). nra.
Qed.

(** *** relative errors *)
Definition near (k : nat) (x y : R) : Prop := Rabs (x - y) <= gamma k * Rabs y.
Lemma near_abs k x y : near k x y -> Rabs x <= (1 + gamma k) * Rabs y.
Proof. unfold near. intros H. replace x with ((x - y) + y) at 1 by ring. eapply Rle_trans; [apply Rabs_triang|]. lra. Qed.
Lemma near_low k x y : near k x y -> (1 - gamma k) * Rabs y <= Rabs x.
Proof. unfold near. intros H. assert (K := Rabs_triang_inv y x). rewrite (Rabs_minus_sym y x) in K. lra. Qed.
Lemma near_trans j k x y z : near j x y -> near k y z -> near (j + k) x z.
Proof.
  intros H1 H2. assert (A := near_abs _ _ _ H2). unfold near in *. replace (x - z) with ((x - y) + (y - z)) by ring. eapply Rle_trans; [apply Rabs_triang|].
  assert (G := gamma_plus j k). assert (P := gamma_nonneg j). assert (Q := Rabs_pos z). apply Rle_trans with (gamma j * ((1 + gamma k) * Rabs z) + gamma k * Rabs z); [nra|]. right. replace (gamma (j + k)) with ((1 + gamma j) * (1 + gamma k) - 1) by lra. ring.
Qed.
Lemma near_1 x y : Rabs (x - y) <= u64 * Rabs y -> near 1 x y.
Proof. unfold near. rewrite gamma_1. auto. Qed.
Lemma near_half k x y : near k x y -> near k (0.5 * x) (0.5 * y).
Proof. unfold near. intros H. replace (0.5 * x - 0.5 * y) with (0.5 * (x - y)) by ring. rewrite !Rabs_mult, (Rabs_right 0.5) by lra. lra. Qed.
Lemma small_pow j k : (j <= k)%nat -> / 2 ^ k <= / 2 ^ j.
Proof. intros H. apply Rinv_le; [apply pow_lt; lra|]. apply Rle_pow; [lra|auto]. Qed.
Lemma half_pow k : / 2 ^ S k = / 2 * / 2 ^ k.
Proof. cbn [pow]. rewrite Rinv_mult. reflexivity. Qed.
(** the length of an interval, unless it is below 2^-500 *)
Lemma length_near a b : float64 a -> float64 b -> / 2 ^ 500 <= b - a -> near 3 (fl_length a b) (b - a) /\ / 2 ^ 503 <= fl_length a b.
Proof.
  intros Fa Fb H. assert (U := u64_pos). assert (U20 : u64 <= 1 / 4) by (assert (K := u64_small); assert (1 / 2 ^ 20 <= 1 / 4) by (cbn [pow]; lra); lra).
  unfold fl_length. set (d := b - a) in *. assert (K1 : near 1 (rnd d) d) by (apply near_1, rnd_sub; auto). set (e := rnd d) in *.
  assert (P0 : 0 < / 2 ^ 500) by (apply Rinv_0_lt_compat, pow_lt; lra).
  assert (E1 : / 2 ^ 501 <= e). { unfold near in K1. rewrite gamma_1, (Rabs_right d) in K1 by lra. assert (d - e <= u64 * d) by (eapply Rle_trans; [apply Rle_abs|]; rewrite Rabs_minus_sym; auto). rewrite (half_pow 500). nra. }
  assert (P1 : 0 < / 2 ^ 501) by (apply Rinv_0_lt_compat, pow_lt; lra).
  assert (N2 : / 2 ^ 1022 <= Rabs (e * e)).
  { rewrite Rabs_right by nra. apply Rle_trans with (/ 2 ^ 501 * / 2 ^ 501); [|nra]. rewrite <- Rinv_mult, <- pow_add. apply small_pow. lia. }
  assert (K2 := rnd_err_normal (e * e) N2). rewrite (Rabs_right (e * e)) in K2 by nra. set (g := rnd (e * e)) in *.
  assert (B : (1 - u64) * (e * e) <= g <= (1 + u64) * (e * e)). { unfold Rabs in K2. destruct (Rcase_abs _); lra. }
  assert (SB : (1 - u64) * e <= sqrt g <= (1 + u64) * e).
  { split.
    - apply Rsqr_incr_0; [|nra|apply sqrt_pos]. rewrite Rsqr_sqrt by nra. unfold Rsqr. nra.
    - apply Rsqr_incr_0; [|apply sqrt_pos|nra]. rewrite Rsqr_sqrt by nra. unfold Rsqr. nra. }
  assert (K3 : near 1 (sqrt g) e) by (apply near_1; rewrite (Rabs_right e) by lra; apply Rabs_le; lra).
  assert (E3 : / 2 ^ 502 <= sqrt g) by (rewrite (half_pow 501); nra).
  assert (K4 : near 1 (rnd (sqrt g)) (sqrt g)). { apply near_1, rnd_err_normal. rewrite Rabs_right by (apply Rle_ge, sqrt_pos). eapply Rle_trans; [|exact E3]. apply small_pow. lia. }
  split; [apply (near_trans 1 2 _ (sqrt g)); auto; apply (near_trans 1 1 _ e); auto|].
  assert (K5 := near_low _ _ _ K4). rewrite gamma_1 in K5. assert (S0 := sqrt_pos g). rewrite (Rabs_right (sqrt g)) in K5 by lra.
  assert (0 <= rnd (sqrt g)) by (rewrite <- rnd_0; apply rnd_le; lra). rewrite Rabs_right in K5 by lra. rewrite (half_pow 502). nra.
Qed.
(** *** the whole computation *)
Lemma fl_integrate_error q f a b v : float64 a -> float64 b -> / 2 ^ 500 <= b - a -> fl_integrate q f a b v ->
  let T := map (fun wx => fst wx * f (fl_point a b (snd wx))) q in
  Rabs (v - (b - a) / 2 * Rsum T) <= gamma (length q + 5) * ((b - a) / 2 * Rsum (map Rabs T)) + (1 + INR (length q) * (1 + gamma (length q + 5)) * ((b - a) / 2)) * eta64.
Proof.
  intros Fa Fb H (s & HS & ->) T. destruct (length_near a b Fa Fb H) as (K & LB). assert (D := dot_error _ _ HS). rewrite map_length in D.
  set (l := map (fun wx => (f (fl_point a b (snd wx)), fst wx)) q) in *. set (n := length q) in *.
  assert (EP : prods l = T). { unfold prods, l, T. rewrite map_map. apply map_ext. intros wx. cbn [fst snd]. apply Rmult_comm. }
  assert (EA : abs_prods l = map Rabs T). { unfold abs_prods, l, T. rewrite !map_map. apply map_ext. intros wx. cbn [fst snd]. f_equal. apply Rmult_comm. }
  rewrite EP, EA in D. assert (AT : Rabs (Rsum T) <= Rsum (map Rabs T)) by (rewrite <- EA, <- EP; apply sum_abs). set (S1 := Rsum T) in *. set (TA := Rsum (map Rabs T)) in *.
  assert (U := u64_pos). assert (ET := eta64_pos). assert (P0 : 0 < / 2 ^ 500) by (apply Rinv_0_lt_compat, pow_lt; lra). set (d2 := (b - a) / 2). assert (Hd : 0 < d2) by (unfold d2; lra).
  set (h := rnd (0.5 * fl_length a b)).
  assert (NH : near 4 h d2).
  { apply (near_trans 1 3 _ (0.5 * fl_length a b)).
    - apply near_1, rnd_err_normal. assert (0 < / 2 ^ 503) by (apply Rinv_0_lt_compat, pow_lt; lra). rewrite Rabs_right by lra. apply Rle_trans with (/ 2 ^ 504); [apply small_pow; lia|]. rewrite (half_pow 503). lra.
    - replace d2 with (0.5 * (b - a)) by (unfold d2; lra). apply near_half, K. }
  assert (AH := near_abs _ _ _ NH). unfold near in NH. rewrite (Rabs_right d2) in * by lra. assert (R1 := rnd_err (h * s)). rewrite Rabs_mult in R1.
  set (E0 := Rabs (s - S1)) in *. assert (PE : 0 <= E0) by apply Rabs_pos. assert (PT : 0 <= TA) by (eapply Rle_trans; [apply Rabs_pos|exact AT]).
  assert (AS : Rabs s <= E0 + TA). { replace s with ((s - S1) + S1) by ring. eapply Rle_trans; [apply Rabs_triang|]. unfold E0. lra. }
  assert (G4 := gamma_nonneg 4). assert (Gn := gamma_nonneg n). assert (PH := Rabs_pos h). assert (PS := Rabs_pos s). assert (In := pos_INR n).
  replace (rnd (h * s) - d2 * S1) with ((rnd (h * s) - h * s) + (h * (s - S1) + (h - d2) * S1)) by ring.
  eapply Rle_trans; [apply Rabs_triang|]. eapply Rle_trans; [apply Rplus_le_compat; [exact R1|apply Rabs_triang]|]. rewrite !Rabs_mult. fold E0.
  assert (X1 : Rabs (h - d2) * Rabs S1 <= gamma 4 * d2 * TA) by (apply Rmult_le_compat; auto using Rabs_pos).
  assert (X2 : Rabs h * E0 <= (1 + gamma 4) * d2 * E0) by (apply Rmult_le_compat_r; auto).
  assert (X3 : Rabs h * Rabs s <= (1 + gamma 4) * d2 * (E0 + TA)) by (apply Rmult_le_compat; auto).
  apply Rle_trans with ((1 + u64) * (1 + gamma 4) * d2 * E0 + (u64 * (1 + gamma 4) + gamma 4) * d2 * TA + eta64); [nra|].
  assert (G5 : (1 + u64) * (1 + gamma 4) = 1 + gamma 5) by (rewrite <- gamma_1; apply (gamma_plus 1 4)). replace (u64 * (1 + gamma 4) + gamma 4) with (gamma 5) by lra. rewrite G5.
  assert (X4 : (1 + gamma 5) * d2 * E0 <= (1 + gamma 5) * d2 * (gamma n * TA + INR n * (1 + gamma n) * eta64)). { apply Rmult_le_compat_l; [|exact D]. assert (G5' := gamma_nonneg 5). nra. }
  assert (GN := gamma_plus n 5). apply Rle_trans with ((1 + gamma 5) * d2 * (gamma n * TA + INR n * (1 + gamma n) * eta64) + gamma 5 * d2 * TA + eta64); [lra|].
  right. replace (gamma (n + 5)) with ((1 + gamma n) * (1 + gamma 5) - 1) by lra. ring.
Qed.
(** *** the points *)
Lemma float_1 : float64 1.
Proof. change 1 with (bpow radix2 0). apply generic_format_bpow. unfold fexp64, FLT_exp. cbn. lia. Qed.
Lemma float_opp x : float64 x -> float64 (- x). Proof. apply generic_format_opp. Qed.
Lemma coef_error x y : float64 x -> -1 <= x <= 1 -> (y = 1 - x \/ y = 1 + x) -> Rabs (rnd (0.5 * rnd y) - y / 2) <= gamma 2 * (y / 2) + eta64.
Proof.
  intros Fx Hx Hy. assert (U := u64_pos). assert (K : Rabs (rnd y - y) <= u64 * Rabs y) by (destruct Hy as [-> | ->]; [apply rnd_sub|apply rnd_add]; auto using float_1). assert (P : 0 <= y) by (destruct Hy as [-> | ->]; lra).
  rewrite (Rabs_right y) in K by lra. assert (K2 := rnd_err (0.5 * rnd y)). rewrite Rabs_mult, (Rabs_right 0.5) in K2 by lra. assert (A : Rabs (rnd y) <= (1 + u64) * y) by (assert (T := Rabs_triang (rnd y - y) y); replace (rnd y - y + y) with (rnd y) in T by ring; rewrite (Rabs_right y) in T by lra; lra).
  replace (rnd (0.5 * rnd y) - y / 2) with ((rnd (0.5 * rnd y) - 0.5 * rnd y) + 0.5 * (rnd y - y)) by lra. eapply Rle_trans; [apply Rabs_triang|]. rewrite (Rabs_mult 0.5), (Rabs_right 0.5) by lra.
  rewrite (gamma_S 1), gamma_1. nra.
Qed.
Lemma prod_error x y a : float64 x -> -1 <= x <= 1 -> (y = 1 - x \/ y = 1 + x) -> Rabs (rnd (a * rnd (0.5 * rnd y)) - a * (y / 2)) <= Rabs a * (gamma 3 * (y / 2) + (1 + u64) * eta64) + eta64.
Proof.
  intros Fx Hx Hy. assert (U := u64_pos). assert (ET := eta64_pos). assert (K := coef_error x y Fx Hx Hy). assert (P : 0 <= y / 2) by (destruct Hy as [-> | ->]; lra). set (c := rnd (0.5 * rnd y)) in *. set (z := y / 2) in *.
  assert (K2 := rnd_err (a * c)). rewrite Rabs_mult in K2. assert (A : Rabs c <= (1 + gamma 2) * z + eta64) by (assert (T := Rabs_triang (c - z) z); replace (c - z + z) with c in T by ring; rewrite (Rabs_right z) in T by lra; lra).
  replace (rnd (a * c) - a * z) with ((rnd (a * c) - a * c) + a * (c - z)) by ring. eapply Rle_trans; [apply Rabs_triang|]. rewrite (Rabs_mult a (c - z)). assert (PA := Rabs_pos a).
  assert (X1 : Rabs a * Rabs c <= Rabs a * ((1 + gamma 2) * z + eta64)) by (apply Rmult_le_compat_l; auto). assert (X2 : Rabs a * Rabs (c - z) <= Rabs a * (gamma 2 * z + eta64)) by (apply Rmult_le_compat_l; auto).
  rewrite (gamma_S 2). nra.
Qed.
Lemma point_error a b x M : float64 x -> -1 <= x <= 1 -> Rabs a <= M -> Rabs b <= M -> Rabs (fl_point a b x - to_interval (a, b) x) <= gamma 4 * M + 3 * (1 + M) * eta64.
Proof.
  intros Fx Hx Ha Hb. assert (U := u64_pos). assert (U20 : u64 <= 1 / 100) by (assert (K := u64_small); assert (1 / 2 ^ 20 <= 1 / 100) by (cbn [pow]; lra); lra). assert (ET := eta64_pos).
  assert (K0 := prod_error x (1 - x) a Fx Hx (or_introl eq_refl)). assert (K1 := prod_error x (1 + x) b Fx Hx (or_intror eq_refl)).
  unfold fl_point, to_interval. cbn [fst snd]. set (p0 := rnd (a * _)) in *. set (p1 := rnd (b * _)) in *. assert (K := rnd_add p0 p1 (float_rnd _) (float_rnd _)).
  set (y0 := (1 - x) / 2) in *. set (y1 := (1 + x) / 2) in *. replace (a * (0.5 * (1 - x)) + b * (0.5 * (1 + x))) with (a * y0 + b * y1) by (unfold y0, y1; lra).
  assert (Y0 : 0 <= y0) by (unfold y0; lra). assert (Y1 : 0 <= y1) by (unfold y1; lra). assert (Y : y0 + y1 = 1) by (unfold y0, y1; lra). assert (PM : 0 <= M) by (eapply Rle_trans; [apply Rabs_pos|exact Ha]). assert (G := gamma_nonneg 3).
  assert (E : Rabs (p0 - a * y0) + Rabs (p1 - b * y1) <= gamma 3 * M + 2 * (1 + u64) * M * eta64 + 2 * eta64).
  { assert (X0 : Rabs a * (gamma 3 * y0 + (1 + u64) * eta64) <= M * (gamma 3 * y0 + (1 + u64) * eta64)) by (apply Rmult_le_compat_r; nra).
    assert (X1 : Rabs b * (gamma 3 * y1 + (1 + u64) * eta64) <= M * (gamma 3 * y1 + (1 + u64) * eta64)) by (apply Rmult_le_compat_r; nra).
    replace (gamma 3 * M) with (M * (gamma 3 * y0) + M * (gamma 3 * y1)) by (rewrite <- Rmult_plus_distr_l, <- Rmult_plus_distr_l, Y; ring). lra. }
  assert (Z : Rabs (a * y0 + b * y1) <= M).
  { eapply Rle_trans; [apply Rabs_triang|]. rewrite !Rabs_mult, (Rabs_right y0), (Rabs_right y1) by lra. replace M with (M * y0 + M * y1) by (rewrite <- Rmult_plus_distr_l, Y; ring). apply Rplus_le_compat; apply Rmult_le_compat_r; auto. }
  assert (S1 : Rabs ((p0 + p1) - (a * y0 + b * y1)) <= Rabs (p0 - a * y0) + Rabs (p1 - b * y1)). { replace ((p0 + p1) - (a * y0 + b * y1)) with ((p0 - a * y0) + (p1 - b * y1)) by ring. apply Rabs_triang. }
  assert (S2 : Rabs (p0 + p1) <= M + (Rabs (p0 - a * y0) + Rabs (p1 - b * y1))). { replace (p0 + p1) with ((a * y0 + b * y1) + ((p0 + p1) - (a * y0 + b * y1))) by ring. eapply Rle_trans; [apply Rabs_triang|]. lra. }
  replace (rnd (p0 + p1) - (a * y0 + b * y1)) with ((rnd (p0 + p1) - (p0 + p1)) + ((p0 + p1) - (a * y0 + b * y1))) by ring. eapply Rle_trans; [apply Rabs_triang|]. rewrite (gamma_S 3). set (E0 := Rabs (p0 - a * y0) + Rabs (p1 - b * y1)) in *.
  apply Rle_trans with (u64 * M + (1 + u64) * (gamma 3 * M + 2 * (1 + u64) * M * eta64 + 2 * eta64)); [nra|].
  assert (X : (1 + u64) * (2 * (1 + u64) * M * eta64 + 2 * eta64) <= 3 * (1 + M) * eta64).
  { assert ((1 + u64) * (1 + u64) <= 1.1) by nra. assert (0 <= M * eta64) by nra. replace ((1 + u64) * (2 * (1 + u64) * M * eta64 + 2 * eta64)) with (2 * ((1 + u64) * (1 + u64)) * (M * eta64) + 2 * (1 + u64) * eta64) by ring. nra. }
  nra.
Qed.
Lemma rnd_range x : -1 <= x <= 1 -> -1 <= rnd x <= 1.
Proof. intros H. rewrite <- (rnd_float 1 float_1), <- (rnd_float (-1)) by (apply (float_opp 1), float_1). rewrite (rnd_float 1 float_1). split; [rewrite (rnd_float (-1)) by (apply (float_opp 1), float_1)|]. 
  - rewrite <- (rnd_float (-1)) by (apply (float_opp 1), float_1). apply rnd_le. lra.
  - rewrite <- (rnd_float 1 float_1). apply rnd_le. lra.
Qed.
