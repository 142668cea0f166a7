(** compute_dobrodeev (helpers/misc.py) yields degree-5 rules for every fully symmetric functional. *)
From Coq Require Import Reals List Arith Lia Lra Permutation Bool.
From Verif Require Import Spec RsumLemmas CombModel CombProofs CombProofs2 Moments SymExact
  IntegralSpec IntegralProofs PyBase SymmModel SymmProofs MiscModel CnModel SchemeTools CnTools.
Import ListNotations.
Open Scope R_scope.

Lemma gnum_c w n i v0 l : (i <= n)%nat ->
  gnum (w, [(l, i); ([v0], (n - i)%nat)]) = INR (comb n i) * INR (length l) ^ i.
Proof.
  intros H. assert (G := gnum_big w n [(l, i)] [v0]). simpl map in G. cbn [list_sum fold_right] in G.
  rewrite Nat.add_0_r in G. cbn [app] in G. rewrite G by auto. rewrite INR_comb.
  cbn [prodfact prodpow fst snd length]. rewrite !Nat.mul_1_r, pow_INR. simpl (INR 1). rewrite pow1.
  field. apply INR_fact_neq_0.
Qed.

Lemma multinomial2 n j k : (j + k <= n)%nat ->
  INR (fact n / (fact j * fact k * fact (n - j - k))) = ffR (j + k) (INR n) / (INR (fact j) * INR (fact k)).
Proof.
  intros H. assert (L := length_partitions [j; k; (n - j - k)%nat]). simpl in L.
  rewrite Nat.add_0_r, Nat.mul_1_r in L. replace (j + (k + (n - j - k)))%nat with n in L by lia.
  set (q := length (partitions [j; k; (n - j - k)%nat])) in *.
  assert (F1 := fact_neq_0 j). assert (F2 := fact_neq_0 k). assert (F3 := fact_neq_0 (n - j - k)).
  rewrite <- L at 1. rewrite Nat.mul_assoc with (n := fact j). rewrite Nat.div_mul by (rewrite !Nat.mul_eq_0; intuition).
  apply (f_equal INR) in L. rewrite !mult_INR, (fact_ffR (j + k) n) in L by auto.
  replace (n - (j + k))%nat with (n - j - k)%nat in L by lia.
  assert (G1 := INR_fact_neq_0 j). assert (G2 := INR_fact_neq_0 k). assert (G3 := INR_fact_neq_0 (n - j - k)).
  apply (Rmult_eq_reg_r (INR (fact j) * INR (fact k) * INR (fact (n - j - k)))).
  { transitivity (INR q * (INR (fact j) * (INR (fact k) * INR (fact (n - j - k))))); [ring|]. rewrite L. field. auto. }
  repeat (apply Rmult_integral_contrapositive; split); auto.
Qed.

Lemma gnum_cc w n j k v0 l1 l2 : (j + k <= n)%nat -> length l1 = 2%nat -> length l2 = 2%nat ->
  gnum (w, [(l1, j); (l2, k); ([v0], (n - (j + k))%nat)]) =
  INR (fact n / (fact j * fact k * fact (n - j - k))) * 2 ^ (j + k).
Proof.
  intros H H1 H2. assert (G := gnum_big w n [(l1, j); (l2, k)] [v0]). simpl map in G. cbn [list_sum fold_right] in G.
  rewrite Nat.add_0_r in G. cbn [app] in G. rewrite G by auto. rewrite multinomial2 by auto.
  cbn [prodfact prodpow fst snd length]. rewrite H1, H2, !Nat.mul_1_r, !mult_INR, !pow_INR. simpl (INR 1). rewrite pow1.
  replace (INR 2) with 2 by (simpl; lra). rewrite pow_add.
  field. split; apply INR_fact_neq_0.
Qed.

Lemma sq_inj x y : 0 <= x -> 0 <= y -> x * x = y * y -> x = y.
Proof. intros. nra. Qed.

(** The algebra behind the method, in real variables. *)
Lemma dobrodeev_algebra n i j k L M t m2 f22 f4 u w p q A B C Q :
  0 < n -> 0 < i -> 0 < j -> 0 < k -> 0 < L -> 0 < M -> t * t = 1 ->
  0 <= u -> 0 <= w -> 0 <= p -> 0 <= q ->
  u * u = L / M * (f22 - m2 * m2 + (f4 - f22) / n) ->
  w * w = M / L * (f22 - m2 * m2 + (f4 - f22) / n) ->
  Q = L / M * (- ((j + k - i) / i) * (m2 * m2) + (j + k - 1) / n * f4 - (n - 1) / n * f22) +
      1 / i * ((j + k - i) * (m2 * m2) + (j + k) / n * ((i - 1) * f4 - (n - 1) * f22)) -
      t * 2 * m2 * ((j + k - i) / i) * u ->
  p * p = k / j * Q -> q * q = j / k * Q ->
  A = n / i * (m2 + t * w) -> B = n / (j + k) * (m2 - t * u + t * p) -> C = n / (j + k) * (m2 - t * u - t * q) ->
  1 / (L + M) * (L * i * A + M * (j * B + k * C)) = n * m2 /\
  1 / (L + M) * (L * i * A ^ 2 + M * (j * B ^ 2 + k * C ^ 2)) = n * f4 /\
  1 / (L + M) * (L * (i * A) ^ 2 + M * (j * B + k * C) ^ 2) = n * (n - 1) * f22 + n * f4.
Proof.
  intros Hn Hi Hj Hk HL HM Ht Hu Hw Hp Hq Eu Ew EQ Ep Eq -> -> ->.
  assert (Ew' : w = M / L * u).
  { apply sq_inj; auto. { apply Rmult_le_pos; auto. apply Rlt_le, Rdiv_lt_0_compat; auto. }
    rewrite Ew. replace (M / L * u * (M / L * u)) with (M / L * (M / L) * (u * u)) by ring. rewrite Eu. field. lra. }
  assert (Ep' : p = k / j * q).
  { apply sq_inj; auto. { apply Rmult_le_pos; auto. apply Rlt_le, Rdiv_lt_0_compat; auto. }
    rewrite Ep. replace (k / j * q * (k / j * q)) with (k / j * (k / j) * (q * q)) by ring. rewrite Eq. field. lra. }
  assert (X1 : j * (n / (j + k) * (m2 - t * u + t * p)) + k * (n / (j + k) * (m2 - t * u - t * q)) = n * (m2 - t * u)).
  { rewrite Ep'. field. lra. }
  assert (X2 : j * (n / (j + k) * (m2 - t * u + t * p)) ^ 2 + k * (n / (j + k) * (m2 - t * u - t * q)) ^ 2
          = n ^ 2 / (j + k) * ((m2 - t * u) ^ 2 + Q)).
  { transitivity (n ^ 2 / (j + k) * ((m2 - t * u) ^ 2 + t * t * (k / j * (q * q)))).
    { rewrite Ep'. field. lra. }
    rewrite Ht, Eq. field. lra. }
  assert (Y : L * i * (n / i * (m2 + t * w)) = n * L * m2 + n * M * (t * u)).
  { rewrite Ew'. field. lra. }
  assert (Y2 : (m2 + t * w) ^ 2 = m2 ^ 2 + 2 * t * m2 * M / L * u + M / L * (f22 - m2 * m2 + (f4 - f22) / n)).
  { rewrite <- Ew. rewrite Ew'. replace (m2 ^ 2 + 2 * t * m2 * M / L * u + M / L * u * (M / L * u)) with
    (m2 ^ 2 + 2 * t * m2 * M / L * u + 1 * (M / L * u * (M / L * u))) by ring. rewrite <- Ht. field. lra. }
  assert (Y3 : (m2 - t * u) ^ 2 = m2 ^ 2 - 2 * t * m2 * u + L / M * (f22 - m2 * m2 + (f4 - f22) / n)).
  { rewrite <- Eu. replace (u * u) with (1 * (u * u)) at 1 by ring. rewrite <- Ht. ring. }
  split; [|split].
  { rewrite X1, Y. field. lra. }
  { rewrite X2, Y3. replace ((n / i * (m2 + t * w)) ^ 2) with ((n / i) ^ 2 * (m2 + t * w) ^ 2) by ring.
    rewrite Y2, EQ. field. lra. }
  rewrite X1. replace ((i * (n / i * (m2 + t * w))) ^ 2) with (n ^ 2 * (m2 + t * w) ^ 2) by (field; lra).
  replace ((n * (m2 - t * u)) ^ 2) with (n ^ 2 * (m2 - t * u) ^ 2) by ring.
  rewrite Y2, Y3. field. lra.
Qed.

(** The four moment equations that the numbers returned by compute_dobrodeev satisfy. *)
Lemma dobrodeev_eqs n I0 I2 I22 I4 t i j k G a b c :
  t * t = 1 -> (2 <= n)%nat -> (i <= n)%nat -> (j + k <= n)%nat ->
  compute_dobrodeev n I0 I2 I22 I4 t i j k = Some (G, a, b, c) ->
  let L := INR (comb n i) * 2 ^ i in
  let M := INR (fact n / (fact j * fact k * fact (n - j - k)))%nat * 2 ^ (j + k) in
  G * (L + M) = 1 /\
  G * (L * INR i * (a * a) + M * (INR j * (b * b) + INR k * (c * c))) = INR n * (I2 / I0) /\
  G * (L * INR i * (a * a) ^ 2 + M * (INR j * (b * b) ^ 2 + INR k * (c * c) ^ 2)) = INR n * (I4 / I0) /\
  G * (L * (INR i * (a * a)) ^ 2 + M * (INR j * (b * b) + INR k * (c * c)) ^ 2) =
     INR n * (INR n - 1) * (I22 / I0) + INR n * (I4 / I0).
Proof.
  intros Ht Hn Hi Hjk H L M. unfold compute_dobrodeev in H. cbv zeta in H. fold L M in H.
  inv_opt.
  match goal with E : _ = (G, a, b, c) |- _ => injection E as <- <- <- <- | _ => idtac end.
  assert (HN : 2 <= INR n) by (replace 2 with (INR 2) by (simpl; lra); apply le_INR; lia).
  assert (pos : forall x, INR x <> 0 -> 0 < INR x).
  { intros x Hx. assert (0 <= INR x) by apply pos_INR. lra. }
  assert (LP : 0 < L).
  { unfold L. apply Rmult_lt_0_compat; [|apply pow_lt; lra]. apply pos. intros E. apply Nz3. unfold L. rewrite E. ring. }
  assert (MP : 0 < M).
  { unfold M. apply Rmult_lt_0_compat; [|apply pow_lt; lra]. apply pos. intros E. apply Nz6. unfold M. rewrite E. ring. }
  assert (E0 : v0 = I2 / I0 * (I2 / I0)) by (rewrite D14; field; auto).
  subst.
  split; [field; auto|].
  eapply (dobrodeev_algebra (INR n) (INR i) (INR j) (INR k) L M t (I2 / I0) (I22 / I0) (I4 / I0) v10 v13 v18 v21);
   try eassumption; try apply pos; auto.
  all: rewrite <- E0; auto.
Qed.

Theorem dobrodeev_exact n I mom I0 I2 I22 I4 t i j k G a b c :
  fs_functional n I mom -> (2 <= n)%nat -> (i <= n)%nat -> (j + k <= n)%nat -> t * t = 1 ->
  mom [] = 1 -> mom [2%nat] = I2 / I0 -> mom [4%nat] = I4 / I0 -> mom [2%nat; 2%nat] = I22 / I0 ->
  compute_dobrodeev n I0 I2 I22 I4 t i j k = Some (G, a, b, c) ->
  exact n 5 I (sym_rule [(G, [([a; - a], i); ([0], (n - i)%nat)]);
                         (G, [([b; - b], j); ([c; - c], k); ([0], (n - (j + k))%nat)])]).
Proof.
  intros HI Hn Hi Hjk Ht M0 M2 M4 M22 H.
  destruct (dobrodeev_eqs _ _ _ _ _ _ _ _ _ _ _ _ _ Ht Hn Hi Hjk H) as [E0 [E2 [E4 E22]]]. clear H.
  set (L := INR (comb n i) * 2 ^ i) in *.
  set (M := INR (fact n / (fact j * fact k * fact (n - j - k)))%nat * 2 ^ (j + k)) in *.
  assert (HN : 2 <= INR n) by (replace 2 with (INR 2) by (simpl; lra); apply le_INR; lia).
  apply (fs_exact_even n 5 I mom); [auto|ok_groups|even_groups|].
  intros l Hl Hl2. cbn [map fst snd Rsum].
  assert (G1 := gnum_c G n i 0 [a; - a] Hi). assert (G2 := gnum_cc G n j k 0 [b; - b] [c; - c] Hjk eq_refl eq_refl).
  cbn [length] in G1. replace (INR 2) with 2 in G1 by (simpl; lra). fold L in G1. fold M in G2. rewrite G1, G2.
  assert (K : forall x, INR (n - x) = INR (n - x)) by auto.
  split_parts Hl; exp_avg; red_means.
  { rewrite M0. transitivity (G * (L + M)); [ring|exact E0]. }
  { rewrite M2. apply (Rmult_eq_reg_l (INR n)); [|lra]. rewrite <- E2. field. lra. }
  { rewrite M22. assert (A : INR n * (INR n - 1) * (I22 / I0) = 
       G * (L * (INR i * (a * a)) ^ 2 + M * (INR j * (b * b) + INR k * (c * c)) ^ 2)
      - G * (L * INR i * (a * a) ^ 2 + M * (INR j * (b * b) ^ 2 + INR k * (c * c) ^ 2))) by (rewrite E22, E4; ring).
    apply (Rmult_eq_reg_l (INR n * (INR n - 1))); [|intros E; apply Rmult_integral in E; lra]. rewrite A. field. lra. }
  { rewrite M4. apply (Rmult_eq_reg_l (INR n)); [|lra]. rewrite <- E4. field. lra. }
Qed.
