(** Exactness of the ball schemes, for every dimension. *)
From Coq Require Import Reals List Arith Lia Lra Permutation Bool.
From Verif Require Import Spec RsumLemmas CombModel CombProofs CombProofs2 Moments SymExact
  IntegralSpec IntegralProofs PyBase SymmModel SymmProofs MiscModel CnModel SchemeTools CnTools CnProofs IntegralProofs2 CnProofs2 CnProofs4
  TrigSums CnProofs5 MsModel MsProofs MsProofs2 Dobrodeev SphereSpec SphereInt RadialInt RadialTools UnModel UnProofs NsimplexProofs RadialDob SnModel RadialTrig.
Import ListNotations.
Set Bullet Behavior "Strict Subproofs".
Open Scope R_scope.

Ltac sn_even n := let F := fresh "Fs" in assert (F := ball_fs n); rad_even F.
Ltac nz_prod := repeat (apply Rmult_integral_contrapositive; split); try apply pow_nonzero; lra.
Ltac elim_n n := generalize dependent (INR n); let N := fresh "N" in intros N; intros; subst N.

Theorem stroud_sn_3_1_exact n : (1 <= n)%nat -> good_scheme n 3 (ballI n) (stroud_sn_3_1 n).
Proof.
  intros H. unfold stroud_sn_3_1, sn_hammer_stroud_11n. cbv zeta. inr_pos n. rewrite !Rplus_0_r.
  apply bind_div; [lra|]. intros q Hq. assert (0 < q) by (subst; apply Rdiv_lt_0_compat; lra). apply bind_sqrt; [lra|]. intros r Pr Qr.
  apply bind_div; [lra|]. intros w Hw. fsd_step.
  apply (from_data_good n [(w, [([r; - r], 1%nat); ([0], (n - 1)%nat)])]). subst w.
  sn_even n. all: rad_pre n; rewrite ?Qr, ?Hq; clear Hq; prep n; intros; field; side.
Qed.
Theorem stroud_sn_3_2_exact n : (1 <= n)%nat -> good_scheme n 3 (ballI n) (stroud_sn_3_2 n).
Proof.
  intros H. unfold stroud_sn_3_2. inr_pos n. assert (0 < 1 / (INR n + 2)) by (apply Rdiv_lt_0_compat; lra).
  apply bind_sqrt; [lra|]. intros r Pr Qr. rewrite Rpm_combine by (apply (sq_pos_nz r (1 / (INR n + 2))); auto).
  apply (from_data_good n [(1 / 2 ^ n, [([r; - r], n)])]).
  sn_even n. all: rad_pre n; rewrite ?Qr; prep n; intros; field; side.
Qed.
Theorem stroud_sn_5_2_exact n : (2 <= n)%nat -> good_scheme n 5 (ballI n) (stroud_sn_5_2 n).
Proof.
  intros H. unfold stroud_sn_5_2, sn_hammer_stroud_12n. cbv zeta. inr_pos n. rewrite !Rplus_0_r.
  apply bind_div; [nz_prod|]. intros q Hq. assert (0 < q) by (subst; apply Rdiv_lt_0_compat; nra). apply bind_sqrt; [lra|]. intros r Pr Qr.
  apply bind_div; [nz_prod|]. intros B1 HB1. apply bind_div; [nz_prod|]. intros B2 HB2. fsd_step. fsd_step. rewrite Rz_combine.
  apply (from_data_good n [(1 - 2 * INR n * B1 - 2 * INR n * (INR n - 1) * B2, [([0], n)]); (B1, [([r; - r], 1%nat); ([0], (n - 1)%nat)]); (B2, [([r; - r], 2%nat); ([0], (n - 2)%nat)])]). subst B1 B2.
  sn_even n. all: rad_pre n; rewrite ?Qr, ?Hq; clear Hq; prep n; intros; field; side.
Qed.
Theorem sn_stroud_1966_a_exact n : (2 <= n)%nat -> good_scheme n 5 (ballI n) (sn_stroud_1966_a n).
Proof.
  intros H. unfold sn_stroud_1966_a. cbv zeta. inr_pos n. assert (P2 := pow2_nz n). assert (2 <= INR n) by (apply (le_INR 2); lia).
  apply bind_sqrt; [lra|]. intros a Pa Qa. assert (3 < a) by nra. assert (a < INR n + 4) by nra.
  apply bind_div; [lra|]. intros r2 Hr2. assert (P3 : 0 < INR n ^ 2 + 2 * INR n - 4) by nra. apply bind_div; [nz_prod|]. intros s2 Hs2.
  assert (0 < r2) by (subst; apply Rdiv_lt_0_compat; lra). assert (0 < s2) by (subst; apply Rdiv_lt_0_compat; nra).
  apply bind_div; [nz_prod|]. intros B1 HB1. apply bind_div; [nz_prod|]. intros B2 HB2.
  apply bind_sqrt; [lra|]. intros r Pr Qr. apply bind_sqrt; [lra|]. intros s Ps Qs. fsd_step. rewrite Rpm_combine by (apply (sq_pos_nz s s2); auto).
  apply (from_data_good n [(B1, [([r; - r], 1%nat); ([0], (n - 1)%nat)]); (B2, [([s; - s], n)])]).
  assert (Eq : INR n = (a * a - 8) / 2) by lra. assert (a * a - 8 <> 0) by lra.
  assert (a - 2 <> 0) by lra. assert (a + 2 <> 0) by lra. assert (a * a + 2 * a - 4 <> 0) by nra.
  assert (Na : a * a - 2 * a - 4 <> 0).
  { intros E0. assert (INR n ^ 2 + 2 * INR n - 4 = (a * a + 2 * a - 4) * (a * a - 2 * a - 4) / 4) by (rewrite Eq; field). rewrite E0 in *. lra. }
  assert (Hr2' : r2 = (a - 2) / a) by (rewrite Hr2, Eq; field; repeat split; nra).
  assert (Hs2' : s2 = 2 * (a - 2) / (a * (a * a - 2 * a - 4))).
  { rewrite Hs2. replace (INR n ^ 2 + 2 * INR n - 4) with ((a * a + 2 * a - 4) * (a * a - 2 * a - 4) / 4) by (rewrite Eq; field).
    replace (INR n + 4) with (a * a / 2) by (rewrite Eq; field). replace (INR n) with ((a * a - 8) / 2) by (rewrite Eq; field). field. repeat split; lra. }
  clear Hr2 Hs2 P3.
  sn_even n. all: rad_pre n; rewrite ?Qr, ?Qs, ?HB1, ?HB2, ?Hr2', ?Hs2'; clear Hr2' Hs2' Qr Qs HB1 HB2.
  all: inr_lits; rewrite ?pow1, ?pow2_pred by lia; nz_facts n; elim_n n.
  all: field; side; try lra; try (intros ?; nra).
Qed.
Theorem sn_stroud_1966_c_exact n : (1 <= n)%nat -> good_scheme n 5 (ballI n) (sn_stroud_1966_c n).
Proof.
  intros H. unfold sn_stroud_1966_c. cbv zeta. inr_pos n. assert (P2 := pow2_nz n).
  apply bind_sqrt; [lra|]. intros a Pa Qa. assert (2 < a) by nra. assert (a < INR n + 2) by nra.
  apply bind_div; [nz_prod|]. intros r2 Hr2. assert (0 < r2) by (subst; apply Rdiv_lt_0_compat; nra).
  apply bind_sqrt; [lra|]. intros r Pr Qr. apply bind_div; [nz_prod|]. intros s2 Hs2. assert (0 < s2) by (subst; apply Rdiv_lt_0_compat; nra).
  apply bind_sqrt; [lra|]. intros s Ps Qs. apply bind_div; [nz_prod|]. intros B0 HB0. apply bind_div; [nz_prod|]. intros B1 HB1.
  rewrite Rz_combine.
  apply (from_data_good n [(B0, [([0], n)]); (B1, [([r; - r], 1%nat); ([s; - s], (n - 1)%nat)])]).
  assert (Eq : INR n = (a * a - 4) / 2) by lra. assert (a * a - 4 <> 0) by lra. assert (a - 2 <> 0) by lra. assert (a + 2 <> 0) by lra. assert (a * a + 4 <> 0) by nra.
  sn_even n. all: rad_pre n; rewrite ?Qr, ?Qs, ?HB0, ?HB1, ?Hr2, ?Hs2; clear Hr2 Hs2 Qr Qs HB1 HB0.
  all: inr_lits; rewrite ?pow1, ?pow2_pred by lia; nz_facts n; elim_n n.
  all: field; side; try lra; try (intros ?; nra).
Qed.

Lemma nb_h n : (forall k, length k = n -> ballI n k = rmoment (h_ball n) k). Proof. intros. apply ballI_val; auto. Qed.
Theorem sn_stroud_1957_exact n : (1 <= n)%nat -> good_scheme n 2 (ballI n) (sn_stroud_1957 n).
Proof.
  intros H. unfold sn_stroud_1957. inr_pos n. assert (0 < 2 / (INR n + 2)) by (apply Rdiv_lt_0_compat; lra).
  apply bind_sqrt; [lra|]. intros c Pc Qc. apply bind_sqrt; [lra|]. intros s Ps Qs. assert (0 < s) by nra. apply bind_div; [lra|]. intros d Hd.
  apply bind_div; [lra|]. intros w Hw. apply (trig2_exact n c d w _ (h_ball n)); auto using nb_h, h_ball_0.
  - rewrite Qc. unfold h_ball. cbn. field. lra.
  - subst d. replace (1 / s * (1 / s)) with (1 / (s * s)) by (field; lra). rewrite Qs. unfold h_ball. cbn. field. lra.
Qed.

Lemma pow2_split n k : (k <= n)%nat -> 2 ^ n = 2 ^ (n - k) * 2 ^ k.
Proof. intros H. rewrite <- pow_add. f_equal. lia. Qed.
Lemma sn_stroud_1966_b_run n m : (1 <= n)%nat -> forall k, (1 <= k)%nat -> (k + m = n + 1)%nat -> exists q,
  sn_stroud_1966_b_data n (sqrt (1 / (INR n + 4))) (seq k m) = Some (face_list n ((INR n + 4) / (INR n + 2)) (1 / (INR n + 4)) (seq k m), q) /\
  q = (INR n + 4) / (INR n + 2) * (2 / (INR k + 1) - 2 / (INR n + 2)).
Proof.
  intros Hn. inr_pos n. induction m as [|m IH]; intros k Hk Hm.
  { exists 0. split; [reflexivity|]. replace k with (n + 1)%nat by lia. rewrite plus_INR. cbn [INR]. field. lra. }
  destruct (IH (S k) ltac:(lia) ltac:(lia)) as [q [E Hq]]. cbn [seq sn_stroud_1966_b_data]. cbv zeta. pose proof (pos_INR k).
  rewrite !Rplus_0_r. rewrite rdiv_ok by nz_prod.
  rewrite rsqrt_ok by (apply Rlt_le, Rdiv_lt_0_compat; nra). rewrite E. cbn [bind].
  assert (2 ^ n <> 0) by apply pow2_nz.
  replace (2 ^ k / 2 ^ n * (INR n + 2) * INR n * (INR n + 4) / (INR n * (INR k + 1) * (INR k + 2) * (INR n + 2) ^ 2))
    with ((INR n + 4) / (INR n + 2) * (2 ^ k / 2 ^ n) / ((INR k + 1) * (INR k + 2))) by (field; repeat split; auto; lra).
  replace ((INR k + 2) * (INR n + 2) / ((INR n + 2) * (INR n + 4))) with ((INR k + 2) * (1 / (INR n + 4))) by (field; lra).
  eexists. split.
  - unfold face_list. cbn [map]. unfold face_entry at 2. rewrite Rpm_pad. reflexivity.
  - rewrite Hq, S_INR, (pow2_split n k) by lia. replace (n - k + 1)%nat with (S (n - k)) by lia. cbn [pow]. assert (2 ^ k <> 0) by apply pow2_nz. assert (2 ^ (n - k) <> 0) by apply pow2_nz.
    field. repeat split; auto; lra.
Qed.
Theorem sn_stroud_1966_b_exact n : (1 <= n)%nat -> good_scheme n 5 (ballI n) (sn_stroud_1966_b n).
Proof.
  intros H. unfold sn_stroud_1966_b. cbv zeta. inr_pos n. rewrite !Rplus_0_r. replace ((INR n + 2) / ((INR n + 2) * (INR n + 4))) with (1 / (INR n + 4)) by (field; lra).
  assert (P : 0 < 1 / (INR n + 4)) by (apply Rdiv_lt_0_compat; lra). rewrite rsqrt_ok by lra. cbn [bind].
  destruct (sn_stroud_1966_b_run n n H 1 ltac:(lia) ltac:(lia)) as [q [E Hq]]. rewrite E. cbn [bind]. eexists. split; [reflexivity|]. split; [auto|]. split; [auto|].
  apply (face_exact n ((INR n + 4) / (INR n + 2)) (1 / (INR n + 4)) (1 - q) _ (h_ball n)); auto using nb_h, h_ball_0.
  - unfold h_ball. cbn. field. lra.
  - unfold h_ball. cbn. field. lra.
  - rewrite Hq. cbn [INR]. field. lra.
  - intros f. unfold data_sum. rewrite map_app, Rsum_app. cbn [map Rsum fst snd]. unfold Rz, z. cbn [map Rsum]. ring.
  - apply Forall_app. split; [apply face_dims; apply Forall_forall; intros k Hk; apply in_seq in Hk; lia|]. repeat constructor. cbn. apply repeat_length.
Qed.

Theorem sn_stroud_1966_d_exact n : (1 <= n)%nat -> good_scheme n 5 (ballI n) (sn_stroud_1966_d n).
Proof.
  intros H. unfold sn_stroud_1966_d. cbv zeta. inr_pos n. assert (P2 := pow2_nz n).
  apply bind_sqrt; [lra|]. intros p Pp Qp. assert (2 < p) by nra.
  assert (Pb : 0 < 2 * (INR n + 1) * (INR n + 2) * (INR n + 4)) by (repeat apply Rmult_lt_0_compat; lra).
  apply bind_sqrt; [lra|]. intros b Pb' Qb.
  assert (P3 : 0 < INR n * (INR n + 2) * (INR n + 4)) by (repeat apply Rmult_lt_0_compat; lra).
  assert (B : b < INR n * (INR n + 4) + 2 * p).
  { assert (b * b < (INR n * (INR n + 4) + 2 * p) * (INR n * (INR n + 4) + 2 * p)); [|nra].
    rewrite Qb. assert (E : (INR n * (INR n + 4) + 2 * p) * (INR n * (INR n + 4) + 2 * p) - 2 * (INR n + 1) * (INR n + 2) * (INR n + 4) =
      INR n * (INR n + 4) * (INR n * (INR n + 2) + 4 * p - 6) + 4 * (p * p - (INR n + 4))) by ring.
    assert (0 < INR n * (INR n + 4) * (INR n * (INR n + 2) + 4 * p - 6)) by (repeat apply Rmult_lt_0_compat; nra). lra. }
  apply bind_div; [lra|]. intros r2 Hr2. assert (0 < r2) by (subst; apply Rdiv_lt_0_compat; nra). apply bind_sqrt; [lra|]. intros r Pr Qr.
  apply bind_div; [lra|]. intros s2 Hs2. assert (0 < s2) by (subst; apply Rdiv_lt_0_compat; nra). apply bind_sqrt; [lra|]. intros s Ps Qs.
  apply bind_div; [nz_prod|]. intros t2 Ht2. assert (0 < t2) by (subst; apply Rdiv_lt_0_compat; nra). apply bind_sqrt; [lra|]. intros t Pt Qt.
  apply bind_div; [nz_prod|]. intros w Hw. rewrite Rpm_combine by (apply (sq_pos_nz t t2); auto).
  apply (from_data_good n [(w, [([r; - r], 1%nat); ([s; - s], (n - 1)%nat)]); (w, [([t; - t], n)])]).
  assert (Eb : b ^ 2 = 2 * (INR n + 1) * (INR n + 2) * (INR n + 4)) by (rewrite <- Qb; ring).
  assert (Ep : p ^ 2 = INR n + 4) by (rewrite <- Qp; ring). clear Pb' Pp Qp Qb B Pb.
  sn_even n. all: rad_pre n; rewrite ?Qr, ?Qs, ?Qt, ?Hr2, ?Hs2, ?Ht2, ?Hw; clear Hs2 Hr2 Ht2 Qr Qs Qt Hw.
  all: inr_lits; rewrite ?pow1, ?pow2_pred by lia; nz_facts n.
  all: field_simplify_eq; [|side; try (intros ?; nra)].
  all: rewrite ?Eb, ?Ep; ring.
Qed.
Lemma inv_of x y : x * y = 1 -> 1 / x = y.
Proof. intros H. assert (x <> 0) by (intros ->; lra). apply (Rmult_eq_reg_l x); auto. rewrite H. field. auto. Qed.
Lemma pos_of_inv x y : x * y = 1 -> 0 < y -> 0 < x.
Proof. intros H Hy. destruct (Rle_or_lt x 0); auto. nra. Qed.
Theorem sn_stroud_1967_7_ab_exact n (v : bool) : (3 <= n <= (if v then 7 else 6))%nat -> good_scheme n 7 (ballI n) (sn_stroud_1967_7_ab n v).
Proof.
  intros H. unfold sn_stroud_1967_7_ab. cbv zeta. assert (Hn : (3 <= n <= 7)%nat) by (destruct v; lia).
  assert (N3 : 3 <= INR n) by (apply (le_INR 3) in Hn || (replace 3 with (INR 3) by (simpl; lra); apply le_INR; lia)).
  assert (N7 : INR n <= 7) by (replace 7 with (INR 7) by (simpl; lra); apply le_INR; lia).
  assert (N6 : v = false -> INR n <= 6) by (intros ->; replace 6 with (INR 6) by (simpl; lra); apply le_INR; lia).
  assert (N34 : 34 - 5 * INR n <> 0).
  { replace 34 with (INR 34) by (simpl; lra). replace 5 with (INR 5) by (simpl; lra). rewrite <- mult_INR. intros E. assert (INR 34 = INR (5 * n)) by lra. apply INR_eq in H0. lia. }
  apply bind_guard; [apply Nat.leb_le; lia|]. apply bind_guard; [apply Nat.leb_le; destruct v; lia|].
  set (tt := if v then 1 else -1). assert (Htt : tt * tt = 1) by (unfold tt; destruct v; lra).
  apply bind_sqrt; [apply Rmult_le_pos; lra|]. intros al Pal Qal.
  assert (P1 : 0 < 3 * INR n ^ 2 + 6 * INR n - 16) by nra.
  apply bind_div; [nz_prod|]. intros r2 Hr2. apply bind_div; [nz_prod|]. intros s2 Hs2. apply bind_div; [lra|]. intros t2 Ht2.
  assert (A6 : al < 6 * (INR n + 6)) by nra.
  assert (B6 : 2 * al < 3 * INR n * (INR n + 6)) by nra.
  assert (Ht : t2 * ((6 * (INR n + 6) - tt * al) / (3 * (INR n + 4))) = 1).
  { rewrite Ht2. field_simplify_eq; [|lra]. replace (tt ^ 2) with 1 by (rewrite <- Htt; ring). replace (al ^ 2) with (6 * (INR n + 6) * (8 - INR n)) by (rewrite <- Qal; ring). ring. }
  assert (Hs : s2 * ((3 * INR n * (INR n + 6) + 2 * tt * al) / (3 * (INR n + 4) * (INR n + 6)) * (INR n + 6)) = 1).
  { rewrite Hs2. field_simplify_eq; [|repeat split; lra]. replace (tt ^ 2) with 1 by (rewrite <- Htt; ring). replace (al ^ 2) with (6 * (INR n + 6) * (8 - INR n)) by (rewrite <- Qal; ring). ring. }
  assert (Hr : r2 * ((3 * (INR n + 6) * (8 - INR n) + tt * (INR n - 2) * al) / (3 * (8 - INR n) * (INR n + 4))) = 1).
  { rewrite Hr2. field_simplify_eq; [|repeat split; lra]. replace (tt ^ 2) with 1 by (rewrite <- Htt; ring). replace (al ^ 2) with (6 * (INR n + 6) * (8 - INR n)) by (rewrite <- Qal; ring). ring. }
  assert (Pt : 0 < t2) by (subst t2; apply Rdiv_lt_0_compat; [unfold tt; destruct v|]; nra).
  assert (Ps : 0 < s2) by (subst s2; apply Rdiv_lt_0_compat; [unfold tt; destruct v; lra|apply Rmult_lt_0_compat; lra]).
  assert (Pr : 0 < r2).
  { destruct v.
    - apply (pos_of_inv _ _ Hr). unfold tt. apply Rdiv_lt_0_compat; [|repeat apply Rmult_lt_0_compat; lra].
      assert (0 < (INR n + 6) * (8 - INR n)) by (apply Rmult_lt_0_compat; lra). assert (0 <= (INR n - 2) * al) by (apply Rmult_le_pos; lra). lra.
    - specialize (N6 eq_refl). subst r2. unfold tt. apply Rdiv_lt_0_compat; [|apply Rmult_lt_0_compat; lra].
      assert (0 < (INR n + 6) * (8 - INR n)) by (apply Rmult_lt_0_compat; lra). assert (0 <= (INR n - 2) * al) by (apply Rmult_le_pos; lra). lra. }
  assert (It := inv_of _ _ Ht). assert (Is := inv_of _ _ Hs). assert (Ir := inv_of _ _ Hr).
  assert (P2 := pow2_nz n).
  apply bind_div; [nz_prod|]. intros B HB. apply bind_div; [nz_prod|]. intros C HC. apply bind_div; [nz_prod|]. intros D HD.
  apply bind_sqrt; [lra|]. intros r Pr' Qr. apply bind_sqrt; [lra|]. intros s Ps' Qs. apply bind_sqrt; [lra|]. intros t Pt' Qt.
  assert (Et : tt ^ 2 = 1) by (rewrite <- Htt; ring). assert (Ea : al ^ 2 = 6 * (INR n + 6) * (8 - INR n)) by (rewrite <- Qal; ring).
  clear Hr2 Hs2 Ht2.
  apply (seven_exact n (ballI n) (h_ball n) r s t r2 s2 t2); auto using ball_fs, h_ball_0; try lia.
  - rewrite HB. unfold h_ball. cbn [rise]. field. repeat split; lra.
  - rewrite HC. unfold h_ball. cbn [rise]. field. repeat split; auto; lra.
  - rewrite HD. unfold h_ball. cbn [rise]. field. repeat split; lra.
  - replace (2 / t2) with (2 * (1 / t2)) by (field; lra). rewrite It, Is. unfold h_ball. cbn [rise]. field. repeat split; lra.
  - replace (2 * (8 - INR n) / r2) with (2 * (8 - INR n) * (1 / r2)) by (field; lra). replace (2 * (INR n - 1) / t2) with (2 * (INR n - 1) * (1 / t2)) by (field; lra).
    rewrite It, Is, Ir. unfold h_ball. cbn [rise]. field. repeat split; lra.
  - replace (2 * (8 - INR n) / r2 ^ 2) with (2 * (8 - INR n) * (1 / r2) ^ 2) by (field; lra). replace (2 * (INR n - 1) / t2 ^ 2) with (2 * (INR n - 1) * (1 / t2) ^ 2) by (field; lra).
    replace (1 / s2 ^ 2) with ((1 / s2) ^ 2) by (field; lra).
    rewrite It, Is, Ir. unfold h_ball. cbn [rise]. field_simplify_eq; [|repeat split; lra]. rewrite ?Et, ?Ea. ring.
Qed.
Theorem sn_stroud_1967_7_c_exact n : (3 <= n)%nat -> good_scheme n 7 (ballI n) (sn_stroud_1967_7_c n).
Proof.
  intros H. unfold sn_stroud_1967_7_c. cbv zeta. assert (N3 : 3 <= INR n) by (replace 3 with (INR 3) by (simpl; lra); apply le_INR; lia).
  apply bind_guard; [apply Nat.leb_le; lia|]. apply bind_sqrt; [apply Rmult_le_pos; lra|]. intros al Pal Qal.
  assert (B : 2 * al < (INR n + 2) * (INR n + 4)) by nra.
  apply bind_sqrt. { apply Rlt_le, Rdiv_lt_0_compat; [apply Rdiv_lt_0_compat|]; nra. } intros r1 P1 Q1.
  apply bind_sqrt. { apply Rlt_le, Rdiv_lt_0_compat; [apply Rdiv_lt_0_compat|]; nra. } intros r2 P2 Q2.
  apply bind_div; [nz_prod|]. intros A1 H1. apply bind_div; [nz_prod|]. intros A2 H2.
  destruct (stroud_1967_exact n ltac:(lia)) as [s [Es G]]. rewrite Es. cbn [bind].
  apply (scaled_exact n 7 (h_sphere n) (h_ball n) (sphereI n) (ballI n)); auto using nb_h.
  - intros k Hk. apply sphereI_val; auto; lia.
  - exists s. auto.
  - intros m Hm. rewrite Q1, Q2, H1, H2. assert (Ea : al ^ 2 = 2 * (INR n + 2) * (INR n + 4)) by (rewrite <- Qal; ring).
    assert (Ea4 : al ^ 4 = (2 * (INR n + 2) * (INR n + 4)) ^ 2) by (rewrite <- Ea; ring).
    destruct m as [|[|[|[|m]]]]; [| | | |lia]; unfold h_sphere, h_ball; cbn [rise]; field_simplify_eq; try (repeat split; lra); rewrite ?Ea4, ?Ea; ring.
Qed.
Theorem sn_dobrodeev_1970_exact n : (3 <= n)%nat -> good_scheme n 7 (ballI n) (sn_dobrodeev_1970 n).
Proof.
  intros H. unfold sn_dobrodeev_1970. cbv zeta. inr_pos n. assert (N3 : 3 <= INR n) by (replace 3 with (INR 3) by (simpl; lra); apply le_INR; lia).
  apply bind_div; [lra|]. intros C HC. apply bind_div; [nz_prod|]. intros D HD. apply bind_div; [nra|]. intros E1 HE.
  assert (0 < 3 / (INR n + 6)) by (apply Rdiv_lt_0_compat; lra).
  apply bind_sqrt; [lra|]. intros r Pr Qr. fsd_step. fsd_step. fsd_step. fsd_step. rewrite Rz_combine.
  match goal with |- context [untangle ?d] => change d with (gdata
     [(1/8, [([r; - r], 3%nat); ([0], (n - 3)%nat)]);
      ((5 - INR n) / 4, [([r; - r], 2%nat); ([0], (n - 2)%nat)]);
      (C, [([r; - r], 1%nat); ([0], (n - 1)%nat)]);
      (D, [([1; - 1], 1%nat); ([0], (n - 1)%nat)]);
      (E1 - INR n * (INR n ^ 2 - 12 * INR n + 65) / 6, [([0], n)])]) end.
  match goal with |- context [gdata ?g] => assert (G := mk_rule_gdata g); set (gs := g) in * end.
  destruct (untangle (gdata gs)) as [pts ws]. apply bind_div; [nz_prod|]. intros V HV.
  assert (V0 : 0 < V) by (subst V; apply Rdiv_lt_0_compat; [|apply pow_lt]; nra).
  destruct (Req_EM_T V 0) as [E0|_]; [lra|]. eexists. split; [reflexivity|]. cbn [s_dim s_degree s_rule].
  split; auto. split; auto.
  unfold Rdiv at 1. rewrite mk_rule_scale, G, sym_rule_scale. unfold gs. cbn [map fst snd]. subst C D E1 V. clear G gs pts ws V0.
  assert (INR n * INR n + 12 * INR n + 36 <> 0) by nra.
  sn_even n. all: rad_pre n; rewrite ?Qr; clear Qr.
  all: prep n; intros; field; side; nra.
Qed.
